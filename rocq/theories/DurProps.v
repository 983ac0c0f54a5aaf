(** C110: no timed call gives up before its time; C111: the manager's settings mean what they say. *)
From Coq Require Import List ZArith Bool Lia.
From Verif Require Import DurModel.
Import ListNotations.
Local Open Scope Z_scope.

(** The moment asked for: [count] units of [unit_ns] nanoseconds after [now]. *)
Definition asked (now : Z) (d : dur) : Z := now + count d * unit_ns d.
(** A reading of the steady clock, the count of a duration: what a signed 64-bit number can hold. *)
Definition num64 (z : Z) : Prop := - 2 ^ 63 <= z < 2 ^ 63.
(** The duration and the moment asked for can be expressed in nanoseconds. *)
Definition expressible (now : Z) (d : dur) : Prop := num64 (count d * unit_ns d) /\ num64 (asked now d).
(** A call that gave up, at the reading c of the clock. *)
Definition gave_up (r : ending) (c : Z) : Prop := r = Ends (Some (false, c)).

Lemma i64_some : forall z, num64 z -> i64 z = Some z.
Proof. intros z [A B]. unfold i64. apply Z.leb_le in A. apply Z.ltb_lt in B. now rewrite A, B. Qed.
Lemma i64_inv : forall z y, i64 z = Some y -> y = z /\ num64 z.
Proof.
  intros z y H. unfold i64 in H. destruct (- 2 ^ 63 <=? z) eqn:A; [|discriminate]. destruct (z <? 2 ^ 63) eqn:B; [|discriminate].
  injection H as <-. split; auto. split; [now apply Z.leb_le|now apply Z.ltb_lt].
Qed.
Lemma deadline_exact : forall now d e, deadline now d = Some e -> e = asked now d /\ expressible now d.
Proof.
  intros now d e H. unfold deadline, in_ns in H. destruct (i64 (count d * unit_ns d)) as [n|] eqn:N; [|discriminate].
  apply i64_inv in N as [-> N]. apply i64_inv in H as [-> H]. now split.
Qed.
Lemma deadline_some : forall now d, expressible now d -> deadline now d = Some (asked now d).
Proof. intros now d [A B]. unfold deadline, in_ns. rewrite i64_some by exact A. now rewrite i64_some by exact B. Qed.
Lemma try_until_false : forall e obs c, try_until e obs = Some (false, c) -> e <= c.
Proof.
  intros e obs. induction obs as [|[[|] c0] r IH]; intros c H; simpl in H; try discriminate.
  destruct (c0 <? e) eqn:L; [eauto|]. injection H as <-. now apply Z.ltb_ge.
Qed.
Lemma call_until_false : forall e obs c, call_until e obs = Some (false, c) -> e <= c.
Proof.
  intros e obs. induction obs as [|[c0 [|]] r IH]; intros c H; simpl in H; try discriminate; destruct (c0 <? e) eqn:L; try discriminate; eauto;
    injection H as <-; now apply Z.ltb_ge.
Qed.

(** *** try_lock_for, try_lock_shared_for, try_acquire_for, co_timed_call *)
(** Whenever such a call gives up, the time asked for is over; and if the time can be expressed the call is well defined.
    What is missing: durations that cannot, for which it is undefined. *)
Theorem try_for_partial : forall now d obs, 
  (forall c, gave_up (try_for now d obs) c -> asked now d <= c) /\ (expressible now d <-> try_for now d obs <> Undefined).
Proof.
  intros now d obs. unfold try_for, gave_up. split.
  - intros c H. destruct (deadline now d) as [e|] eqn:D; [|discriminate]. injection H as H. apply deadline_exact in D as [<- _]. eapply try_until_false; eauto.
  - split; [intros X; rewrite deadline_some by exact X; discriminate|]. intros X. destruct (deadline now d) as [e|] eqn:D; [|contradiction]. now apply deadline_exact in D.
Qed.
Print Assumptions try_for_partial.
(** A call that never finds what it wants gives up in the end: at the first reading that has reached the moment asked for. *)
Theorem try_for_ends_partial : forall now d pre c post, expressible now d -> (forall o, In o pre -> fst o = false /\ snd o < asked now d) ->
  asked now d <= c -> gave_up (try_for now d (pre ++ (false, c) :: post)) c.
Proof.
  intros now d pre c post X P C. unfold try_for, gave_up. rewrite deadline_some by exact X. f_equal. induction pre as [|[b z] pre IH]; simpl.
  - apply Z.ltb_ge in C. now rewrite C.
  - destruct (P (b, z) (or_introl eq_refl)) as [B L]. simpl in *. subst b. apply Z.ltb_lt in L. rewrite L. apply IH. intros o I. apply P. now right.
Qed.
Print Assumptions try_for_ends_partial.
Theorem timed_call_partial : forall now d obs,
  (forall c, gave_up (timed_call now d obs) c -> asked now d <= c) /\ (expressible now d <-> timed_call now d obs <> Undefined).
Proof.
  intros now d obs. unfold timed_call, gave_up. split.
  - intros c H. destruct (deadline now d) as [e|] eqn:D; [|discriminate]. injection H as H. apply deadline_exact in D as [<- _]. eapply call_until_false; eauto.
  - split; [intros X; rewrite deadline_some by exact X; discriminate|]. intros X. destruct (deadline now d) as [e|] eqn:D; [|contradiction]. now apply deadline_exact in D.
Qed.
Print Assumptions timed_call_partial.
(** co_timed_call: as long as the clock has not reached the moment asked for it goes on; the first attempt that succeeds ends the call with true, and the
    first reading that has reached the moment with false and no further attempt. *)
Theorem timed_call_ends_partial : forall now d pre c ok post, expressible now d -> (forall o, In o pre -> fst o < asked now d /\ snd o = false) ->
  (c < asked now d -> ok = true -> timed_call now d (pre ++ (c, ok) :: post) = Ends (Some (true, c))) /\
  (asked now d <= c -> gave_up (timed_call now d (pre ++ (c, ok) :: post)) c) /\ timed_call now d pre = Ends None.
Proof.
  intros now d pre c ok post X P. unfold timed_call, gave_up. rewrite deadline_some by exact X.
  assert (Q : forall r, call_until (asked now d) (pre ++ r) = call_until (asked now d) r).
  { intros r. induction pre as [|[z b] pre IH]; [reflexivity|]. destruct (P (z, b) (or_introl eq_refl)) as [L B]. simpl in *. subst b. apply Z.ltb_lt in L. rewrite L.
    apply IH. intros o I. apply P. now right. }
  split; [|split].
  - intros L ->. rewrite Q. simpl. apply Z.ltb_lt in L. now rewrite L.
  - intros L. rewrite Q. simpl. apply Z.ltb_ge in L. now rewrite L.
  - specialize (Q []). rewrite app_nil_r in Q. now rewrite Q.
Qed.
Print Assumptions timed_call_ends_partial.
Example timed_call_ex : timed_call 5000000000 (mkDur 10 1000000) [(5000000000, false); (5009999999, true); (5010000000, true)] = Ends (Some (true, 5009999999)) /\
  timed_call 5000000000 (mkDur 10 1000000) [(5000000000, false); (5010000000, true)] = Ends (Some (false, 5010000000)).
Proof. split; vm_compute; reflexivity. Qed.
(** Refuted: try_lock_for(std::chrono::hours::max()) and sleep_for(std::chrono::milliseconds::max()), meant to wait for ever,
    compute an overflow, whatever the time is. *)
Theorem long_refuted : forall now, num64 now -> 0 <= now ->
  num64 (2 ^ 63 - 1) /\ deadline now (mkDur (2 ^ 63 - 1) (3600 * 1000000000)) = None /\ deadline now (mkDur (2 ^ 63 - 1) 1000000) = None /\
  (0 < now -> deadline now (mkDur (2 ^ 63 - 1) 1) = None) /\ forall obs, try_for now (mkDur (2 ^ 63 - 1) 1000000) obs = Undefined.
Proof.
  intros now [A B] C. change (2 ^ 63) with 9223372036854775808 in *. split; [unfold num64; change (2 ^ 63) with 9223372036854775808; lia|].
  split; [reflexivity|]. split; [reflexivity|]. split; [|reflexivity].
  intros P. unfold deadline, in_ns. cbn [count unit_ns]. rewrite i64_some by (unfold num64; change (2 ^ 63) with 9223372036854775808; lia).
  unfold i64. change (2 ^ 63) with 9223372036854775808. destruct (now + (9223372036854775808 - 1) * 1 <? 9223372036854775808) eqn:L; [apply Z.ltb_lt in L; lia|].
  now rewrite andb_false_r.
Qed.
Print Assumptions long_refuted.

(** *** Relative timers *)
Lemma to_i64_id : forall z, 0 <= z < 2 ^ 63 -> to_i64 z = z.
Proof.
  intros z H. unfold to_i64. rewrite Z.mod_small by (change (2 ^ 63) with 9223372036854775808 in *; change (2 ^ 64) with 18446744073709551616; lia).
  destruct (z <? 2 ^ 63) eqn:L; auto. apply Z.ltb_ge in L. lia.
Qed.
Lemma to_i64_u64 : forall z, num64 z -> to_i64 (to_u64 z) = z.
Proof.
  intros z [A B]. unfold to_i64, to_u64. rewrite Z.mod_mod by discriminate. change (2 ^ 63) with 9223372036854775808 in *. change (2 ^ 64) with 18446744073709551616.
  destruct (Z.le_gt_cases 0 z).
  - rewrite Z.mod_small by lia. destruct (z <? 9223372036854775808) eqn:L; auto. apply Z.ltb_ge in L. lia.
  - assert (E : z mod 18446744073709551616 = z + 18446744073709551616).
    { symmetry. apply Z.mod_unique with (-1); lia. }
    rewrite E. destruct (z + 18446744073709551616 <? 9223372036854775808) eqn:L; [apply Z.ltb_lt in L; lia|lia].
Qed.
(** A timer whose interval and due time can be expressed in nanoseconds is due exactly its interval after its start, so it is
    not launched earlier (C47).  What is missing: longer intervals. *)
Theorem timer_due_partial : forall now i, 0 <= i -> num64 (i * 1000000) -> num64 (now + i * 1000000) ->
  relative_due now i = Some (now + i * 1000000) /\ forall c, expired (now + i * 1000000) c = true -> now + i * 1000000 <= c.
Proof.
  intros now i I A B. split.
  - unfold relative_due. rewrite to_i64_id by (destruct A as [_ A]; change (2 ^ 63) with 9223372036854775808 in *; lia).
    rewrite i64_some by exact A. now rewrite i64_some by exact B.
  - intros c H. now apply Z.leb_le.
Qed.
Print Assumptions timer_due_partial.
(** Refuted: a timer with the longest interval, or any of the 9223372036854 longest, is due before it is started. *)
Theorem timer_due_refuted : forall now k, num64 now -> 0 <= now -> 0 < k <= 9223372036854 ->
  0 <= 2 ^ 64 - k < 2 ^ 64 /\ relative_due now (2 ^ 64 - k) = Some (now - k * 1000000) /\ expired (now - k * 1000000) now = true.
Proof.
  intros now k [A B] C K. change (2 ^ 63) with 9223372036854775808 in *. split; [change (2 ^ 64) with 18446744073709551616; lia|].
  assert (U : to_u64 (- k) = 2 ^ 64 - k). { unfold to_u64. symmetry. apply Z.mod_unique with (-1); change (2 ^ 64) with 18446744073709551616; lia. }
  split.
  - unfold relative_due. rewrite <- U, to_i64_u64 by (split; change (2 ^ 63) with 9223372036854775808; lia).
    rewrite i64_some by (split; change (2 ^ 63) with 9223372036854775808; lia). rewrite i64_some by (split; change (2 ^ 63) with 9223372036854775808; lia). f_equal. lia.
  - apply Z.leb_le. lia.
Qed.
Print Assumptions timer_due_refuted.

(** *** co::wait_for and co::wait_until *)
Lemma quot_bounds : forall n, (0 <= n -> 0 <= n - Z.quot n 1000000 * 1000000 < 1000000) /\ (n <= 0 -> 0 <= Z.quot n 1000000 * 1000000 - n < 1000000).
Proof.
  intros n. pose proof (Z.quot_rem' n 1000000) as Q. split; intros H.
  - pose proof (Z.rem_bound_pos n 1000000 H eq_refl). lia.
  - pose proof (Z.rem_bound_pos_neg n 1000000 eq_refl H). lia.
Qed.
Lemma wait_due_eq : forall now n, num64 n -> num64 now -> num64 (now + n) -> 0 <= now -> wait_due now n = Some (now + Z.quot n 1000000 * 1000000).
Proof.
  intros now n A N B C. unfold wait_due, relative_due. destruct (quot_bounds n) as [P M]. unfold num64 in *. change (2 ^ 63) with 9223372036854775808 in *.
  rewrite to_i64_u64 by (unfold num64; change (2 ^ 63) with 9223372036854775808; destruct (Z.le_gt_cases 0 n); [specialize (P H)|specialize (M ltac:(lia))]; lia).
  rewrite i64_some by (unfold num64; change (2 ^ 63) with 9223372036854775808; destruct (Z.le_gt_cases 0 n); [specialize (P H)|specialize (M ltac:(lia))]; lia).
  rewrite i64_some; auto. unfold num64; change (2 ^ 63) with 9223372036854775808; destruct (Z.le_gt_cases 0 n); [specialize (P H)|specialize (M ltac:(lia))]; lia.
Qed.
(** A timeout of n nanoseconds: the timer is due at most a millisecond too early and never too late; with whole milliseconds it
    is due exactly in time; a timeout that is over already ends at once. *)
Theorem wait_for_partial : forall now d, num64 now -> 0 <= now -> expressible now d ->
  exists e, wait_for_due now d = Some e /\ (0 <= count d * unit_ns d -> asked now d - 1000000 < e <= asked now d) /\
    ((1000000 | count d * unit_ns d) -> e = asked now d) /\ (count d * unit_ns d < 0 -> asked now d <= e <= now).
Proof.
  intros now d N C [A B]. exists (now + Z.quot (count d * unit_ns d) 1000000 * 1000000). unfold wait_for_due, in_ns. rewrite i64_some by exact A.
  rewrite wait_due_eq by auto. unfold asked in *. destruct (quot_bounds (count d * unit_ns d)) as [P M]. split; auto. split; [intros H; specialize (P H); lia|]. split.
  - intros [k E]. rewrite E. rewrite Z.quot_mul by discriminate. lia.
  - intros H. specialize (M ltac:(lia)). split; [lia|]. assert (Z.quot (count d * unit_ns d) 1000000 <= 0) by (pose proof (Z.quot_rem' (count d * unit_ns d) 1000000); pose proof (Z.rem_bound_pos_neg (count d * unit_ns d) 1000000 eq_refl ltac:(lia)); lia). lia.
Qed.
Print Assumptions wait_for_partial.
(** Likewise wait_until, between whose two readings of the clock time passes. *)
Theorem wait_until_partial : forall now now' tp, num64 now -> 0 <= now <= now' -> num64 now' -> num64 tp -> 0 <= tp -> num64 (now' + (tp - now)) ->
  exists e, wait_until_due now now' tp = Some e /\ (now <= tp -> tp - 1000000 < e).
Proof.
  intros now now' tp N L N' T T0 X. exists (now' + Z.quot (tp - now) 1000000 * 1000000). unfold wait_until_due.
  assert (D : num64 (tp - now)) by (unfold num64 in *; change (2 ^ 63) with 9223372036854775808 in *; lia).
  rewrite i64_some by exact D. rewrite wait_due_eq by (auto; lia). split; auto. intros H. destruct (quot_bounds (tp - now)) as [P _]. specialize (P ltac:(lia)). lia.
Qed.
Print Assumptions wait_until_partial.
(** Refuted: wait_for(1999us) gives up after one millisecond, and wait_for(999us) does not wait at all. *)
Theorem wait_for_refuted : exists us now e, num64 now /\ 0 <= now /\ expressible now (mkDur us 1000) /\ us = 1999 /\
  wait_for_due now (mkDur us 1000) = Some e /\ expired e (now + 1000000) = true /\ now + 1000000 < asked now (mkDur us 1000) /\
  exists e', wait_for_due now (mkDur 999 1000) = Some e' /\ expired e' now = true.
Proof.
  exists 1999, 5. eexists. unfold expressible, num64, asked. cbn [count unit_ns]. change (2 ^ 63) with 9223372036854775808.
  split; [lia|]. split; [lia|]. split; [lia|]. split; [reflexivity|]. split; [vm_compute; reflexivity|]. split; [reflexivity|]. split; [reflexivity|].
  eexists. split; [vm_compute; reflexivity|reflexivity].
Qed.
Print Assumptions wait_for_refuted.

(** The hypotheses are met: two seconds, asked for five seconds after the machine was started. *)
Example try_for_ex : expressible 5000000000 (mkDur 2 1000000000) /\
  try_for 5000000000 (mkDur 2 1000000000) [(false, 6000000000); (false, 6900000000); (false, 7000000001)] = Ends (Some (false, 7000000001)) /\
  try_for 5000000000 (mkDur 2 1000000000) [(false, 6000000000); (true, 6900000000)] = Ends (Some (true, 6900000000)) /\
  timed_call 5000000000 (mkDur 2 1000000000) [(5000000001, false); (7000000001, true)] = Ends (Some (false, 7000000001)).
Proof. unfold expressible, num64, asked. cbn [count unit_ns]. change (2 ^ 63) with 9223372036854775808. repeat split; try lia; reflexivity. Qed.
Example timer_due_ex : relative_due 5000000000 1500 = Some 6500000000.
Proof. reflexivity. Qed.
Example wait_for_ex : wait_for_due 5000000000 (mkDur 1500 1000000) = Some 6500000000 /\ wait_for_due 5000000000 (mkDur (-3) 1000000000) = Some 2000000000
  /\ wait_until_due 5000000000 5000000007 8000000000 = Some 8000000007.
Proof. repeat split; reflexivity. Qed.

(** ** C111 *)
(** The tick: what was given, but ten milliseconds if that was less. *)
Theorem tick_set : forall d, set_tick d = Z.max d 10000000.
Proof. intros d. unfold set_tick. destruct (d <? 10 * 1000000) eqn:L; [apply Z.ltb_lt in L|apply Z.ltb_ge in L]; lia. Qed.
Print Assumptions tick_set.
(** A number of threads below 2^32: what was given, but one if that was none. *)
Theorem threads_set_partial : forall n, 0 <= n < 2 ^ 32 -> set_count n = Z.max n 1.
Proof.
  intros n H. change (2 ^ 32) with 4294967296 in H. unfold set_count. change (2 ^ 32) with 4294967296. destruct (n =? 0) eqn:E; [apply Z.eqb_eq in E; subst; reflexivity|].
  apply Z.eqb_neq in E. rewrite Z.mod_small by lia. lia.
Qed.
Print Assumptions threads_set_partial.
(** Refuted: set_max_schedule_thread_count(2^32), which fits a size_t, sets the maximum to no thread, which the test for zero
    is meant to exclude. *)
Theorem threads_set_refuted : exists n, 0 < n < 2 ^ 64 /\ set_count n = 0.
Proof. exists (2 ^ 32). split; [split; reflexivity|reflexivity]. Qed.
Print Assumptions threads_set_refuted.
Example settings_ex : set_tick 5000000 = 10000000 /\ set_tick 25000000 = 25000000 /\ set_count 0 = 1 /\ set_count 8 = 8.
Proof. repeat split; reflexivity. Qed.
