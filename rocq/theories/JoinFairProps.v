(** C126: waiting for a coroutine in fair executions. *)
From Coq Require Import List Arith Bool Lia.
From Verif Require Import Base FairSpec JoinSpec JoinModel JoinProofs JoinLive JoinProps.
From Verif Require Import JoinFair.
Import ListNotations.

(** A finished execution as an infinite one in which nothing happens any more. *)
Section Stop.
  Variables (c : jcfg) (p0 : nat -> nat) (ls : list jlbl) (sf : jst).
  Hypothesis R : run (jstep_ok c) (jinit p0) ls = Some sf.
  Definition zst (n : nat) : jst := match run (jstep_ok c) (jinit p0) (firstn n ls) with Some s => s | None => jinit p0 end.
  Definition zlb (n : nat) : option jlbl := nth_error ls n.
  Lemma z_run : forall n, run (jstep_ok c) (jinit p0) (firstn n ls) = Some (zst n).
  Proof.
    intros n. unfold zst. destruct (run (jstep_ok c) (jinit p0) (firstn n ls)) eqn:E; auto. exfalso. rewrite <- (firstn_skipn n ls), run_app, E in R. discriminate.
  Qed.
  Lemma z_end : forall n, length ls <= n -> zst n = sf.
  Proof. intros n L. assert (E := z_run n). rewrite firstn_all2 in E by exact L. congruence. Qed.
  Lemma z_exec : execution _ _ (jstep_ok c) (jinit p0) zst zlb.
  Proof.
    split; [reflexivity|]. intros n. unfold zlb. destruct (nth_error ls n) as [l|] eqn:E.
    - assert (X := z_run (S n)). assert (F : firstn (S n) ls = firstn n ls ++ [l]).
      { clear - E. revert ls E. induction n as [|n IH]; intros [|a r] E; try discriminate E; simpl in E; [now injection E as ->|]. cbn [firstn app]. now rewrite <- IH. }
      rewrite F, run_app, z_run in X. simpl in X. destruct (jstep_ok c (zst n) l); congruence.
    - apply nth_error_None in E. rewrite !z_end by lia. reflexivity.
  Qed.
  Lemma z_fair : quiet c sf -> strongly_fair _ _ (jstep_ok c) jwho zst zlb.
  Proof.
    intros Q t n. exists (n + length ls). split; [lia|]. right. intros k K (l&s'&W&E). rewrite z_end in E by lia. unfold jstep_ok in E.
    rewrite Q in E; [discriminate|]. destruct l; try discriminate W; reflexivity.
  Qed.
End Stop.

(** ** C126 *)
(** False: the witness of join_completes_refuted, in which the signal switches a caller out between its two unlocks, is a fair execution. *)
Theorem join_fair_refuted : exists c p0 st lb, (forall j, timed c j = false) /\ execution _ _ (jstep_ok c) (jinit p0) st lb /\ strongly_fair _ _ (jstep_ok c) jwho st lb /\
  (exists d r, lb d = Some (LEnd r)) /\ exists n j, lb n = Some (LCall j) /\ forall m r, n < m -> ~ In (HRet j r) (jh (st m)).
Proof.
  assert (H : exists s, run (jstep_ok cfgU) (jinit (fun _ => 9)) preW = Some s /\ quiet cfgU s /\ forall r, ~ In (HRet 0 r) (jh s)).
  { eexists. split; [vm_compute; reflexivity|]. split; [|simpl; intuition discriminate].
    intros l I. destruct l as [| |j|j|j|j| |j|]; try discriminate I; try reflexivity; destruct j; reflexivity. }
  destruct H as (s&R&Q&N). exists cfgU, (fun _ => 9), (zst cfgU (fun _ => 9) preW), (zlb preW).
  split; [reflexivity|]. split; [eapply z_exec; eauto|]. split; [eapply z_fair; eauto|]. split; [exists 8, (RetV (Some 7)); reflexivity|]. exists 0, 0. split; [reflexivity|].
  intros m r _ B. destruct (Nat.le_gt_cases (length preW) m) as [L|L]; [rewrite (z_end _ _ _ _ R) in B by exact L; exact (N r B)|].
  simpl in L. do 9 (destruct m as [|m]; [vm_compute in B; intuition discriminate|]). lia.
Qed.
Print Assumptions join_fair_refuted.
(** What holds: any number of calls, also infinitely many, whenever they begin, before or after the end; if the target ends and no signal hits a call between
    the two unlocks, each of them returns (with the result of the target: join_results). *)
Theorem join_fair_partial : forall c p0 st lb, (forall j, timed c j = false) -> execution _ _ (jstep_ok c) (jinit p0) st lb -> strongly_fair _ _ (jstep_ok c) jwho st lb ->
  (forall n j, lb n <> Some (LPre j)) -> (exists d r, lb d = Some (LEnd r)) ->
  forall n j, lb n = Some (LCall j) -> exists m r, n < m /\ In (HRet j r) (jh (st m)).
Proof. intros c p0 st lb NT EX SF NP (d&r&D) n j L. exact (call_returns c p0 st lb EX SF NT NP n j d r D L). Qed.
Print Assumptions join_fair_partial.
(** And the end of a coroutine is complete at some moment, however many coroutines go on to call: nobody holds it up. *)
Theorem join_fair_end_partial : forall c p0 st lb, (forall j, timed c j = false) -> execution _ _ (jstep_ok c) (jinit p0) st lb -> strongly_fair _ _ (jstep_ok c) jwho st lb ->
  (forall n j, lb n <> Some (LPre j)) -> forall d r, lb d = Some (LEnd r) -> exists m, d < m /\ fp (st m) = FDone /\ exists r', In (HFin r') (jh (st m)).
Proof.
  intros c p0 st lb NT EX SF NP d r D. assert (E := jf_step c p0 st lb EX d). rewrite D in E.
  destruct (finish_ends c p0 st lb EX SF NT NP (S d)) as (m&M&F); [jcases E; js; reflexivity|]. exists m. split; [lia|]. split; [exact F|].
  destruct (jf_inv c p0 st lb EX NP m) as ((_&DI&_)&_&_). apply (d_h1 _ _ _ DI). now rewrite (d_fin _ _ _ DI), F.
Qed.
Print Assumptions join_fair_end_partial.


(** The execution of join_example: one call before the end, one after it. *)
Example join_fair_example : exists st lb, (forall j, timed cfgU j = false) /\ execution _ _ (jstep_ok cfgU) (jinit (fun _ => 9)) st lb /\ strongly_fair _ _ (jstep_ok cfgU) jwho st lb /\
  (forall n j, lb n <> Some (LPre j)) /\ lb 8 = Some (LEnd (RetV (Some 7))) /\ lb 0 = Some (LCall 0) /\ lb 11 = Some (LCall 1).
Proof.
  destruct join_example_quiet as (s&R&Q). exists (zst cfgU (fun _ => 9) joinW), (zlb joinW). split; [reflexivity|]. split; [eapply z_exec; eauto|]. split; [eapply z_fair; eauto|].
  split; [|auto]. intros n j E. apply nth_error_In in E. simpl in E. repeat (destruct E as [E|E]; [discriminate E|]). exact E.
Qed.

(** An execution that goes on for ever: the target ends, then coroutine after coroutine waits for it. *)
Definition xpre : list jlbl := LEnd (RetV (Some 7)) :: repeat LFin 4.
Definition xcall (k : nat) : list jlbl := LCall k :: repeat (LStep k) 6.
Definition xlb (n : nat) : option jlbl := if n <? 5 then nth_error xpre n else nth_error (xcall ((n - 5) / 7)) ((n - 5) mod 7).
Fixpoint xst (n : nat) : jst :=
  match n with
  | 0 => jinit (fun _ => 9)
  | S m => match xlb m with Some l => match jstep_ok cfgU (xst m) l with Some s => s | None => xst m end | None => xst m end
  end.
Definition xbase (k : nat) (s : jst) : Prop :=
  (forall l, own s l = None) /\ fin s = true /\ exc s = None /\ fp s = FDone /\ pend s = [] /\ freed s = false /\ forall j, cp s j = if j <? k then CD else C0.
Lemma x_block : forall k s, xbase k s -> exists s1 s2 s3 s4 s5 s6 s7, jstep_ok cfgU s (LCall k) = Some s1 /\ jstep_ok cfgU s1 (LStep k) = Some s2 /\
  jstep_ok cfgU s2 (LStep k) = Some s3 /\ jstep_ok cfgU s3 (LStep k) = Some s4 /\ jstep_ok cfgU s4 (LStep k) = Some s5 /\ jstep_ok cfgU s5 (LStep k) = Some s6 /\
  jstep_ok cfgU s6 (LStep k) = Some s7 /\ xbase (S k) s7.
Proof.
  intros k [ow fi ex re su w ts f cc b r pr v fr pe h] (O&F&X&P&PE&FR&C). js. subst fi ex f pe fr. assert (Ck : cc k = C0) by (rewrite C, Nat.ltb_irrefl; reflexivity).
  do 7 eexists.
  Ltac tk := unfold jstep_ok, jstep, cstep, takef, take, lf_free, is_free; js; rewrite ?upd_same; cbn [own forallb andb lock_eqb cfgU timed env Nat.eqb].
  split; [tk; rewrite Ck; reflexivity|]. split; [tk; rewrite O; reflexivity|]. split; [tk; rewrite O; reflexivity|].
  split; [tk; reflexivity|]. split; [tk; reflexivity|]. split; [tk; reflexivity|]. split; [tk; reflexivity|].
  unfold xbase. js. repeat split.
  - intros l. cbn [cfgU env]. destruct (lock_eqb l LF); auto. destruct (lock_eqb l (LS 0)); auto.
  - intros j. unfold upd. destruct (Nat.eqb_spec j k) as [->|N]; [replace (k <? S k) with true by (symmetry; apply Nat.ltb_lt; lia); reflexivity|].
    rewrite C. destruct (Nat.ltb_spec j k), (Nat.ltb_spec j (S k)); auto; lia.
Qed.
Lemma xlb_at : forall k i, i < 7 -> xlb (5 + 7 * k + i) = nth_error (xcall k) i.
Proof.
  intros k i L. unfold xlb. replace (5 + 7 * k + i <? 5) with false by (symmetry; apply Nat.ltb_ge; lia). replace (5 + 7 * k + i - 5) with (i + k * 7) by lia.
  rewrite Nat.div_add, Nat.mod_add, Nat.div_small, Nat.mod_small by lia. reflexivity.
Qed.
Lemma x_next : forall n l s, xlb n = Some l -> jstep_ok cfgU (xst n) l = Some s -> xst (S n) = s.
Proof. intros n l s L E. simpl. now rewrite L, E. Qed.
Lemma x_base : forall k, xbase k (xst (5 + 7 * k)).
Proof.
  induction k as [|k IH].
  - simpl Nat.mul. vm_compute xst. unfold xbase. js. repeat split. intros l. destruct l; reflexivity.
  - destruct (x_block k _ IH) as (s1&s2&s3&s4&s5&s6&s7&E1&E2&E3&E4&E5&E6&E7&B).
    assert (L : forall i, i < 7 -> xlb (i + (5 + 7 * k)) = nth_error (xcall k) i) by (intros i Li; rewrite Nat.add_comm; now apply xlb_at).
    replace (5 + 7 * S k) with (7 + (5 + 7 * k)) by lia. revert IH L E1. generalize (5 + 7 * k) as n. intros n IH L E1.
    assert (X1 := x_next n _ _ (L 0 ltac:(lia)) E1). rewrite <- X1 in E2. assert (X2 := x_next _ _ _ (L 1 ltac:(lia)) E2). change (1 + n) with (S n) in X2. rewrite <- X2 in E3.
    assert (X3 := x_next _ _ _ (L 2 ltac:(lia)) E3). rewrite <- X3 in E4. assert (X4 := x_next _ _ _ (L 3 ltac:(lia)) E4). rewrite <- X4 in E5.
    assert (X5 := x_next _ _ _ (L 4 ltac:(lia)) E5). rewrite <- X5 in E6. assert (X6 := x_next _ _ _ (L 5 ltac:(lia)) E6). rewrite <- X6 in E7.
    assert (X7 := x_next _ _ _ (L 6 ltac:(lia)) E7). change (7 + n) with (S (6 + n)). now rewrite X7.
Qed.
Lemma x_ok : forall n, exists l, xlb n = Some l /\ jstep_ok cfgU (xst n) l = Some (xst (S n)).
Proof.
  intros n. destruct (Nat.lt_ge_cases n 5) as [L|L].
  - do 5 (destruct n as [|n]; [eexists; split; [reflexivity|vm_compute; reflexivity]|]). lia.
  - set (k := (n - 5) / 7). assert (M := Nat.mod_upper_bound (n - 5) 7 ltac:(lia)). assert (D := Nat.div_mod (n - 5) 7 ltac:(lia)). fold k in D.
    set (i := (n - 5) mod 7) in *. assert (N : n = i + (5 + 7 * k)) by lia. clearbody k i. subst n. clear L D.
    destruct (x_block k _ (x_base k)) as (s1&s2&s3&s4&s5&s6&s7&E1&E2&E3&E4&E5&E6&E7&_).
    assert (L : forall i, i < 7 -> xlb (i + (5 + 7 * k)) = nth_error (xcall k) i) by (intros j Lj; rewrite Nat.add_comm; now apply xlb_at).
    revert L E1. generalize (5 + 7 * k) as n. intros n L E1.
    assert (X1 := x_next n _ _ (L 0 ltac:(lia)) E1). rewrite <- X1 in *. assert (X2 := x_next _ _ _ (L 1 ltac:(lia)) E2). change (1 + n) with (S n) in X2. rewrite <- X2 in *.
    assert (X3 := x_next _ _ _ (L 2 ltac:(lia)) E3). rewrite <- X3 in *. assert (X4 := x_next _ _ _ (L 3 ltac:(lia)) E4). rewrite <- X4 in *.
    assert (X5 := x_next _ _ _ (L 4 ltac:(lia)) E5). rewrite <- X5 in *. assert (X6 := x_next _ _ _ (L 5 ltac:(lia)) E6). rewrite <- X6 in *.
    assert (X7 := x_next _ _ _ (L 6 ltac:(lia)) E7). rewrite <- X7 in *.
    do 7 (destruct i as [|i]; [eexists; split; [rewrite L by lia; reflexivity|eassumption]|]). lia.
Qed.
Lemma x_exec : execution _ _ (jstep_ok cfgU) (jinit (fun _ => 9)) xst xlb.
Proof. split; [reflexivity|]. intros n. destruct (x_ok n) as (l&E&S). now rewrite E. Qed.
Lemma x_nopre : forall n j, xlb n <> Some (LPre j).
Proof.
  intros n j. unfold xlb. destruct (n <? 5); intros E; apply nth_error_In in E; unfold xpre, xcall in E; simpl in E; repeat (destruct E as [E|E]; [discriminate E|]); exact E.
Qed.
Lemma x_fair : strongly_fair _ _ (jstep_ok cfgU) jwho xst xlb.
Proof.
  assert (FD : forall n, 5 <= n -> fp (xst n) = FDone).
  { intros n L. apply (done_stays cfgU (fun _ => 9) xst xlb x_exec 5 n L). assert (B := x_base 0). apply B. }
  assert (CDs : forall j d, cp (xst (d + (5 + 7 * S j))) j = CD).
  { intros j. induction d as [|d IH].
    - destruct (x_base (S j)) as (_&_&_&_&_&_&C). simpl Nat.add at 1. rewrite C. replace (j <? S j) with true by (symmetry; apply Nat.ltb_lt; lia). reflexivity.
    - destruct (x_ok (d + (5 + 7 * S j))) as (l&L&E). change (S d + (5 + 7 * S j)) with (S (d + (5 + 7 * S j))).
      rewrite (cp_other cfgU (fun _ => 9) xst xlb x_exec x_nopre); [exact IH| |congruence].
      rewrite L. intros Q. injection Q as ->. unfold jstep_ok, jstep, cstep in E. rewrite IH in E. discriminate. }
  intros [|j] n.
  - exists (n + 5). split; [lia|]. right. intros k K (l&s'&W&E). destruct l; try discriminate W. unfold jstep_ok, jstep, fstep in E. rewrite FD in E by lia. discriminate.
  - exists (n + (5 + 7 * S j)). split; [lia|]. right. intros k K (l&s'&W&E). destruct l; try discriminate W. injection W as ->. unfold jstep_ok, jstep, cstep in E.
    replace k with (k - (5 + 7 * S j) + (5 + 7 * S j)) in E by lia. rewrite CDs in E. discriminate.
Qed.
Example join_fair_endless : (forall j, timed cfgU j = false) /\ execution _ _ (jstep_ok cfgU) (jinit (fun _ => 9)) xst xlb /\ strongly_fair _ _ (jstep_ok cfgU) jwho xst xlb /\
  (forall n j, xlb n <> Some (LPre j)) /\ xlb 0 = Some (LEnd (RetV (Some 7))) /\ forall j, xlb (5 + 7 * j + 0) = Some (LCall j).
Proof. split; [reflexivity|]. split; [exact x_exec|]. split; [exact x_fair|]. split; [exact x_nopre|]. split; [reflexivity|]. intros j. now rewrite xlb_at by lia. Qed.

(** ** Fairness of the lock is needed *)
(** finish_lock__ (co_ctx.h 40) is a std::recursive_mutex, which may pass over a thread that waits for it again and again.  The function ends, and one caller
    after the other takes the lock before the finishing coroutine. *)
Definition ycall (k : nat) : list jlbl := LCall k :: repeat (LStep k) 7.
Definition ylb (n : nat) : option jlbl := match n with 0 => Some (LEnd (RetV (Some 7))) | S m => nth_error (ycall (m / 8)) (m mod 8) end.
Fixpoint yst (n : nat) : jst :=
  match n with
  | 0 => jinit (fun _ => 9)
  | S m => match ylb m with Some l => match jstep_ok cfgU (yst m) l with Some s => s | None => yst m end | None => yst m end
  end.
Definition ybase (k : nat) (s : jst) : Prop :=
  (forall l, own s l = None) /\ fin s = false /\ fp s = FLk /\ pend s = [] /\ freed s = false /\ forall j, cp s j = (if j <? k then CP else C0) /\ (j < k -> wt s j = true).
Lemma y_block : forall k s, ybase k s -> exists s1 s2 s3 s4 s5 s6 s7 s8, jstep_ok cfgU s (LCall k) = Some s1 /\ jstep_ok cfgU s1 (LStep k) = Some s2 /\
  jstep_ok cfgU s2 (LStep k) = Some s3 /\ jstep_ok cfgU s3 (LStep k) = Some s4 /\ jstep_ok cfgU s4 (LStep k) = Some s5 /\ jstep_ok cfgU s5 (LStep k) = Some s6 /\
  jstep_ok cfgU s6 (LStep k) = Some s7 /\ jstep_ok cfgU s7 (LStep k) = Some s8 /\ own s2 LF <> None /\ fp s2 = FLk /\ ybase (S k) s8.
Proof.
  intros k [ow fi ex re su w ts f cc b r pr v fr pe h] (O&F&P&PE&FR&C). js. subst fi f pe fr. assert (Ck : cc k = C0) by (rewrite (proj1 (C k)), Nat.ltb_irrefl; reflexivity).
  do 8 eexists.
  split; [tk; rewrite Ck; reflexivity|]. split; [tk; rewrite O; reflexivity|]. split; [tk; rewrite O; reflexivity|].
  split; [tk; reflexivity|]. split; [tk; rewrite O; reflexivity|]. split; [tk; reflexivity|]. split; [tk; reflexivity|]. split; [tk; reflexivity|].
  split; [discriminate|]. split; [reflexivity|]. unfold ybase. js. split; [|repeat split].
  - intros l. cbn [cfgU env]. destruct (lock_eqb l LF); auto. destruct (lock_eqb l (LS 0)); auto. destruct (lock_eqb l LM); auto.
  - destruct (C j) as [C1 _]. unfold upd. destruct (Nat.eqb_spec j k) as [->|N]; [replace (k <? S k) with true by (symmetry; apply Nat.ltb_lt; lia); reflexivity|].
    rewrite C1. destruct (Nat.ltb_spec j k), (Nat.ltb_spec j (S k)); auto; lia.
  - intros L. unfold upd. destruct (Nat.eqb_spec j k) as [->|N]; [reflexivity|]. apply C. lia.
Qed.
Lemma ylb_at : forall k i, i < 8 -> ylb (i + S (8 * k)) = nth_error (ycall k) i.
Proof.
  intros k i L. replace (i + S (8 * k)) with (S (i + k * 8)) by lia. unfold ylb. rewrite Nat.div_add, Nat.mod_add, Nat.div_small, Nat.mod_small by lia. reflexivity.
Qed.
Lemma y_next : forall n l s, ylb n = Some l -> jstep_ok cfgU (yst n) l = Some s -> yst (S n) = s.
Proof. intros n l s L E. simpl. now rewrite L, E. Qed.
(** All about one round. *)
Lemma y_round : forall k, ybase k (yst (S (8 * k))) -> (forall i, i < 8 -> exists l, ylb (i + S (8 * k)) = Some l /\ jstep_ok cfgU (yst (i + S (8 * k))) l = Some (yst (S (i + S (8 * k))))) /\
  (own (yst (2 + S (8 * k))) LF <> None /\ fp (yst (2 + S (8 * k))) = FLk) /\ ybase (S k) (yst (8 + S (8 * k))).
Proof.
  intros k B. destruct (y_block k _ B) as (s1&s2&s3&s4&s5&s6&s7&s8&E1&E2&E3&E4&E5&E6&E7&E8&N1&N2&B').
  assert (L := ylb_at k). revert B L E1. generalize (S (8 * k)) as n. intros n _ L E1.
  assert (X1 := y_next n _ _ (L 0 ltac:(lia)) E1). rewrite <- X1 in *. assert (X2 := y_next (1 + n) _ _ (L 1 ltac:(lia)) E2). rewrite <- X2 in *.
  assert (X3 := y_next (2 + n) _ _ (L 2 ltac:(lia)) E3). rewrite <- X3 in *. assert (X4 := y_next (3 + n) _ _ (L 3 ltac:(lia)) E4). rewrite <- X4 in *.
  assert (X5 := y_next (4 + n) _ _ (L 4 ltac:(lia)) E5). rewrite <- X5 in *. assert (X6 := y_next (5 + n) _ _ (L 5 ltac:(lia)) E6). rewrite <- X6 in *.
  assert (X7 := y_next (6 + n) _ _ (L 6 ltac:(lia)) E7). rewrite <- X7 in *. assert (X8 := y_next (7 + n) _ _ (L 7 ltac:(lia)) E8). rewrite <- X8 in *.
  split; [|split; [split; assumption|exact B']]. intros i Li. do 8 (destruct i as [|i]; [eexists; split; [rewrite L by lia; reflexivity|eassumption]|]). lia.
Qed.
Lemma y_base : forall k, ybase k (yst (S (8 * k))).
Proof.
  induction k as [|k IH]; [vm_compute yst; unfold ybase; js; repeat split; intros; lia|]. replace (S (8 * S k)) with (8 + S (8 * k)) by lia. now apply y_round.
Qed.
Lemma y_ok : forall n, exists l, ylb n = Some l /\ jstep_ok cfgU (yst n) l = Some (yst (S n)).
Proof.
  intros [|n]; [eexists; split; [reflexivity|vm_compute; reflexivity]|]. assert (M := Nat.mod_upper_bound n 8 ltac:(lia)). assert (D := Nat.div_mod n 8 ltac:(lia)).
  replace (S n) with (n mod 8 + S (8 * (n / 8))) by lia. apply y_round; auto. apply y_base.
Qed.
Lemma y_exec : execution _ _ (jstep_ok cfgU) (jinit (fun _ => 9)) yst ylb.
Proof. split; [reflexivity|]. intros n. destruct (y_ok n) as (l&E&S). now rewrite E. Qed.
Lemma y_nopre : forall n j, ylb n <> Some (LPre j).
Proof.
  intros [|n] j; [discriminate|]. unfold ylb. intros E; apply nth_error_In in E; unfold ycall in E; simpl in E; repeat (destruct E as [E|E]; [discriminate E|]); exact E.
Qed.
Theorem join_weak_refuted : exists c p0 st lb, (forall j, timed c j = false) /\ execution _ _ (jstep_ok c) (jinit p0) st lb /\ weakly_fair _ _ (jstep_ok c) jwho st lb /\
  (forall n j, lb n <> Some (LPre j)) /\ lb 0 = Some (LEnd (RetV (Some 7))) /\ forall j, exists n, lb n = Some (LCall j) /\ forall m r, ~ In (HRet j r) (jh (st m)).
Proof.
  exists cfgU, (fun _ => 9), yst, ylb. split; [reflexivity|]. split; [exact y_exec|]. split; [|split; [exact y_nopre|split; [reflexivity|]]].
  - intros [|j] n.
    + exists (2 + S (8 * n)). split; [lia|]. right. destruct (y_round n (y_base n)) as (_&(N&P)&_). intros (l&s'&W&E). destruct l; try discriminate W.
      unfold jstep_ok, jstep, fstep, takef, lf_free, is_free in E. rewrite P in E. destruct (own _ LF); [discriminate E|congruence].
    + exists (S (8 * (n + S j))). split; [lia|]. right. destruct (y_base (n + S j)) as (_&_&_&_&_&C). destruct (C j) as [C1 C2]. intros (l&s'&W&E). destruct l; try discriminate W. injection W as ->.
      unfold jstep_ok, jstep, cstep in E. rewrite C1, C2 in E by lia. replace (j <? n + S j) with true in E by (symmetry; apply Nat.ltb_lt; lia). discriminate.
  - intros j. exists (0 + S (8 * j)). split; [now rewrite ylb_at by lia|]. intros m r H.
    assert (Hs : forall a b, a <= b -> In (HRet j r) (jh (yst a)) -> In (HRet j r) (jh (yst b))).
    { intros a b L. induction L as [|b L IH]; auto. intros Q. specialize (IH Q). destruct (y_ok b) as (l&_&E). revert IH E. generalize (yst b) (yst (S b)). intros s s' IH E.
      destruct l; jcases E; js; simpl; auto. }
    apply (Hs m (S (8 * (m + S j)))) in H; [|lia]. destruct (jf_inv cfgU (fun _ => 9) yst ylb y_exec y_nopre (S (8 * (m + S j)))) as ((_&D&_)&_).
    assert (Q := d_cd _ _ _ D j (ex_intro _ r H)). destruct (y_base (m + S j)) as (_&_&_&_&_&C). rewrite (proj1 (C j)) in Q.
    replace (j <? m + S j) with true in Q by (symmetry; apply Nat.ltb_lt; lia). discriminate.
Qed.
Print Assumptions join_weak_refuted.
