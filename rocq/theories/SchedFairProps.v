(** C114: a scheduler thread does not pass over a runnable coroutine for ever in favour of others that are not more urgent. *)
From Coq Require Import List Arith Bool ZArith Lia.
From Verif Require Import Base SchedSpec SchedModel SchedProofs SchedHist SchedPick FairSpec FairCycle SchedFair.
Import ListNotations.

(** Every call that has added or released a coroutine returns. *)
Definition calls_return (st : nat -> sst) : Prop :=
  forall k c n, at_work k c (shi (st n)) = true -> exists m, n <= m /\ shi (st (S m)) = VRet k :: shi (st m).
(** Again and again a decision is made that is not in favour of a priority above p. *)
Definition turns_left (st : nat -> sst) (p : nat) : Prop :=
  forall n, exists m o, n <= m /\ shi (st (S m)) = VPick o :: shi (st m) /\ match o with Some x => p <= hprio x (shi (st m)) | None => True end.

(** A coroutine that is runnable at priority p from moment n on is picked, whatever arrives, leaves, waits, changes its priority or is taken away meanwhile. *)
Theorem sched_no_starvation : forall cfg st lb, execution _ _ sstep_ok (sinit cfg) st lb -> calls_return st ->
  forall d p n, (forall m, n <= m -> runnable d (shi (st m)) /\ hprio d (shi (st m)) = p) -> turns_left st p ->
  exists m, n <= m /\ shi (st (S m)) = VPick (Some d) :: shi (st m).
Proof.
  intros cfg st lb EX CR d p n RN TL. pose proof (st_inv cfg st lb EX) as IV.
  apply (picked cfg d p st lb EX n); [|intros k j; apply CR|exact TL]. intros m M. destruct (RN m M) as (R&P). destruct (IV m) as (HI&HH&_).
  apply (runnable_iff cfg) in R as (L&C); auto. split; auto. split; auto. rewrite <- P. symmetry. now apply (h_pr cfg).
Qed.
Print Assumptions sched_no_starvation.

(** It is picked again and again. *)
Theorem sched_picked_often : forall cfg st lb, execution _ _ sstep_ok (sinit cfg) st lb -> calls_return st ->
  forall d p n, (forall m, n <= m -> runnable d (shi (st m)) /\ hprio d (shi (st m)) = p) -> turns_left st p ->
  forall n', exists m, n' <= m /\ shi (st (S m)) = VPick (Some d) :: shi (st m).
Proof.
  intros cfg st lb EX CR d p n RN TL n'. destruct (sched_no_starvation cfg st lb EX CR d p (n + n')) with (2 := TL) as (m&M&X); [intros m M; apply RN; lia|].
  exists m. split; [lia|auto].
Qed.
Print Assumptions sched_picked_often.

(** ** An execution that meets the hypotheses for coroutines 1, 2 and 3 of priority 3, which take turns.  Coroutine 4 of priority 5 is runnable too and is never picked:
    [turns_left] is needed. *)
Definition fcfg (c : nat) : Z * bool * bool * bool := (if c =? 4 then 5%Z else 3%Z, true, false, false).
Definition fadd (k c : nat) := [SetEnv k c; Push k; Upd1 k; Upd2 k].
Definition f_pre : list slbl := fadd 7 1 ++ fadd 8 2 ++ fadd 7 4 ++ fadd 9 3 ++ PickB :: repeat PickS 4.
Definition f_cyc : list slbl := [PickB; PickS].
Definition f_ok (s : sst) (c p : nat) : Prop := loc (cx s c) = Here /\ can_schedule (cx s c) = true /\ pr (cx s c) = p.
Definition f_base (s : sst) : Prop :=
  minp s = 3 /\ scn s = None /\ pnd s = None /\ (qs s 3 = [1; 2; 3] \/ qs s 3 = [2; 3; 1] \/ qs s 3 = [3; 1; 2]) /\
  (forall c, c < 4 -> 0 < c -> f_ok s c 3) /\ f_ok s 4 5 /\ (forall k c, at_work k c (shi s) = false) /\ ~ In (VPick (Some 4)) (shi s).
Lemma f_pick_ok : forall s i a c p, f_ok s c p -> f_ok (do_pick s i a) c p.
Proof.
  intros s i a c p (L&C&P). unfold f_ok. assert (K : forall x t, (loc x, can_schedule x, pr x) = (Here, true, p) -> t <> Fin -> (loc (set_stt x t), can_schedule (set_stt x t), pr (set_stt x t)) = (Here, true, p)).
  { intros x t E N. rewrite set_stt_loc, set_stt_pr, set_stt_cs; auto. }
  assert (E : (loc (cx s c), can_schedule (cx s c), pr (cx s c)) = (Here, true, p)) by (rewrite L, C, P; reflexivity).
  enough (G : (loc (cx (do_pick s i a) c), can_schedule (cx (do_pick s i a) c), pr (cx (do_pick s i a) c)) = (Here, true, p)) by (injection G; auto).
  cbn [do_pick cx]. destruct (Nat.eq_dec c a) as [->|N].
  - rewrite upd_same. apply K; [|discriminate]. destruct (cur s) as [e|]; auto. destruct (e =? a); auto. destruct (Nat.eq_dec a e) as [->|N]; [rewrite upd_same; apply K; auto; discriminate|now rewrite upd_other].
  - rewrite upd_other by auto. destruct (cur s) as [e|]; auto. destruct (e =? a); auto. destruct (Nat.eq_dec c e) as [->|N']; [rewrite upd_same; apply K; auto; discriminate|now rewrite upd_other].
Qed.
Lemma f_turn : forall s, f_base s -> exists a r, qs s 3 = a :: r /\ 0 < a < 4 /\
  sstep_ok s PickB = Some (setscn s (Some (3, a :: r))) /\ sstep_ok (setscn s (Some (3, a :: r))) PickS = Some (do_pick (setscn s (Some (3, a :: r))) 3 a) /\
  f_base (do_pick (setscn s (Some (3, a :: r))) 3 a).
Proof.
  intros s (Mi&Sc&Pn&Q&Ok&Ok4&Aw&Np).
  assert (X : exists a r, qs s 3 = a :: r /\ 0 < a < 4 /\ (rm a (a :: r) ++ [a] = [1; 2; 3] \/ rm a (a :: r) ++ [a] = [2; 3; 1] \/ rm a (a :: r) ++ [a] = [3; 1; 2])).
  { destruct Q as [Q|[Q|Q]]; rewrite Q; eexists; eexists; (split; [reflexivity|]); (split; [lia|]); simpl; auto. }
  destruct X as (a&r&E&La&Q'). exists a, r. split; auto. split; auto. destruct (Ok a) as (_&C&_); try lia.
  split; [unfold sstep_ok, sstep, running, unlocked; rewrite Sc, Pn, Mi, E; reflexivity|]. split; [unfold sstep_ok, sstep; cbn [setscn scn cx]; rewrite C; reflexivity|].
  set (s1 := setscn s (Some (3, a :: r))). assert (O1 : forall c p, f_ok s c p -> f_ok s1 c p) by auto.
  unfold f_base. split; [reflexivity|]. split; [reflexivity|]. split; [exact Pn|]. split; [cbn [do_pick qs]; rewrite upd_same; cbn [s1 setscn qs]; rewrite E; exact Q'|].
  split; [intros c L1 L2; apply f_pick_ok; auto|]. split; [apply f_pick_ok; auto|]. split; [exact Aw|]. cbn. intros [Y|Y]; [injection Y; lia|auto].
Qed.
Lemma f_next : forall s, f_base s -> exists s', run sstep_ok s f_cyc = Some s' /\ f_base s'.
Proof. intros s B. destruct (f_turn s B) as (a&r&_&_&S1&S2&B'). eexists. split; [|exact B']. unfold f_cyc. cbn [run]. rewrite S1. cbn [run]. rewrite S2. reflexivity. Qed.
Lemma f_start : exists s, run sstep_ok (sinit fcfg) f_pre = Some s /\ f_base s.
Proof.
  eexists. split; [vm_compute; reflexivity|]. unfold f_base, f_ok. repeat (split; [now auto|]). split; [|split; [repeat split|split]].
  - intros c L1 L2. do 4 (destruct c as [|c]; [try lia; repeat split|]). lia.
  - intros k c. cbn [shi at_work]. destruct (k =? 9); auto. destruct (k =? 7); auto. destruct (k =? 8); auto.
  - cbn. intuition discriminate.
Qed.
Lemma f_ne : f_cyc <> []. Proof. discriminate. Qed.
Definition fst_ := cst _ _ sstep_ok (sinit fcfg) f_pre f_cyc.
Definition flb := clb _ f_pre f_cyc.
Lemma some_inj : forall A (a b : A), Some a = Some b -> a = b.
Proof. intros A a b H. now injection H. Qed.
Example sched_fair_example : execution _ _ sstep_ok (sinit fcfg) fst_ flb /\ calls_return fst_ /\ turns_left fst_ 3 /\
  (forall d, 0 < d < 4 -> forall m, 21 <= m -> runnable d (shi (fst_ m)) /\ hprio d (shi (fst_ m)) = 3) /\
  (forall m, 21 <= m -> runnable 4 (shi (fst_ m)) /\ hprio 4 (shi (fst_ m)) = 5) /\ forall m, ~ In (VPick (Some 4)) (shi (fst_ m)).
Proof.
  pose proof (cyc_exec _ _ sstep_ok (sinit fcfg) f_pre f_cyc f_base f_ne f_start f_next) as EX. split; [exact EX|].
  pose proof (st_inv fcfg fst_ flb EX) as IV.
  assert (Bs : forall k, f_base (fst_ (21 + 2 * k))) by (intros k; exact (cyc_base _ _ sstep_ok (sinit fcfg) f_pre f_cyc f_base f_start f_next k)).
  assert (Pre : forall i, i <= 21 -> run sstep_ok (sinit fcfg) (firstn i f_pre) = Some (fst_ i)) by (intros i Li; exact (proj1 (cyc_pre _ _ sstep_ok (sinit fcfg) f_pre f_cyc f_base f_start i Li))).
  assert (RR1 : forall k, run sstep_ok (fst_ (21 + 2 * k)) [PickB] = Some (fst_ (21 + 2 * k + 1))) by (intros k; exact (proj1 (cyc_seg _ _ sstep_ok (sinit fcfg) f_pre f_cyc f_base f_start f_next k 1 ltac:(simpl; lia)))).
  assert (RR2 : forall k, run sstep_ok (fst_ (21 + 2 * k)) [PickB; PickS] = Some (fst_ (21 + 2 * k + 2))) by (intros k; exact (proj1 (cyc_seg _ _ sstep_ok (sinit fcfg) f_pre f_cyc f_base f_start f_next k 2 ltac:(simpl; lia)))).
  clear EX. revert IV Bs Pre RR1 RR2. generalize fst_. intros st IV Bs Pre RR1 RR2.
  assert (Tn : forall k, exists a r, 0 < a < 4 /\ st (21 + 2 * k + 1) = setscn (st (21 + 2 * k)) (Some (3, a :: r)) /\ st (21 + 2 * k + 2) = do_pick (st (21 + 2 * k + 1)) 3 a).
  { intros k. destruct (f_turn _ (Bs k)) as (a&r&_&La&S1&S2&_).
    pose proof (RR1 k) as R1. pose proof (RR2 k) as R2.
    cbn [run] in R1, R2. rewrite S1 in R1, R2. cbn [run] in R2. rewrite S2 in R2.
    exists a, r. split; auto. apply some_inj in R1. apply some_inj in R2. rewrite <- R2, <- R1. split; reflexivity. }
  assert (Pos : forall m, 21 <= m -> exists k, m = 21 + 2 * k \/ m = 21 + 2 * k + 1).
  { intros m M. exists ((m - 21) / 2). pose proof (Nat.div_mod_eq (m - 21) 2). pose proof (Nat.mod_upper_bound (m - 21) 2). lia. }
  assert (Run : forall d p k, f_ok (st (21 + 2 * k)) d p -> forall m, m = 21 + 2 * k \/ m = 21 + 2 * k + 1 -> runnable d (shi (st m)) /\ hprio d (shi (st m)) = p).
  { intros d p k (L&C&P) m M. assert (O : f_ok (st m) d p) by (destruct M as [-> | ->]; [repeat split; auto|]; destruct (Tn k) as (a&r&_&E&_); rewrite E; repeat split; auto).
    destruct O as (L'&C'&P'). destruct (IV m) as (HI&HH&_). split; [apply (runnable_iff fcfg); auto|]. now rewrite (h_pr _ _ HH). }
  assert (Hs : forall k, shi (st (21 + 2 * k + 1)) = shi (st (21 + 2 * k))) by (intros k; destruct (Tn k) as (a&r&_&E&_); now rewrite E).
  split; [|split; [|split; [|split]]].
  - intros k c n Aw. destruct (le_lt_dec 21 n) as [Ln|Ln].
    + exfalso. destruct (Pos n Ln) as (j&J). assert (X : at_work k c (shi (st n)) = false); [|congruence].
      destruct (Bs j) as (_&_&_&_&_&_&X&_). destruct J as [-> | ->]; [|rewrite Hs]; apply X.
    + assert (Sh : forall i, i <= 21 -> option_map shi (run sstep_ok (sinit fcfg) (firstn i f_pre)) = Some (shi (st i))) by (intros i Li; now rewrite (Pre i Li)).
      assert (E : forall i e, i < 21 -> option_map shi (run sstep_ok (sinit fcfg) (firstn (S i) f_pre)) = option_map (cons e) (option_map shi (run sstep_ok (sinit fcfg) (firstn i f_pre))) -> shi (st (S i)) = e :: shi (st i)).
      { intros i e Li X. rewrite Sh, Sh in X by lia. simpl in X. now injection X. }
      assert (E3 : shi (st 4) = VRet 7 :: shi (st 3)) by (apply E; [lia|vm_compute; reflexivity]).
      assert (E7 : shi (st 8) = VRet 8 :: shi (st 7)) by (apply E; [lia|vm_compute; reflexivity]).
      assert (E11 : shi (st 12) = VRet 7 :: shi (st 11)) by (apply E; [lia|vm_compute; reflexivity]).
      assert (E15 : shi (st 16) = VRet 9 :: shi (st 15)) by (apply E; [lia|vm_compute; reflexivity]).
      clear - Aw Ln Sh E3 E7 E11 E15.
      assert (W : match option_map shi (run sstep_ok (sinit fcfg) (firstn n f_pre)) with Some h => at_work k c h = true | None => False end) by (rewrite Sh by lia; exact Aw). clear Sh Aw.
      do 21 (destruct n as [|n]; [match type of W with context [option_map shi ?x] => let h := eval vm_compute in (option_map shi x) in change (option_map shi x) with h in W end; cbn [at_work] in W;
        repeat match type of W with context [k =? ?x] => destruct (Nat.eqb_spec k x) as [?|_]; [subst k; try discriminate W; first [exists 3; split; [lia|exact E3] | exists 7; split; [lia|exact E7] | exists 11; split; [lia|exact E11] | exists 15; split; [lia|exact E15]]|] end; discriminate W|]). lia.
  - intros n. destruct (Tn n) as (a&r&La&E1&E2). exists (21 + 2 * n + 1), (Some a). split; [lia|]. replace (S (21 + 2 * n + 1)) with (21 + 2 * n + 2) by lia. rewrite E2. split; [reflexivity|].
    destruct (Bs n) as (_&_&_&_&Ok&_). destruct (Run a 3 n) with (m := 21 + 2 * n + 1) as (_&X); [apply Ok; lia|auto|]. lia.
  - intros d Ld m M. destruct (Pos m M) as (k&K). apply (Run d 3 k); auto. destruct (Bs k) as (_&_&_&_&Ok&_). apply Ok; lia.
  - intros m M. destruct (Pos m M) as (k&K). apply (Run 4 5 k); auto. apply (Bs k).
  - intros m. destruct (le_lt_dec 21 m) as [Lm|Lm].
    + destruct (Pos m Lm) as (k&K). destruct (Bs k) as (_&_&_&_&_&_&_&X). destruct K as [-> | ->]; [|rewrite Hs]; exact X.
    + assert (W : match run sstep_ok (sinit fcfg) (firstn m f_pre) with Some s => ~ In (VPick (Some 4)) (shi s) | None => False end); [|rewrite (Pre m) in W by lia; exact W].
      clear - Lm. do 21 (destruct m as [|m]; [vm_compute; intuition discriminate|]). lia.
Qed.
