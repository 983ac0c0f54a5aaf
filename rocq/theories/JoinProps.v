(** C32, C33, C34: waiting for a coroutine, with and without time-out, and its exception. *)
From Coq Require Import List Arith Bool Lia.
From Verif Require Import Base JoinSpec JoinModel JoinProofs JoinLive.
Import ListNotations.

(** ** Conditions on every event of a history and what came before it *)
Fixpoint hall (P : jev -> jhist -> Prop) (h : jhist) : Prop := match h with [] => True | e :: r => P e r /\ hall P r end.
Lemma hall_split : forall P h post e pre, hall P h -> h = post ++ e :: pre -> P e pre.
Proof. intros P h post. revert h. induction post as [|x post IH]; intros h e pre H ->; simpl in H; destruct H; auto. eapply IH; eauto. Qed.
(** [one c e pre]: what the model guarantees of one event. *)
Definition one (c : jcfg) (e : jev) (pre : jhist) : Prop :=
  match e with
  | HFin r => forall r', ~ In (HFin r') pre
  | HRet j r => In (HCall j) pre /\ (forall r', ~ In (HRet j r') pre) /\ (In (HGot j) pre <-> exists e, r = RExc e) /\
                match r with
                | RNone => timed c j = true /\ In (HExp j) pre /\
                           exists p q, pre = p ++ HSee j false :: q /\ In (HCall j) q /\ forall r0, ~ In (HFin r0) q
                | RVal v => (exists r0, In (HFin r0) pre /\ fits r0 r) /\
                            forall e, In (HFin (Thr e)) pre -> exists k, In (HRet k (RExc e)) pre
                | RExc _ => exists r0, In (HFin r0) pre /\ fits r0 r
                end
  | HGot j => forall k e, ~ In (HRet k (RExc e)) pre
  | _ => True
  end.
Lemma called_step : forall c s l s', (forall j, cp s j <> C0 -> In (HCall j) (jh s)) -> jstep_ok c s l = Some s' ->
  forall j, cp s' j <> C0 -> In (HCall j) (jh s').
Proof.
  intros c s l s' H E. destruct l; jcases E; intros j0; js; auto; try (up; intros N; simpl; auto; try (now left); try (repeat right; apply H; congruence)).
  all: try (intros N; right; auto; fail).
Qed.
Lemma one_step : forall c p0 s l s', Inv c p0 s -> (forall j, cp s j <> C0 -> In (HCall j) (jh s)) -> hall (one c) (jh s) ->
  jstep_ok c s l = Some s' -> hall (one c) (jh s').
Proof.
  intros c p0 s l s' (O&D&W&P) C H E. destruct D as [Dfin Drun Der Dh1 Dh2 Done Dseen Dnot Dce2 Db Dt Dr Dw Dg Dgot Dexc Dc0 Dcd Dpri].
  assert (GR : forall j, In (HGot j) (jh s) -> (exists e, cp s j = CE2 e) \/ cp s j = CD).
  { intros j G. destruct (Dgot _ G) as [e [A|A]]; [left; eauto|right; apply Dcd; eauto]. }
  assert (NR : forall j r, In (HRet j r) (jh s) -> cp s j = CD) by (intros; apply Dcd; eauto).
  destruct l; jcases E; js; auto; cbn [hall]; (split; [|try exact H]); try exact I.
  - intros r' X. destruct (Dh2 _ X) as [A _]. simpl in Dfin. congruence.
  - (* nullopt *)
    split; [right; apply C; congruence|]. split.
    { intros r' [X|X]; [discriminate|]. apply NR in X. congruence. }
    split.
    { split; [|intros [e X]; discriminate]. intros [X|X]; [discriminate|]. destruct (GR _ X) as [[e Y]|Y]; congruence. }
    assert (TJ : timed c j = true) by (apply Dg; auto). split; auto.
    assert (NF : forall r0, ~ In (HFin r0) (jh s)) by (intros r0 X; destruct (Dh2 _ X); congruence).
    assert (WJ : wt s j = false) by (apply (w_c _ _ W); match goal with M : cp s j = _ |- _ => rewrite M end; reflexivity).
    split.
    + right. destruct (Dw j) as [A|[_ A]]; auto; [|congruence]. match goal with M : cp s j = _ |- _ => rewrite M end; reflexivity.
    + exists [], (jh s). split; auto. split; auto. apply C; congruence.
  - split; [exact I|exact H].
  - intros k e X. destruct (Dexc _ _ X) as [A _]. congruence.
  - split; [apply C; congruence|]. split; [intros r' X; apply NR in X; congruence|]. split.
    { split; [|intros [e X]; discriminate]. intros X. destruct (GR _ X) as [[e Y]|Y]; congruence. }
    assert (F : fin s = true) by (apply (Dseen j); match goal with M : cp s j = _ |- _ => rewrite M end; reflexivity).
    split.
    + destruct (Dh1 F) as [r0 R0]. exists r0. split; auto. destruct (Dh2 _ R0) as [_ B]. destruct r0; simpl; [now destruct B|]. now destruct B.
    + intros e X. destruct (Dh2 _ X) as [_ [_ [A|[_ A]]]]; [congruence|exact A].
  - destruct (Dce2 _ _ ltac:(eassumption)) as [A B].
    split; [apply C; congruence|]. split; [intros r' X; apply NR in X; congruence|]. split; [split; [eauto|auto]|].
    exists (Thr e). split; auto. reflexivity.
Qed.
Record HistInv (c : jcfg) (p0 : nat -> nat) (s : jst) : Prop := mkHist {
  hi_inv : Inv c p0 s; hi_called : forall j, cp s j <> C0 -> In (HCall j) (jh s); hi_one : hall (one c) (jh s) }.
Lemma hist_run : forall c p0 ls s, run (jstep_ok c) (jinit p0) ls = Some s -> HistInv c p0 s.
Proof.
  intros c p0 ls s R. eapply run_inv with (I := HistInv c p0); eauto.
  - split; [apply inv_init|simpl; intros j N; congruence|exact I].
  - intros s1 l s2 [A B C] E. split; [eapply inv_step; eauto|eapply called_step; eauto|eapply one_step; eauto].
Qed.

(** ** What the labels of an execution say about its last state *)
Lemma fp_step : forall c s l s', fp s <> FRun -> jstep_ok c s l = Some s' -> fp s' <> FRun.
Proof. intros c s l s' H E. destruct l; jcases E; js; auto; try discriminate; congruence. Qed.
Lemma fp_end : forall c ls s s', run (jstep_ok c) s ls = Some s' -> (exists r, In (LEnd r) ls) \/ fp s <> FRun -> fp s' <> FRun.
Proof.
  induction ls as [|l ls IH]; intros s s' R H; simpl in R.
  - injection R as <-. destruct H as [[r []]|H]; auto.
  - destruct (jstep_ok c s l) as [s1|] eqn:E; [|discriminate]. apply (IH _ _ R). destruct H as [[r [->|H]]|H]; eauto.
    + right. jcases E; js; discriminate.
    + right. eapply fp_step; eauto.
Qed.
Lemma fp_noend : forall c ls s s', run (jstep_ok c) s ls = Some s' -> (forall r, ~ In (LEnd r) ls) -> fp s = FRun -> fp s' = FRun.
Proof.
  induction ls as [|l ls IH]; intros s s' R H F; simpl in R.
  - injection R as <-. auto.
  - destruct (jstep_ok c s l) as [s1|] eqn:E; [|discriminate]. apply (IH _ _ R); [intros r X; apply (H r); now right|].
    destruct l; jcases E; js; auto; try congruence; exfalso; eapply H; now left.
Qed.
Lemma pend_none : forall c ls s s', run (jstep_ok c) s ls = Some s' -> (forall j, ~ In (LPre j) ls) -> pend s = [] -> pend s' = [].
Proof.
  induction ls as [|l ls IH]; intros s s' R H F; simpl in R.
  - injection R as <-. auto.
  - destruct (jstep_ok c s l) as [s1|] eqn:E; [|discriminate]. apply (IH _ _ R); [intros r X; apply (H r); now right|].
    destruct l; jcases E; js; auto; try congruence; try (rewrite F; reflexivity); exfalso; eapply H; now left.
Qed.
Lemma no_expiry : forall c ls s s', run (jstep_ok c) s ls = Some s' -> (forall j, ~ In (LTim j) ls) ->
  rp s = RI /\ (forall j, bp s j = BN) -> rp s' = RI /\ (forall j, bp s' j = BN).
Proof.
  induction ls as [|l ls IH]; intros s s' R H F; simpl in R.
  - injection R as <-. auto.
  - destruct (jstep_ok c s l) as [s1|] eqn:E; [|discriminate]. apply (IH _ _ R); [intros r X; apply (H r); now right|].
    destruct F as [F G]. destruct l; jcases E; js; auto; try congruence; try (exfalso; specialize (G j); congruence); exfalso; eapply H; now left.
Qed.
Lemma cd_step : forall c s l s', (forall j, cp s j = CD -> exists r, In (HRet j r) (jh s)) -> jstep_ok c s l = Some s' ->
  forall j, cp s' j = CD -> exists r, In (HRet j r) (jh s').
Proof.
  intros c s l s' H E. destruct l; jcases E; intros j0; js; auto; try (up; intros N; try discriminate N; auto; fail);
  try (up; intros N; try discriminate N; [eexists; now left|]; destruct (H _ N) as [r0 X]; exists r0; simpl; auto; fail);
  up; intros N; try discriminate N; destruct (H _ N) as [r0 X]; exists r0; simpl; auto.
Qed.
Lemma cd_ret : forall c p0 ls s, run (jstep_ok c) (jinit p0) ls = Some s -> forall j, cp s j = CD -> exists r, In (HRet j r) (jh s).
Proof.
  intros c p0 ls s R. eapply run_inv with (I := fun s => forall j, cp s j = CD -> exists r, In (HRet j r) (jh s)); eauto.
  - simpl. discriminate.
  - intros s1 l s2 H E. eapply cd_step; eauto.
Qed.
(** Without preemption and expiries, the end of the function lets everybody return. *)
Lemma all_back : forall c p0 s, Inv c p0 s -> quiet0 c s -> pend s = [] -> rp s = RI -> (forall j, bp s j = BN) -> fp s <> FRun ->
  forall j, cp s j = C0 \/ cp s j = CD.
Proof.
  intros c p0 s I Q PE R B F j. destruct (fin s) eqn:FI.
  - destruct (q_fin c p0 s I Q FI) as [(j0&r&_&X)|[(j0&r&k&_&[X|X]&_)|(_&_&_&X)]]; try congruence.
    destruct (X j) as [Y|[Y|[(_&_&_&Y)|(_&Y&_)]]]; auto; contradiction.
  - destruct (q_run0 c p0 s I Q FI) as [(j0&k&_&X&_)|(_&_&_&_&_&_&_&_&_&[X|(_&i&X&_)])]; try congruence. rewrite PE in X. destruct X.
Qed.

(** What the function ended with is kept until it is published. *)
Definition VInv (A : res -> Prop) (s : jst) : Prop := (fp s = FLk \/ fp s = FSet -> A (result s)) /\ forall r, In (HFin r) (jh s) -> A r.
Lemma v_step : forall A c p0 s l s', Inv c p0 s -> VInv A s -> jstep_ok c s l = Some s' -> (forall r, l = LEnd r -> A r) -> VInv A s'.
Proof.
  intros A c p0 s l s' (_&D&_) [V1 V2] E L. assert (Dfin := d_fin _ _ _ D). assert (Dce2 := d_ce2 _ _ _ D). assert (Dh2 := d_h2 _ _ _ D).
  unfold VInv, result in *. destruct l; jcases E; js; split; auto; try (intuition discriminate); try (intros r0 [X|X]; [discriminate X|auto]; fail);
    try (intros r0 [X|[X|X]]; [discriminate X|discriminate X|auto]; fail); try (rewrite ?M, ?E0 in *; intuition congruence).
  - intros r0 [X|X]; auto. injection X as <-. unfold result. auto.
  - now rewrite M0.
  - now rewrite M0.
  - intros X. exfalso. destruct (Dce2 _ _ M) as [Y _]. apply Dh2 in Y. destruct X as [X|X]; rewrite X in Dfin; destruct Y as [Y _]; rewrite Dfin in Y; discriminate.
Qed.
Lemma v_run : forall A c p0 ls s s', Inv c p0 s -> VInv A s -> run (jstep_ok c) s ls = Some s' -> (forall r, In (LEnd r) ls -> A r) -> VInv A s'.
Proof.
  induction ls as [|l ls IH]; intros s s' I V R H; simpl in R; [congruence|].
  destruct (jstep_ok c s l) as [s1|] eqn:E; [|discriminate]. apply (IH s1); auto.
  - eapply inv_step; eauto.
  - eapply v_step; eauto. intros r ->. apply H. now left.
  - intros r X. apply H. now right.
Qed.

(** ** C32 *)
(** Every end of a call: after the target has finished, with its result; never nullopt from the untimed overload; at most
    once per call.  The target finishes at most once.  Any number of calls, any interleaving, with preemption. *)
Theorem join_results : forall c p0 ls s, run (jstep_ok c) (jinit p0) ls = Some s -> ret_spec (timed c) (jh s) /\ fin_spec (jh s).
Proof.
  intros c p0 ls s R. destruct (hist_run _ _ _ _ R) as [_ _ H]. split.
  - intros post j r pre E. pose proof (hall_split _ _ _ _ _ H E) as (A&B&_&D). split; auto. split; auto.
    destruct r; auto. now destruct D.
  - intros post r pre E. exact (hall_split _ _ _ _ _ H E).
Qed.
(** The result is what the function of the target ended with. *)
Theorem join_value : forall c p0 ls s r, run (jstep_ok c) (jinit p0) ls = Some s -> In (HFin r) (jh s) -> In (LEnd r) ls.
Proof.
  intros c p0 ls s r R. enough (G : VInv (fun r => In (LEnd r) ls) s) by apply G.
  eapply v_run; [apply inv_init| |exact R|]; [split; simpl; [intuition discriminate|tauto]|auto].
Qed.
(** No completion is missed: when nothing moves any more after the function has ended, every call has ended; for calls
    without time-out, provided the preemption signal does not hit a call in the window between unlock_schedule and
    unlock_finished_state. *)
Theorem join_completes_partial : forall c p0 ls s, (forall j, timed c j = false) -> (forall j, ~ In (LPre j) ls) ->
  run (jstep_ok c) (jinit p0) ls = Some s -> quiet c s -> (exists r, In (LEnd r) ls) ->
  forall j, In (HCall j) (jh s) -> exists r, In (HRet j r) (jh s).
Proof.
  intros c p0 ls s T NP R Q EN j C. pose proof (inv_run _ _ _ _ R) as I. destruct I as (O&D&W&P).
  assert (B : forall i, bp s i = BN).
  { intros i. destruct (bp s i) eqn:B; auto; exfalso; assert (N : bp s i <> BN) by congruence; apply (d_b _ _ _ D) in N; rewrite T in N; destruct N; discriminate. }
  assert (RI0 : rp s = RI).
  { destruct (rp s) as [|i|i] eqn:X; auto; exfalso.
    - apply (d_r _ _ _ D) in X. rewrite T in X. discriminate.
    - apply (w_rs _ _ W) in X. destruct X as [X _]. apply X, B. }
  destruct (all_back c p0 s (conj O (conj D (conj W P))) (quiet_quiet0 _ _ Q)) with (j := j) as [X|X]; auto.
  - eapply pend_none; eauto.
  - eapply fp_end; eauto.
  - exfalso. exact (d_c0 _ _ _ D _ X C).
  - eapply cd_ret; eauto.
Qed.
(** The number of steps is bounded: an execution with calls 0 .. n-1 has at most 41 n + 16 steps, so that the state of the
    theorem above is reached. *)
Theorem join_steps_bounded : forall c p0 n ls s, run (jstep_ok c) (jinit p0) ls = Some s ->
  (forall j, In (LCall j) ls -> j < n) -> length ls <= 41 * n + 16.
Proof.
  intros c p0 n ls s R B. pose proof (run_bounded c p0 n ls (jinit p0) s (inv_init c p0) (fun _ _ => eq_refl) B R) as X.
  rewrite mu_init in X. lia.
Qed.
(** With the preemption signal in the window the claim is false: a call on thread 0 is switched out while its thread holds
    finish_lock__; the target on thread 1 ends and blocks on that lock. *)
Definition cfgU : jcfg := mkCfg (fun _ => false) (fun _ => 0) 5 1.
Definition preW : list jlbl := [LCall 0; LStep 0; LStep 0; LStep 0; LStep 0; LStep 0; LStep 0; LPre 0; LEnd (RetV (Some 7))].
Theorem join_completes_refuted : exists c p0 ls s, (forall j, timed c j = false) /\ run (jstep_ok c) (jinit p0) ls = Some s /\
  quiet c s /\ In (LEnd (RetV (Some 7))) ls /\ In (HCall 0) (jh s) /\ forall r, ~ In (HRet 0 r) (jh s).
Proof.
  exists cfgU, (fun _ => 9), preW. eexists. split; [reflexivity|]. split; [vm_compute; reflexivity|].
  split; [|simpl; intuition discriminate].
  intros l I. destruct l as [| |j|j|j|j| |j|]; try discriminate I; try reflexivity; destruct j; reflexivity.
Qed.
(** Two callers, one of them too early, and a target that returns 7: both get 7. *)
Definition joinW : list jlbl :=
  LCall 0 :: repeat (LStep 0) 7 ++ [LEnd (RetV (Some 7)); LFin; LFin; LCall 1; LStep 1; LStep 1; LStep 1; LStep 1; LStep 1; LStep 1]
  ++ repeat LFin 5 ++ [LStep 0; LStep 0].
Example join_example : option_map jh (run (jstep_ok cfgU) (jinit (fun _ => 9)) joinW) =
  Some [HRet 0 (RVal (Some 7)); HRet 1 (RVal (Some 7)); HCall 1; HFin (RetV (Some 7)); HCall 0].
Proof. vm_compute. reflexivity. Qed.
Example join_example_quiet : exists s, run (jstep_ok cfgU) (jinit (fun _ => 9)) joinW = Some s /\ quiet cfgU s.
Proof.
  eexists. split; [vm_compute; reflexivity|]. intros l I.
  destruct l as [| |j|j|j|j| |j|]; try discriminate I; try reflexivity; destruct j as [|[|j]]; reflexivity.
Qed.
Print Assumptions join_results.
Print Assumptions join_value.
Print Assumptions join_completes_partial.
Print Assumptions join_steps_bounded.
Print Assumptions join_completes_refuted.

(** ** C33 *)
(** Two calls read exception__ before one of them clears it: the exception is thrown twice. *)
Definition excW : list jlbl :=
  [LEnd (Thr 3)] ++ repeat LFin 4 ++ [LCall 0; LCall 1] ++ repeat (LStep 0) 5 ++ repeat (LStep 1) 5 ++ [LStep 0; LStep 1; LStep 0; LStep 1].
Theorem exception_once_refuted : exists c p0 ls s, run (jstep_ok c) (jinit p0) ls = Some s /\ ~ exc_once (jh s).
Proof.
  exists cfgU, (fun _ => 9), excW. eexists. split; [vm_compute; reflexivity|].
  intros H. exact (H [] 1 3 _ eq_refl 0 3 (or_introl eq_refl)).
Qed.
(** What holds: the exception is not lost, and after one call has ended with it nobody picks it up again. *)
Theorem exception_partial : forall c p0 ls s, run (jstep_ok c) (jinit p0) ls = Some s -> exc_weak (jh s).
Proof.
  intros c p0 ls s R. destruct (hist_run _ _ _ _ R) as [_ _ H]. repeat split.
  - intros post j v pre e E F. pose proof (hall_split _ _ _ _ _ H E) as (_&_&_&_&D). auto.
  - intros post j pre E. exact (hall_split _ _ _ _ _ H E).
  - intros X. pose proof (hall_split _ _ _ _ _ H H0) as (_&_&D&_). now apply D.
  - intros X. pose proof (hall_split _ _ _ _ _ H H0) as (_&_&D&_). now apply D.
Qed.
(** So calls one after the other: the first gets the exception, the second a value. *)
Definition exc1W : list jlbl := [LEnd (Thr 3)] ++ repeat LFin 4 ++ [LCall 0] ++ repeat (LStep 0) 7 ++ [LCall 1] ++ repeat (LStep 1) 6.
Example exception_example : option_map jh (run (jstep_ok cfgU) (jinit (fun _ => 9)) exc1W) =
  Some [HRet 1 (RVal None); HCall 1; HRet 0 (RExc 3); HGot 0; HCall 0; HFin (Thr 3)].
Proof. vm_compute. reflexivity. Qed.
Print Assumptions exception_once_refuted.
Print Assumptions exception_partial.

(** ** C34 *)
(** A value only from a finished target, nullopt only after a look that found it unfinished and after the time-out: the
    clauses of [ret_spec] (join_results).  The priority of the caller is what it was before the call. *)
Theorem wait_for_priority : forall c p0 ls s j r, run (jstep_ok c) (jinit p0) ls = Some s -> In (HRet j r) (jh s) -> pri s j = p0 j.
Proof.
  intros c p0 ls s j r R H. destruct (inv_run _ _ _ _ R) as (_&D&_). pose proof (d_pri _ _ _ D j) as X.
  rewrite (d_cd _ _ _ D j) in X; eauto.
Qed.
(** The waiter is always woken: false.  (1) The callback of the expired timer holds the mutex of the timer and wants the list
    of callbacks; pub holds the list and wants the mutex (co_env.cpp 123-130). *)
Definition cfgT : jcfg := mkCfg (fun _ => true) (fun _ => 0) 5 1.
Definition park (j : nat) : list jlbl := LCall j :: repeat (LStep j) 9.
Ltac refute ls :=
  exists cfgT, (fun _ => 9), ls; eexists; split; [vm_compute; reflexivity|]; split;
  [let l := fresh in let I := fresh in intros l I; destruct l as [| |j|j|j|j| |j|]; try discriminate I; try reflexivity; destruct j as [|[|j]]; reflexivity
  |simpl; intuition discriminate].
Definition pubW : list jlbl := park 0 ++ [LTim 0; LTs; LTs; LCb 0; LEnd (RetV (Some 7)); LFin; LFin; LFin; LFin].
Theorem wait_for_pub_refuted : exists c p0 ls s, run (jstep_ok c) (jinit p0) ls = Some s /\ quiet c s /\
  In (HCall 0) (jh s) /\ In (HExp 0) (jh s) /\ In (HFin (RetV (Some 7))) (jh s) /\ forall r, ~ In (HRet 0 r) (jh s).
Proof. refute pubW. Qed.
(** (2) The timer thread holds the queue and wants the mutex of the timer; pub has the mutex in stop() and wants the queue. *)
Definition queueW : list jlbl := park 0 ++ [LTim 0; LEnd (RetV (Some 7)); LFin; LFin; LFin; LFin; LFin].
Theorem wait_for_queue_refuted : exists c p0 ls s, run (jstep_ok c) (jinit p0) ls = Some s /\ quiet c s /\
  In (HCall 0) (jh s) /\ In (HFin (RetV (Some 7))) (jh s) /\ forall r, ~ In (HRet 0 r) (jh s).
Proof. refute queueW. Qed.
(** (3) Two callers on one thread: the second one has the schedule lock and wants the queue (start of its timer), the timer
    thread has the queue and wants the mutex of the first timer (stop), its callback has the mutex and wants the schedule
    lock (wake_up). The target does not even finish. *)
Definition startW : list jlbl := park 0 ++ [LTim 0; LTs; LCb 0; LCb 0; LCb 0; LCall 1] ++ repeat (LStep 1) 6 ++ [LStep 0].
Theorem wait_for_start_refuted : exists c p0 ls s, run (jstep_ok c) (jinit p0) ls = Some s /\ quiet c s /\
  In (HCall 0) (jh s) /\ In (HCall 1) (jh s) /\ (forall r, ~ In (HFin r) (jh s)) /\ forall j r, ~ In (HRet j r) (jh s).
Proof. refute startW. Qed.
(** (4) No trace is left: false. The callback runs after the wait has ended, and the target may have been destroyed. *)
Definition freedW : list jlbl :=
  park 0 ++ [LTim 0; LTs; LTs; LEnd (RetV (Some 7))] ++ repeat LFin 8 ++ repeat (LStep 0) 4 ++ [LFree; LCb 0].
Theorem wait_for_freed_refuted : exists c p0 ls s, run (jstep_ok c) (jinit p0) ls = Some s /\ jstep c s (LCb 0) = Some JFreed.
Proof. exists cfgT, (fun _ => 9), freedW. eexists. split; vm_compute; reflexivity. Qed.
(** What holds: these three, and the preempted call of C32, are all the ways to be stuck. *)
Theorem wait_for_stuck_partial : forall c p0 ls s, run (jstep_ok c) (jinit p0) ls = Some s -> quiet c s ->
  stuck_timer_pub s \/ stuck_queue_pub s \/ stuck_start c s \/ stuck_preempted c s \/ at_rest c s.
Proof. intros c p0 ls s R Q. eapply quiet_shape; eauto. eapply inv_run; eauto. Qed.
(** If no timer expires, every call, timed or not, ends when the function ends. *)
Theorem wait_for_end_partial : forall c p0 ls s, (forall j, ~ In (LPre j) ls) -> (forall j, ~ In (LTim j) ls) ->
  run (jstep_ok c) (jinit p0) ls = Some s -> quiet0 c s -> (exists r, In (LEnd r) ls) ->
  forall j, In (HCall j) (jh s) -> exists r, In (HRet j r) (jh s).
Proof.
  intros c p0 ls s NP NT R Q EN j C. pose proof (inv_run _ _ _ _ R) as I. destruct (no_expiry _ _ _ _ R NT) as [A B]; [simpl; auto|].
  destruct (all_back c p0 s I Q) with (j := j) as [X|X]; auto.
  - eapply pend_none; eauto.
  - eapply fp_end; eauto.
  - exfalso. destruct I as (_&D&_). exact (d_c0 _ _ _ D _ X C).
  - eapply cd_ret; eauto.
Qed.
(** If the function does not end, every timed call of callers on different threads ends, with nullopt. *)
Theorem wait_for_expiry_partial : forall c p0 ls s, (forall j, ~ In (LPre j) ls) -> (forall r, ~ In (LEnd r) ls) ->
  (forall i j, env c i = env c j -> i = j) ->
  run (jstep_ok c) (jinit p0) ls = Some s -> quiet c s ->
  forall j, timed c j = true -> In (HCall j) (jh s) -> In (HRet j RNone) (jh s).
Proof.
  intros c p0 ls s NP NE INJ R Q j T C. pose proof (hist_run _ _ _ _ R) as [I _ H]. pose proof (fp_noend _ _ _ _ R NE eq_refl) as F.
  pose proof (pend_none _ _ _ _ R NP eq_refl) as PE. destruct I as (O&D&W&P).
  assert (X : cp s j = CD).
  { destruct (quiet_shape c p0 s (conj O (conj D (conj W P))) Q) as [(i&r&A&_)|[(i&r&k&A&_)|[(i&k&A&_&B&E)|[[A _]|(_&_&_&A)]]]]; try congruence.
    - apply INJ in E as ->. assert (TN0 : tst s i = TN) by (apply (w_pre _ _ W); now rewrite A).
      exfalso. apply (w_b0 _ _ W i); congruence.
    - destruct (A j) as [Y|[Y|[(_&_&Y&_)|(_&_&i&(Y&_)&_)]]]; auto; try congruence.
      + exfalso. exact (d_c0 _ _ _ D _ Y C).
      + apply P in Y. rewrite PE in Y. destruct Y. }
  destruct (cd_ret _ _ _ _ R j X) as [r HR].
  assert (NF : forall r0, ~ In (HFin r0) (jh s)).
  { intros r0 Y. destruct (d_h2 _ _ _ D _ Y) as [Z _]. rewrite (d_fin _ _ _ D), F in Z. discriminate. }
  destruct (in_split _ _ HR) as (post&pre&E). pose proof (hall_split _ _ _ _ _ H E) as (_&_&_&Z).
  assert (SUB : forall r0, In (HFin r0) pre -> False) by (intros r0 Y; apply (NF r0); rewrite E; apply in_or_app; right; now right).
  destruct r as [v|e|]; auto; exfalso.
  - destruct Z as [[r0 [Y _]] _]. eauto.
  - destruct Z as [r0 [Y _]]. eauto.
Qed.
(** A timed wait that runs out, and one that gets the value. *)
Definition outW : list jlbl := park 0 ++ [LTim 0; LTs; LTs; LCb 0; LCb 0; LCb 0; LCb 0; LStep 0; LStep 0; LStep 0].
Example wait_for_example_out : option_map jh (run (jstep_ok cfgT) (jinit (fun _ => 9)) outW) =
  Some [HRet 0 RNone; HSee 0 false; HExp 0; HCall 0].
Proof. vm_compute. reflexivity. Qed.
Definition inW : list jlbl := park 0 ++ [LEnd (RetV (Some 7))] ++ repeat LFin 9 ++ repeat (LStep 0) 4.
Example wait_for_example_in : option_map jh (run (jstep_ok cfgT) (jinit (fun _ => 9)) inW) =
  Some [HRet 0 (RVal (Some 7)); HSee 0 true; HFin (RetV (Some 7)); HCall 0].
Proof. vm_compute. reflexivity. Qed.
(** Both end in states where nothing moves, the first one with every caller on a thread of its own. *)
Definition cfgI : jcfg := mkCfg (fun _ => true) (fun j => j) 5 1.
Example wait_for_example_quiet :
  (exists s, run (jstep_ok cfgI) (jinit (fun _ => 9)) outW = Some s /\ quiet cfgI s) /\
  (exists s, run (jstep_ok cfgT) (jinit (fun _ => 9)) inW = Some s /\ quiet0 cfgT s).
Proof.
  split; eexists; (split; [vm_compute; reflexivity|]); intros l I;
  destruct l as [| |j|j|j|j| |j|]; try discriminate I; try reflexivity; destruct j as [|[|j]]; reflexivity.
Qed.
Print Assumptions wait_for_priority.
Print Assumptions wait_for_pub_refuted.
Print Assumptions wait_for_queue_refuted.
Print Assumptions wait_for_start_refuted.
Print Assumptions wait_for_freed_refuted.
Print Assumptions wait_for_stuck_partial.
Print Assumptions wait_for_end_partial.
Print Assumptions wait_for_expiry_partial.
