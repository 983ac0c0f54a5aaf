(** Termination of the shutdown: a measure that every step of the manager and of the environments decreases. *)
From Coq Require Import List Arith Bool Lia.
From Verif Require Import Base HistSpec ShutSpec ShutModel ShutProofs.
Import ListNotations.

Fixpoint sumn (f : nat -> nat) (n : nat) : nat := match n with 0 => 0 | S m => f m + sumn f m end.
Lemma sumn_le : forall f g n, (forall i, i < n -> g i <= f i) -> sumn g n <= sumn f n.
Proof. induction n; intros H; simpl; auto. pose proof (H n). assert (sumn g n <= sumn f n) by (apply IHn; auto). lia. Qed.
Lemma sumn_drop : forall f g n e k, (forall i, i < n -> g i <= f i) -> e < n -> g e + k <= f e -> sumn g n + k <= sumn f n.
Proof.
  induction n; intros e k H L D; [lia|]. simpl. destruct (Nat.eq_dec e n) as [->|N].
  - assert (sumn g n <= sumn f n) by (apply sumn_le; auto). lia.
  - pose proof (H n). assert (sumn g n + k <= sumn f n) by (apply IHn with e; auto; lia). lia.
Qed.
Lemma sumn_ext : forall f g n, (forall i, i < n -> g i = f i) -> sumn g n = sumn f n.
Proof. induction n; intros H; simpl; auto. rewrite H, IHn; auto. Qed.

Definition plw (p : place) : nat := match p with Normal => 8 | Expired => 4 | _ => 0 end.
Definition phw (p : phase) : nat := match p with PRun => 8 | PPub => 1 | _ => 0 end.
Definition envw (x : env) : nat := plw (pl x) + phw (ph x).
Definition cpw (c : cpc) : nat := match c with CStart => 5 | CWait => 4 | CRelock => 3 | CIdle => 3 | CLoop => 2 | CTest => 1 | CEnd => 0 end.
Definition mpw (m : mpc) : nat := match m with MSleep => 3 | MPub => 2 | MTest => 1 | MEnd => 0 end.
Definition tpw (t : tpc) : nat := match t with RFront => 4 | RParkU => 3 | RWaitU => 2 | RTest | RCheck => 1 | _ => 0 end.
Definition dpw (d : dpc) : nat := match d with DNone => 4 | DCleaner => 3 | DMonitor => 2 | DTimer => 1 | DRet => 0 end.
Definition tot (s : sst) : nat := sumn (fun e => envw (envs s e)) (next s).
Definition meas (s : sst) : nat :=
  tot s + match ccur s with None => 8 | Some _ => 0 end + cpw (cp s) + mpw (mp s) + tpw (tp s) + dpw (dp s).

(** The window in which the notification of the timer thread is lost. *)
Definition window (t : tpc) : bool := match t with REmpty | RPark | RWait => true | _ => false end.
(** All steps but those of the client. *)
Definition serves (l : slbl) : bool := match l with LMake _ | LCur _ | LSched _ | LIns => false | _ => true end.

Lemma tot_same : forall s s', envs s' = envs s -> next s' = next s -> tot s' = tot s.
Proof. intros s s' A B. unfold tot. now rewrite A, B. Qed.

Lemma serve_step : forall s l s', EI s -> CI s -> clean s = true -> window (tp s) = false -> serves l = true -> sstep s l = Some s' ->
  clean s' = true /\ window (tp s') = false /\ meas s' < meas s.
Proof.
  intros s l s' H C Cl W Sv S. destruct l; try discriminate; simpl in S.
  - destruct (ph (envs s e)) eqn:P; try discriminate. destruct (told (envs s e)) eqn:T; try discriminate.
    destruct (locked s) eqn:LK; try discriminate. destruct (e <? next s) eqn:L; try discriminate. apply Nat.ltb_lt in L. simpl in S. injection S as <-.
    unfold expire. set (s1 := ev (with_env (with_env s e _) e _) (VExp e)). destruct (wake_cleaner_frame s1) as (A&B&D&X).
    destruct X as [X1 X2 X3 X4 X5 X6 X7 _]. simpl. rewrite X4, X6. split; [exact Cl|]. split; [exact W|].
    unfold meas, tot. simpl. rewrite A, X1, X3, X5, X6, X7, D.
    assert (Q : woken (cp s1) = cp s). { unfold s1. simpl. destruct (cp s) eqn:Pc; auto. rewrite (c_cw _ C Pc) in Cl. discriminate. }
    rewrite Q. unfold s1. simpl.
    assert (Sm : sumn (fun i => envw (envs s1 i)) (next s) + 3 <= sumn (fun i => envw (envs s i)) (next s)).
    { apply sumn_drop with e; auto.
      - intros i Li. unfold s1; simpl. destruct (Nat.eq_dec i e) as [->|N]; [|rewrite !upd_other by auto; auto]. rewrite !upd_same. unfold envw. simpl. rewrite P.
        simpl. destruct (pl (envs s e)); simpl; lia.
      - unfold s1; simpl. rewrite !upd_same. unfold envw. simpl. rewrite P. simpl. destruct (pl (envs s e)); simpl; lia. }
    unfold s1 in Sm. simpl in Sm. lia.
  - destruct (ph (envs s e)) eqn:P; try discriminate. injection S as S.
    assert (L : e < next s). { destruct (le_lt_dec (next s) e) as [G|G]; auto. rewrite (e_out _ H _ G) in P. discriminate. }
    assert (At : envs s' e = mkE (own (envs s e)) (wrk (envs s e)) (nos (envs s e)) (told (envs s e)) PGone (pl (envs s e)))
      by (subst s'; destruct (own (envs s e)); simpl; now rewrite upd_same).
    assert (Fr : forall i, i <> e -> envs s' i = envs s i) by (intros; subst s'; destruct (own (envs s e)); simpl; now rewrite upd_other).
    assert (Q : next s' = next s /\ ccur s' = ccur s /\ clean s' = clean s /\ cp s' = cp s /\ mp s' = mp s /\ tp s' = tp s /\ dp s' = dp s)
      by (subst s'; destruct (own (envs s e)); simpl; auto 10).
    destruct Q as (Q1&Q2&Q3&Q4&Q5&Q6&Q7). rewrite Q3, Q6. split; auto. split; auto. unfold meas, tot. rewrite Q1, Q2, Q4, Q5, Q6, Q7.
    assert (Sm : sumn (fun i => envw (envs s' i)) (next s) + 1 <= sumn (fun i => envw (envs s i)) (next s)).
    { apply sumn_drop with e; auto.
      - intros i Li. destruct (Nat.eq_dec i e) as [->|N]; [|rewrite Fr by auto; auto]. rewrite At. unfold envw. simpl. lia.
      - rewrite At. unfold envw. simpl. rewrite P. simpl. lia. }
    lia.
  - unfold cstep in S. destruct (cp s) eqn:P; try discriminate.
    + injection S as <-. simpl. split; auto. split; auto. unfold meas, tot. simpl. rewrite P. simpl. lia.
    + rewrite Cl in S. destruct (at_place s Normal) as [|e0 l0] eqn:AN; injection S as <-.
      * simpl. split; auto. split; auto. unfold meas, tot. simpl. rewrite P. simpl. lia.
      * destruct (clear_facts s H P) as (A&[X1 X2 X3 X4 X5 X6 X7 _]&B&D&E). set (s1 := drop (sweep TCleaner s)) in *.
        simpl. rewrite X4, X6. split; auto. split; auto. unfold meas, tot. simpl. rewrite X1, X3, X5, X6, X7, P. simpl.
        assert (I : e0 < next s /\ pl (envs s e0) = Normal) by (apply at_place_spec; rewrite AN; now left). destruct I as [L0 N0].
        assert (Sm : sumn (fun i => envw (envs s1 i)) (next s) + 4 <= sumn (fun i => envw (envs s i)) (next s)).
        { apply sumn_drop with e0; auto.
          - intros i Li. destruct (pl (envs s i)) eqn:Pi; try ((rewrite D by (intuition congruence)); apply le_n).
            rewrite B by auto. unfold cleared, envw. rewrite Pi. destruct (nos (envs s i)); simpl; lia.
          - rewrite B by auto. unfold cleared, envw. rewrite N0. destruct (nos (envs s e0)); simpl; lia. }
        lia.
    + injection S as <-. simpl. split; auto. split; auto. unfold meas, tot. simpl. rewrite P. simpl. lia.
    + destruct (at_place s Expired); [|discriminate]. injection S as <-. simpl. split; auto. split; auto. unfold meas, tot. simpl. rewrite P. simpl. lia.
    + injection S as <-. unfold guard_cleaner. destruct (ccur s) as [c|] eqn:CC; simpl.
      * split; auto. split; auto. unfold meas, tot. simpl. rewrite CC, P. simpl. lia.
      * split; auto. split; auto. unfold meas, tot. simpl. rewrite CC, P, upd_same. simpl.
        rewrite (sumn_ext (fun e => envw (envs s e))); [unfold envw; simpl; lia|]. intros i Li. rewrite upd_other by lia. auto.
  - unfold free in S. destruct (cp s) eqn:P; try discriminate. destruct (pl (envs s e)) eqn:Pe; try discriminate.
    destruct ((e <? next s) && _) eqn:G; [|discriminate]. injection S as <-. apply andb_true_iff in G as [L _]. apply Nat.ltb_lt in L.
    simpl. split; auto. split; auto. unfold meas, tot. simpl. rewrite P. simpl.
    match goal with |- context [sumn ?g (next s) + _ + 3] => assert (Sm : sumn g (next s) + 4 <= sumn (fun i => envw (envs s i)) (next s)) end.
    { apply sumn_drop with e; auto.
      - intros i Li. destruct (Nat.eq_dec i e) as [->|N]; [|rewrite upd_other by auto; auto]. rewrite upd_same. unfold envw. simpl. lia.
      - rewrite upd_same. unfold envw. simpl. rewrite Pe. simpl. lia. }
    lia.
  - unfold mstep in S. destruct (mp s) eqn:P; try discriminate.
    + destruct (locked s); [discriminate|]. injection S as <-. rewrite Cl. simpl. split; auto. split; auto. unfold meas, tot. simpl. rewrite P. simpl. lia.
    + injection S as <-. simpl. split; auto. split; auto. unfold meas, tot. simpl. rewrite P. simpl. lia.
    + destruct (locked s); [discriminate|]. injection S as <-.
      destruct (reclaim_facts l s H) as (_&[X1 X2 X3 X4 X5 X6 X7 _]&B&D). simpl. rewrite X4, X6. split; auto. split; auto.
      unfold meas, tot. simpl. rewrite X1, X3, X6, X7, B, P. simpl.
      assert (Sm : sumn (fun i => envw (envs (fold_left reclaim1 l s) i)) (next s) <= sumn (fun i => envw (envs s i)) (next s)).
      { apply sumn_le. intros i Li. destruct (D i) as [D'|(_&N&Wk&D')]; rewrite D'; auto. unfold swept.
        destruct (o_wrk _ _ (e_ok _ H _ Li) Wk) as [O _]. rewrite O. unfold envw. simpl. lia. }
      lia.
  - unfold tstep in S. rewrite Cl in S. destruct (tp s) eqn:P; try discriminate; injection S as <-; simpl; (split; [auto|]); (split; [try (destruct b; reflexivity)|]);
      unfold meas, tot; simpl; rewrite P; simpl; try (destruct b; simpl); lia.
  - destruct (tp s) eqn:P; try discriminate. injection S as <-. simpl. split; auto. split; auto. unfold meas, tot. simpl. rewrite P. simpl. lia.
  - destruct (cp s) eqn:P; try discriminate. rewrite (c_cw _ C P) in Cl. discriminate.
  - destruct (tp s) eqn:P; try discriminate. injection S as <-. simpl. split; auto. split; auto. unfold meas, tot. simpl. rewrite P. simpl. lia.
  - unfold dstep in S. destruct (dp s) eqn:P; try discriminate.
    + apply (c_cl _ C) in Cl. tauto.
    + destruct (cp s); try discriminate; injection S as <-. simpl. split; auto. split; auto. unfold meas, tot. simpl. rewrite P. simpl. lia.
    + destruct (mp s); try discriminate; injection S as <-. simpl. split; auto. split; auto. unfold meas, tot. simpl. rewrite P. simpl. lia.
    + destruct (tp s) eqn:Pt; try discriminate; injection S as <-. simpl. split; auto. split; [now rewrite Pt|]. unfold meas, tot. simpl. rewrite P. simpl. lia.
Qed.

(** Unless the destructor has returned, some such step is possible, and none that an environment without a thread must make. *)
Lemma serve_can_who : forall s, EI s -> CI s -> clean s = true -> window (tp s) = false -> dp s <> DRet ->
  exists l s', serves l = true /\ sstep s l = Some s' /\ match l with LFin _ | LSpurC | LSpurT => False | LPub e => wrk (envs s e) = true /\ ph (envs s e) = PPub | _ => True end.
Proof.
  intros s H C Cl W ND. destruct (dp s) eqn:P; try congruence.
  - apply (c_cl _ C) in Cl. tauto.
  - assert (K : cp s = CEnd \/ cp s <> CEnd) by (destruct (cp s); auto; right; discriminate). destruct K as [K|K].
    { exists LD. eexists. split; auto. simpl. unfold dstep. rewrite P, K. (split; [reflexivity|auto]). }
    destruct (cp s) eqn:Pc; try congruence.
    + exists LC. eexists. split; auto. simpl. unfold cstep. rewrite Pc. (split; [reflexivity|auto]).
    + exists LC. simpl. unfold cstep. rewrite Pc, Cl. destruct (at_place s Normal); eexists; (split; [auto|split; auto]).
    + rewrite (c_cw _ C Pc) in Cl. discriminate.
    + exists LC. eexists. split; auto. simpl. unfold cstep. rewrite Pc. (split; [reflexivity|auto]).
    + destruct (at_place s Expired) as [|e l] eqn:AE.
      * exists LC. eexists. split; auto. simpl. unfold cstep. rewrite Pc, AE. (split; [reflexivity|auto]).
      * assert (I : e < next s /\ pl (envs s e) = Expired) by (apply at_place_spec; rewrite AE; now left). destruct I as [L E].
        destruct (wrk (envs s e)) eqn:Wk.
        -- destruct (o_exp _ _ (e_ok _ H _ L) Wk E) as [F|F].
           ++ exists (LPub e). eexists. split; auto. simpl. rewrite F. (split; [reflexivity|auto]).
           ++ exists (LFree e). eexists. split; auto. simpl. unfold free. rewrite Pc, E, Wk, F. apply Nat.ltb_lt in L. rewrite L. simpl. (split; [reflexivity|auto]).
        -- exists (LFree e). eexists. split; auto. simpl. unfold free. rewrite Pc, E, Wk. apply Nat.ltb_lt in L. rewrite L. simpl. (split; [reflexivity|auto]).
    + exists LC. eexists. split; auto. simpl. unfold cstep. rewrite Pc. (split; [reflexivity|auto]).
  - assert (Pc : cp s = CEnd) by (apply (c_d1 _ C); auto). assert (LK : locked s = false) by (unfold locked; now rewrite Pc).
    destruct (mp s) eqn:Pm.
    + exists (LM []). simpl. unfold mstep. rewrite Pm, LK. eexists; split; [auto|split; auto].
    + exists (LM []). simpl. unfold mstep. rewrite Pm. eexists; split; [auto|split; auto].
    + exists (LM []). simpl. unfold mstep. rewrite Pm, LK. eexists; split; [auto|split; auto].
    + exists LD. simpl. unfold dstep. rewrite P, Pm. eexists; split; [auto|split; auto].
  - destruct (tp s) eqn:Pt; try discriminate.
    + exists (LT true). simpl. unfold tstep. rewrite Pt. eexists; split; [auto|split; auto].
    + exists (LT true). simpl. unfold tstep. rewrite Pt. eexists; split; [auto|split; auto].
    + exists (LT true). simpl. unfold tstep. rewrite Pt. eexists; split; [auto|split; auto].
    + exists (LT true). simpl. unfold tstep. rewrite Pt. eexists; split; [auto|split; auto].
    + exists LTimeout. simpl. rewrite Pt. eexists; split; [auto|split; auto].
    + exists LD. simpl. unfold dstep. rewrite P, Pt. eexists; split; [auto|split; auto].
Qed.
Lemma serve_can : forall s, EI s -> CI s -> clean s = true -> window (tp s) = false -> dp s <> DRet ->
  exists l s', serves l = true /\ sstep s l = Some s'.
Proof. intros s A B D E F. destruct (serve_can_who s A B D E F) as (l&s'&X&Y&_). eauto. Qed.

Definition inv3 (s : sst) : Prop := EI s /\ CI s /\ KI s.
Lemma inv3_step : forall s l s', inv3 s -> sstep s l = Some s' -> inv3 s'.
Proof.
  intros s l s' (A&B&C) S. split; [eapply EI_step; eauto|]. split; [eapply CI_step; eauto|eapply KI_step; eauto].
Qed.
Lemma inv3_reach : forall ls s, run sstep sinit ls = Some s -> inv3 s.
Proof.
  intros ls s R. eapply (run_inv sstep); [|exact inv3_step|exact R]. split; [apply sinit_EI|]. split; [apply sinit_CI|apply sinit_KI].
Qed.

Lemma serve_runs : forall ls s s', inv3 s -> clean s = true -> window (tp s) = false -> Forall (fun l => serves l = true) ls -> run sstep s ls = Some s' ->
  length ls + meas s' <= meas s /\ inv3 s' /\ clean s' = true /\ window (tp s') = false.
Proof.
  induction ls as [|l ls IH]; intros s s' I Cl W F R; simpl in R.
  - injection R as <-. simpl. auto.
  - destruct (sstep s l) as [s1|] eqn:E; [|discriminate]. inversion F; subst. destruct I as (A&B&C).
    destruct (serve_step s l s1) as (C1&C2&C3); auto.
    destruct (IH s1 s') as (D1&D2&D3&D4); auto. { eapply inv3_step; eauto. split; auto. }
    simpl. split; [lia|auto].
Qed.

(** A timer thread that missed the notification stays where it is. *)
Lemma stuck_step : forall s l s', EI s -> CI s -> clean s = true -> tp s = RPark \/ tp s = RWait -> l <> LIns -> l <> LSpurT -> sstep s l = Some s' ->
  clean s' = true /\ (tp s' = RPark \/ tp s' = RWait).
Proof.
  intros s l s' H C Cl W A B E. destruct l; try congruence; simpl in E.
  - rewrite Cl, orb_true_r in E. discriminate.
  - destruct (cur s n); [destruct (ph (envs s n0))|destruct (locked s)]; try discriminate; injection E as <-; auto.
  - destruct (cur s n); [|discriminate]. destruct (nos (envs s n0)); [|discriminate]. injection E as <-; auto.
  - destruct (ph (envs s e)); try discriminate. destruct (told (envs s e) && negb (locked s) && (e <? next s)); [|discriminate].
    injection E as <-. unfold expire. set (s1 := ev (with_env (with_env s e _) e _) (VExp e)). destruct (wake_cleaner_frame s1) as (_&_&_&X).
    simpl. rewrite (x_tp _ _ X), (x_cl _ _ X). auto.
  - destruct (ph (envs s e)); try discriminate. injection E as <-. destruct (own (envs s e)); auto.
  - unfold cstep in E. destruct (cp s) eqn:P; try discriminate; try (injection E as <-; auto; fail).
    + rewrite Cl in E. destruct (at_place s Normal); injection E as <-; [auto|].
      destruct (clear_facts s H P) as (_&X&_). simpl. rewrite (x_tp _ _ X), (x_cl _ _ X). auto.
    + destruct (at_place s Expired); [|discriminate]. injection E as <-. auto.
    + injection E as <-. unfold guard_cleaner. destruct (ccur s); auto.
  - unfold free in E. destruct (cp s); try discriminate. destruct (pl (envs s e)); try discriminate.
    destruct ((e <? next s) && _); [|discriminate]. injection E as <-. auto.
  - unfold mstep in E. destruct (mp s); try discriminate; try (destruct (locked s); [discriminate|]); injection E as <-; auto.
    destruct (reclaim_facts l s H) as (_&X&_). simpl. rewrite (x_tp _ _ X), (x_cl _ _ X). auto.
  - unfold tstep in E. destruct W as [W|W]; rewrite W in E; [|discriminate]. injection E as <-. auto.
  - destruct W as [W|W]; rewrite W in E; discriminate.
  - destruct (cp s); try discriminate. injection E as <-. auto.
  - unfold dstep in E. destruct (dp s) eqn:P; try discriminate.
    + apply (c_cl _ C) in Cl. tauto.
    + destruct (cp s); try discriminate; injection E as <-; auto.
    + destruct (mp s); try discriminate; injection E as <-; auto.
    + destruct W as [W|W]; rewrite W in E; discriminate.
Qed.
Lemma stuck_runs : forall ls s s', inv3 s -> clean s = true -> tp s = RPark \/ tp s = RWait -> Forall (fun l => l <> LIns /\ l <> LSpurT) ls ->
  run sstep s ls = Some s' -> ~ In VReturn (hist s').
Proof.
  induction ls as [|l ls IH]; intros s s' I Cl W F R; simpl in R.
  - injection R as <-. destruct I as (_&C&_). rewrite (c_vr _ C). intros X. apply (c_d3 _ C) in X. destruct W; congruence.
  - destruct (sstep s l) as [s1|] eqn:E; [|discriminate]. inversion F as [|? ? [A B] F']; subst. pose proof I as (H&C&_).
    destruct (stuck_step s l s1) as [C1 C2]; auto. apply (IH s1); auto. eapply inv3_step; eauto.
Qed.

(** Once destruction has begun outside the window, no step at all leads into it. *)
Definition parked (t : tpc) : bool := match t with REmpty | RPark => true | _ => false end.
Lemma begin_step : forall s s', EI s -> CI s -> dp s = DNone -> parked (tp s) = false -> sstep s LD = Some s' -> clean s' = true /\ window (tp s') = false.
Proof.
  intros s s' H C P W S. simpl in S. unfold dstep in S. rewrite P in S. destruct (locked s); [discriminate|].
  set (s1 := ev (ev (mkS (envs s) (next s) (cur s) (ccur s) true (cp s) (mp s) (tp s) DCleaner (hist s)) VClean) (VMgr TDestroyer)) in *.
  injection S as <-. assert (K : EI s1).
  { set (s0 := mkS (envs s) (next s) (cur s) (ccur s) true (cp s) (mp s) (tp s) DCleaner (hist s)) in *.
    assert (K0 : EI s0) by (eapply EI_same; [eassumption|repeat split; reflexivity|reflexivity]).
    assert (K1 : EI (ev s0 VClean)) by splain. splain. }
  destruct (sweep_facts TDestroyer (at_place s1 Normal) s1) as (_&X&_); auto using at_place_nodup.
  { intros e X. now apply at_place_spec. }
  fold (sweep TDestroyer s1) in X. destruct (wake_cleaner_frame (sweep TDestroyer s1)) as (_&_&_&Y). assert (Z := ext_trans _ _ _ X Y).
  destruct (wake_timer_frame (wake_cleaner (sweep TDestroyer s1))) as (_&_&_&_&_&C6&_&_&_&C10).
  rewrite C6, C10, (x_cl _ _ Z), (x_tp _ _ Z). split; [reflexivity|]. unfold s1. simpl. destruct (tp s); auto; discriminate.
Qed.
Lemma window_step : forall s l s', EI s -> CI s -> clean s = true -> window (tp s) = false -> sstep s l = Some s' -> clean s' = true /\ window (tp s') = false.
Proof.
  intros s l s' H C Cl W S. destruct (serves l) eqn:Sv; [destruct (serve_step s l s') as (A&B&_); auto|].
  destruct l; try discriminate; simpl in S.
  - rewrite Cl, orb_true_r in S. discriminate.
  - destruct (cur s n); [destruct (ph (envs s n0))|destruct (locked s)]; try discriminate; injection S as <-; auto.
  - destruct (cur s n); [|discriminate]. destruct (nos (envs s n0)); [|discriminate]. injection S as <-; auto.
  - assert (Q : s' = wake_timer s) by (destruct (tp s); congruence). subst s'.
    destruct (wake_timer_frame s) as (_&_&_&_&_&C6&_&_&_&C10). rewrite C6, C10. split; auto. destruct (tp s); auto.
Qed.
Lemma window_runs : forall ls s s', inv3 s -> clean s = true -> window (tp s) = false -> run sstep s ls = Some s' ->
  inv3 s' /\ clean s' = true /\ window (tp s') = false.
Proof.
  induction ls as [|l ls IH]; intros s s' I Cl W R; simpl in R.
  - injection R as <-. auto.
  - destruct (sstep s l) as [s1|] eqn:E; [|discriminate]. pose proof I as (H&C&_).
    destruct (window_step s l s1) as [C1 C2]; auto. apply (IH s1); auto. eapply inv3_step; eauto.
Qed.
