(** When nothing moves any more: where the parties of the model of wait_ctx can be stuck.  And: every execution with finitely
    many calls is finite. *)
From Coq Require Import List Arith Bool Lia.
From Verif Require Import Base JoinSpec JoinModel JoinProofs.
Import ListNotations.

(** Preempted calls. *)
Definition PInv (s : jst) : Prop := forall j, In j (pend s) <-> cp s j = C8p.
Lemma pinv_step : forall c s l s', PInv s -> jstep_ok c s l = Some s' -> PInv s'.
Proof.
  intros c s l s' P E. destruct l; jcases E; intros j0; js; auto.
  all: try (specialize (P j0); unfold upd; destruct (Nat.eqb_spec j0 j); subst; [|exact P]; rewrite P; split; congruence).
  - rewrite filter_In, (P j0). up; simpl; try congruence; intuition (try discriminate; try congruence).
  - simpl. rewrite (P j0). up; intuition congruence.
Qed.
Definition Inv (c : jcfg) (p0 : nat -> nat) (s : jst) : Prop := OInv c s /\ DInv c p0 s /\ WInv c s /\ PInv s.
Lemma inv_init : forall c p0, Inv c p0 (jinit p0).
Proof.
  intros c p0. split; [|split; [apply dinv_init|split; [apply winv_init|]]].
  - intros l a. simpl. split; [discriminate|]. destruct a, l; simpl; discriminate.
  - intros j. simpl. split; [tauto|discriminate].
Qed.
Lemma inv_step : forall c p0 s l s', Inv c p0 s -> jstep_ok c s l = Some s' -> Inv c p0 s'.
Proof.
  intros c p0 s l s' (A&B&C&D) E. split; [eapply oinv_step; eauto|]. split; [eapply dinv_step; eauto|].
  split; [eapply winv_step; eauto|eapply pinv_step; eauto].
Qed.
Lemma inv_run : forall c p0 ls s, run (jstep_ok c) (jinit p0) ls = Some s -> Inv c p0 s.
Proof. intros c p0 ls s R. eapply run_inv with (I := Inv c p0); eauto using inv_init, inv_step. Qed.

(** Labels by which the parties go on by themselves (not: the end of the function, a new call, the preemption signal, the
    destruction of the target). *)
Definition internal (l : jlbl) : bool :=
  match l with LFin | LStep _ | LCb _ | LTim _ | LTs => true | LEnd _ | LCall _ | LPre _ | LFree => false end.
Definition quiet (c : jcfg) (s : jst) : Prop := forall l, internal l = true -> jstep c s l = None.
(** The same without expiries of timers. *)
Definition internal0 (l : jlbl) : bool := match l with LFin | LStep _ | LCb _ | LTs => true | _ => false end.
Definition quiet0 (c : jcfg) (s : jst) : Prop := forall l, internal0 l = true -> jstep c s l = None.
Lemma quiet_quiet0 : forall c s, quiet c s -> quiet0 c s.
Proof. intros c s Q l I. apply Q. destruct l; auto; discriminate. Qed.
(** The five ways to be stuck. *)
Definition stuck_timer_pub (s : jst) : Prop := exists j r, fp s = FT j r /\ bp s j = B2.
Definition stuck_queue_pub (s : jst) : Prop :=
  exists j r k, fp s = FQ j r /\ (rp s = RT k \/ rp s = RS k) /\ (k = j \/ bp s k = B2).
Definition stuck_start (c : jcfg) (s : jst) : Prop :=
  exists j k, cp s j = C7 /\ rp s = RS k /\ bp s k = B4 /\ env c k = env c j.
Definition preempted (c : jcfg) (s : jst) (j : nat) : Prop := cp s j = C8p /\ wt s j = true /\ timed c j = false.
Definition stuck_preempted (c : jcfg) (s : jst) : Prop :=
  fp s = FLk /\ exists j, preempted c s j /\ env c j <> tenv c.
(** Nobody is stuck: the target is running or done; every call has not begun, has returned, or is an untimed wait on the
    running target, or wants the finish lock that the thread of a preempted untimed wait on the running target has. *)
Definition at_rest (c : jcfg) (s : jst) : Prop :=
  (fp s = FRun \/ fp s = FDone) /\ rp s = RI /\ (forall j, bp s j = BN \/ bp s j = BD) /\
  (forall j, cp s j = C0 \/ cp s j = CD \/
             ((cp s j = CP \/ cp s j = C8p) /\ wt s j = true /\ timed c j = false /\ fp s = FRun) \/
             ((cp s j = C1 \/ cp s j = CG) /\ fp s = FRun /\ exists i, preempted c s i /\ env c i <> env c j)).

Section Q.
  Variables (c : jcfg) (p0 : nat -> nat) (s : jst).
  Hypothesis I : Inv c p0 s.
  Hypothesis Q : quiet0 c s.
  Let O : OInv c s := proj1 I.
  Let D : DInv c p0 s := proj1 (proj2 I).
  Let W : WInv c s := proj1 (proj2 (proj2 I)).
  Let P : PInv s := proj2 (proj2 (proj2 I)).

  Lemma q_c : forall j, match cp s j with C0 | CD | C1 | C2 | C4 | C6 | C7 | CG => True | CP | C8p => wt s j = true | _ => False end.
  Proof.
    intros j. pose proof (Q (LStep j) eq_refl) as X. simpl in X. unfold cstep in X.
    destruct (cp s j) eqn:E; auto; try discriminate.
    - destruct (wt s j); auto; discriminate.
    - destruct (wt s j); auto; discriminate.
  Qed.
  Lemma q_b : forall j, bp s j = BN \/ bp s j = B1 /\ own s (LT j) <> None \/ bp s j = B2 /\ own s LM <> None \/
                        bp s j = B4 /\ own s (LS (env c j)) <> None \/ bp s j = BD.
  Proof.
    intros j. pose proof (Q (LCb j) eq_refl) as X. simpl in X. unfold bstep, take, during, is_free in X.
    destruct (bp s j) eqn:E; auto; try discriminate.
    - right. left. split; auto. destruct (own s (LT j)); [discriminate|discriminate].
    - right. right. left. split; auto. destruct (freed s); [discriminate|]. destruct (own s LM); discriminate.
    - right. right. right. left. split; auto. destruct (own s _); discriminate.
  Qed.
  Lemma q_r : rp s = RI \/ exists k, (rp s = RT k \/ rp s = RS k) /\ own s (LT k) <> None.
  Proof.
    pose proof (Q LTs eq_refl) as X. simpl in X. unfold rstep, during, is_free in X.
    destruct (rp s) eqn:E; auto; right; exists j; (split; [auto|]); destruct (own s (LT j)); discriminate.
  Qed.
  Lemma lm_free : fin s = false -> own s LM = None.
  Proof.
    intros F. destruct (own s LM) as [a|] eqn:E; auto. exfalso. apply O in E. destruct a; simpl in E.
    - rewrite (d_fin _ _ _ D) in F. destruct (fp s); simpl in *; discriminate.
    - pose proof (q_c j). destruct (cp s j); simpl in *; try discriminate; contradiction.
    - destruct (bp s j); discriminate.
    - destruct (rp s); discriminate.
  Qed.
  Lemma ls_owner : forall e a, own s (LS e) = Some a -> exists j, a = ACall j /\ e = env c j /\ (cp s j = C4 \/ cp s j = C6 \/ cp s j = C7).
  Proof.
    intros e a E. apply O in E. destruct a; simpl in E.
    - destruct (fp s); discriminate.
    - pose proof (q_c j). exists j. split; auto.
      destruct (cp s j); simpl in *; try discriminate; try contradiction; apply Nat.eqb_eq in E; auto.
    - destruct (bp s j); discriminate.
    - destruct (rp s); discriminate.
  Qed.
  Lemma lf_owner : own s LF <> None -> exists j, cp s j = C2 \/ cp s j = C4 \/ cp s j = C6 \/ cp s j = C7.
  Proof.
    destruct (own s LF) as [a|] eqn:E; [|congruence]. intros _. apply O in E. destruct a; simpl in E.
    - pose proof (Q LFin eq_refl) as X. simpl in X. unfold fstep in X. destruct (fp s); simpl in *; discriminate.
    - pose proof (q_c j). exists j. destruct (cp s j); simpl in *; try discriminate; try contradiction; auto.
    - destruct (bp s j); discriminate.
    - destruct (rp s); discriminate.
  Qed.
  Lemma lt_owner : forall k, own s (LT k) <> None -> (exists r, fp s = FQ k r) \/ cp s k = C7 \/ bp s k = B2 \/ bp s k = B4.
  Proof.
    intros k N. destruct (own s (LT k)) as [a|] eqn:E; [|congruence]. apply O in E. destruct a; simpl in E.
    - destruct (fp s); simpl in *; try discriminate. apply Nat.eqb_eq in E as ->. eauto.
    - right. left. destruct (cp s j) eqn:C; simpl in *; try discriminate. apply Nat.eqb_eq in E as ->. auto.
    - right. right. pose proof (q_b j) as B. destruct (bp s j) eqn:C; simpl in *; try discriminate; apply Nat.eqb_eq in E as ->; auto.
      exfalso. intuition discriminate.
    - destruct (rp s); discriminate.
  Qed.
  Lemma q_fin : fin s = true -> stuck_timer_pub s \/ stuck_queue_pub s \/ at_rest c s.
  Proof.
    intros F.
    assert (LSF : forall e, own s (LS e) = None).
    { intros e. destruct (own s (LS e)) eqn:E; auto. exfalso. destruct (ls_owner _ _ E) as (j&_&_&C).
      assert (X : fin s = false) by (apply (d_not _ _ _ D j); destruct C as [C|[C|C]]; rewrite C; reflexivity). congruence. }
    assert (NN : forall j, cp s j <> C4 /\ cp s j <> C6 /\ cp s j <> C7).
    { intros j. repeat split; intros C; assert (X : fin s = false) by (apply (d_not _ _ _ D j); rewrite C; reflexivity); congruence. }
    assert (NC2 : forall j, cp s j <> C2).
    { intros j C. pose proof (Q (LStep j) eq_refl) as X. simpl in X. unfold cstep, take, is_free in X. rewrite C, LSF in X. discriminate. }
    assert (LFF : own s LF = None).
    { destruct (own s LF) eqn:E; auto. exfalso. destruct lf_owner as [j C]; [rewrite E; discriminate|]. specialize (NN j). specialize (NC2 j). intuition. }
    assert (NB4 : forall j, bp s j <> B4).
    { intros j B. destruct (q_b j) as [X|[[X _]|[[X _]|[[_ X]|X]]]]; congruence. }
    pose proof (Q LFin eq_refl) as XF. simpl in XF. unfold fstep, takef, take, during, is_free in XF.
    pose proof (d_fin _ _ _ D) as DF. rewrite F in DF.
    destruct (fp s) as [| | | |[|j r]|j r|j r|j r|j r|] eqn:FP; try discriminate.
    - destruct (own s LM) eqn:LMO; [|discriminate]. apply O in LMO. destruct a; simpl in LMO.
      + rewrite FP in LMO. discriminate.
      + pose proof (q_c j). destruct (cp s j); simpl in *; try discriminate; contradiction.
      + destruct (bp s j); discriminate.
      + destruct (rp s); discriminate.
    - assert (X : own s (LT j) <> None) by (destruct (tst s j), (own s (LT j)); discriminate).
      destruct (lt_owner _ X) as [[r' Y]|[Y|[Y|Y]]]; [congruence|apply NN in Y; contradiction| |apply NB4 in Y; contradiction].
      left. exists j, r. auto.
    - assert (X : own s LQ <> None) by (destruct (own s LQ); discriminate).
      right. left. destruct (own s LQ) as [a|] eqn:E; [|congruence]. apply O in E. destruct a; simpl in E; try rewrite FP in E; try discriminate.
      + pose proof (NN j0). destruct (cp s j0); simpl in E; discriminate.
      + destruct (bp s j0); discriminate.
      + destruct q_r as [R|[k [R Y]]]; [rewrite R in E; discriminate|]. exists j, r, k. split; auto. split; auto.
        destruct (lt_owner _ Y) as [[r' Z]|[Z|[Z|Z]]]; [left; congruence|apply NN in Z; contradiction|auto|apply NB4 in Z; contradiction].
    - rewrite LSF in XF. discriminate.
    - right. right.
      assert (LMF : own s LM = None).
      { destruct (own s LM) eqn:LMO; auto. exfalso. apply O in LMO. destruct a; simpl in LMO.
        + rewrite FP in LMO. discriminate.
        + pose proof (q_c j). destruct (cp s j); simpl in *; try discriminate; contradiction.
        + destruct (bp s j); discriminate.
        + destruct (rp s); discriminate. }
      assert (NB2 : forall j, bp s j <> B2).
      { intros j B. destruct (q_b j) as [X|[[X _]|[[_ X]|[[X _]|X]]]]; try congruence. }
      assert (LTF : forall j, own s (LT j) = None).
      { intros j. destruct (own s (LT j)) eqn:E; auto. exfalso. destruct (lt_owner j) as [[r' Z]|[Z|[Z|Z]]]; [congruence|congruence| | |].
        - apply NN in Z; contradiction.
        - apply NB2 in Z; contradiction.
        - apply NB4 in Z; contradiction. }
      assert (B0 : forall j, bp s j = BN \/ bp s j = BD).
      { intros j. destruct (q_b j) as [X|[[X Y]|[[X Y]|[[X Y]|X]]]]; auto; exfalso; [apply Y, LTF|congruence|apply Y, LSF]. }
      assert (WF : forall j, cp s j <> C4 -> cp s j <> C5 -> wt s j = false).
      { intros j N4 N5. destruct (wt s j) eqn:WJ; auto. exfalso. destruct (w_todo _ _ W _ WJ) as [A|[A|[A|A]]]; auto.
        - unfold todo in A. rewrite FP in A. exact A.
        - specialize (B0 j). intuition congruence. }
      assert (PE : pend s = []).
      { destruct (pend s) as [|j l] eqn:E; auto. exfalso. assert (C : cp s j = C8p) by (apply P; rewrite E; now left).
        pose proof (q_c j) as X. rewrite C in X. rewrite WF in X; congruence. }
      split; auto. split; [|split]; auto.
      + destruct q_r as [R|[k [R Y]]]; auto. exfalso. apply Y, LTF.
      + intros j. pose proof (q_c j) as X. pose proof (NN j) as Y. pose proof (NC2 j) as Z.
        pose proof (Q (LStep j) eq_refl) as V. simpl in V. unfold cstep, takef, lf_free, is_free in V. rewrite LFF, PE in V.
        destruct (cp s j) eqn:C; auto; try contradiction; try discriminate; try (destruct Y as (Y1&Y2&Y3); congruence).
        * rewrite WF in X; congruence.
        * rewrite WF in X; congruence.
  Qed.
  Lemma FA : forall e, forallb (fun j => env c j =? e) (pend s) = false -> exists j, In j (pend s) /\ env c j <> e.
  Proof.
    intros e X. apply not_true_iff_false in X. rewrite forallb_forall in X.
        destruct (existsb (fun j => negb (env c j =? e)) (pend s)) eqn:EX.
        - apply existsb_exists in EX as (j&A&B). exists j. split; auto. destruct (Nat.eqb_spec (env c j) e); auto. discriminate.
        - exfalso. apply X. intros j A. destruct (env c j =? e) eqn:Z; auto. exfalso.
          assert (Y : existsb (fun j => negb (env c j =? e)) (pend s) = true) by (apply existsb_exists; exists j; rewrite Z; auto). congruence.
  Qed.
  Lemma q_run0 : fin s = false -> stuck_start c s \/
    (rp s = RI /\ own s LQ = None /\ own s LF = None /\ (forall j, bp s j = BN \/ bp s j = BD) /\
     (forall j, cp s j <> C2) /\ (forall j, cp s j <> C4) /\ (forall j, cp s j <> C6) /\ (forall j, cp s j <> C7) /\
     (forall j r, fp s <> FQ j r /\ fp s <> FW j r) /\
     (fp s = FRun \/ fp s = FLk /\ exists j, In j (pend s) /\ env c j <> tenv c)).
  Proof.
    intros F. pose proof (lm_free F) as LMF.
    assert (NC4 : forall j, cp s j <> C4).
    { intros j C. pose proof (Q (LStep j) eq_refl) as X. simpl in X. unfold cstep, take, is_free in X. rewrite C, LMF in X. discriminate. }
    assert (NB2 : forall j, bp s j <> B2).
    { intros j B. destruct (q_b j) as [X|[[X _]|[[_ X]|[[X _]|X]]]]; try congruence. }
    assert (NFQ : forall j r, fp s <> FQ j r /\ fp s <> FW j r).
    { intros j r. pose proof (d_fin _ _ _ D) as Y. rewrite F in Y. split; intros X; rewrite X in Y; discriminate. }
    assert (PRE : forall j, pre (cp s j) = true -> bp s j = BN).
    { intros j X. destruct (bp s j) eqn:B; auto; exfalso; assert (N : bp s j <> BN) by congruence; apply (w_b0 _ _ W) in N; apply N, (w_pre _ _ W); auto. }
    assert (NC6 : forall j, cp s j <> C6).
    { intros j C. pose proof (Q (LStep j) eq_refl) as X. simpl in X. unfold cstep, take, is_free in X. rewrite C in X.
      assert (B : bp s j = BN) by (apply PRE; rewrite C; reflexivity).
      assert (Y : own s (LT j) <> None) by (destruct (own s (LT j)); discriminate).
      destruct (lt_owner _ Y) as [[r Z]|[Z|[Z|Z]]]; try congruence. apply NFQ in Z; auto. }
    assert (C7D : (exists j, cp s j = C7) \/ (forall j, cp s j <> C7)).
    { destruct (own s LF) as [a|] eqn:E.
      - assert (N : own s LF <> None) by congruence. destruct (lf_owner N) as [j0 _].
        destruct a as [|j| |].
        + right. intros j C. assert (Y : own s LF = Some (ACall j)) by (apply O; simpl; rewrite C; reflexivity). congruence.
        + assert (DC : cp s j = C7 \/ cp s j <> C7) by (destruct (cp s j); auto; right; discriminate). destruct DC as [DC|DC]; [eauto|].
          right. intros i C. assert (Y : own s LF = Some (ACall i)) by (apply O; simpl; rewrite C; reflexivity). congruence.
        + right. intros i C. assert (Y : own s LF = Some (ACall i)) by (apply O; simpl; rewrite C; reflexivity). congruence.
        + right. intros i C. assert (Y : own s LF = Some (ACall i)) by (apply O; simpl; rewrite C; reflexivity). congruence.
      - right. intros i C. assert (Y : own s LF = Some (ACall i)) by (apply O; simpl; rewrite C; reflexivity). congruence. }
    assert (UQ : forall i j, cp s i = C7 -> cp s j = C7 -> i = j).
    { intros i j A B. assert (X : own s LF = Some (ACall i)) by (apply O; simpl; rewrite A; reflexivity).
      assert (Y : own s LF = Some (ACall j)) by (apply O; simpl; rewrite B; reflexivity). congruence. }
    destruct C7D as [[j C]|NC7].
    - left. pose proof (Q (LStep j) eq_refl) as X. simpl in X. unfold cstep, during, is_free in X. rewrite C in X.
      assert (R0 : rp s <> RI).
      { intros R. destruct (own s LQ) as [a|] eqn:E; [|discriminate]. apply O in E. destruct a; simpl in E.
        - destruct (fp s); discriminate.
        - destruct (cp s j0); discriminate.
        - destruct (bp s j0); discriminate.
        - rewrite R in E. discriminate. }
      destruct q_r as [R|[k [R Y]]]; [contradiction|].
      assert (NK : cp s k <> C7).
      { intros CK. assert (T : tst s k = TN) by (apply (w_pre _ _ W); rewrite CK; reflexivity).
        destruct R as [R|R]; [destruct (w_rt _ _ W _ R)|destruct (w_rs _ _ W _ R)]; auto. }
      destruct (lt_owner _ Y) as [[r Z]|[Z|[Z|Z]]]; [apply NFQ in Z; contradiction|contradiction|apply NB2 in Z; contradiction|].
      destruct R as [R|R]; [destruct (w_rt _ _ W _ R); congruence|].
      destruct (q_b k) as [U|[[U V]|[[U V]|[[U V]|U]]]]; try congruence.
      destruct (own s (LS (env c k))) as [a|] eqn:E; [|congruence]. destruct (ls_owner _ _ E) as (i&_&EN&[CI|[CI|CI]]);
      [apply NC4 in CI; contradiction|apply NC6 in CI; contradiction|]. rewrite (UQ _ _ CI C) in EN. exists j, k. auto.
    - right.
      assert (LSF : forall e, own s (LS e) = None).
      { intros e. destruct (own s (LS e)) eqn:E; auto. exfalso. destruct (ls_owner _ _ E) as (j&_&_&[CI|[CI|CI]]);
        [eapply NC4|eapply NC6|eapply NC7]; eauto. }
      assert (NC2 : forall j, cp s j <> C2).
      { intros j C. pose proof (Q (LStep j) eq_refl) as X. simpl in X. unfold cstep, take, is_free in X. rewrite C, LSF in X. discriminate. }
      assert (LFF : own s LF = None).
      { destruct (own s LF) eqn:E; auto. exfalso. destruct lf_owner as [j [C|[C|[C|C]]]]; [congruence| | | |];
        [eapply NC2|eapply NC4|eapply NC6|eapply NC7]; eauto. }
      assert (NB4 : forall j, bp s j <> B4).
      { intros j B. destruct (q_b j) as [X|[[X _]|[[X _]|[[_ X]|X]]]]; congruence. }
      assert (LTF : forall j, own s (LT j) = None).
      { intros j. destruct (own s (LT j)) eqn:E; auto. exfalso. destruct (lt_owner j) as [[r' Z]|[Z|[Z|Z]]]; [congruence| | | |].
        - apply NFQ in Z; contradiction.
        - apply NC7 in Z; contradiction.
        - apply NB2 in Z; contradiction.
        - apply NB4 in Z; contradiction. }
      assert (B0 : forall j, bp s j = BN \/ bp s j = BD).
      { intros j. destruct (q_b j) as [X|[[X Y]|[[X Y]|[[X Y]|X]]]]; auto; exfalso; congruence. }
      assert (R0 : rp s = RI).
      { destruct q_r as [R|[k [R Y]]]; auto. exfalso. apply Y, LTF. }
      assert (LQF : own s LQ = None).
      { destruct (own s LQ) as [a|] eqn:E; auto. exfalso. apply O in E. destruct a; simpl in E.
        - destruct (fp s); discriminate.
        - destruct (cp s j); discriminate.
        - destruct (bp s j); discriminate.
        - rewrite R0 in E. discriminate. }
      assert (FPC : fp s = FRun \/ fp s = FLk /\ exists j, In j (pend s) /\ env c j <> tenv c).
      { pose proof (Q LFin eq_refl) as XF. simpl in XF. unfold fstep, takef, lf_free, is_free in XF. rewrite LFF in XF.
        pose proof (d_fin _ _ _ D) as DF. rewrite F in DF.
        destruct (fp s) eqn:FP; simpl in *; try discriminate; auto.
        destruct (forallb _ (pend s)) eqn:FB; [discriminate|]. apply FA in FB. eauto. }
      repeat split; auto; apply NFQ.
  Qed.
  Lemma q_run : (forall j, jstep c s (LTim j) = None) -> fin s = false -> stuck_start c s \/ stuck_preempted c s \/ at_rest c s.
  Proof.
    intros QT F. destruct (q_run0 F) as [A|(R0&LQF&LFF&B0&NC2&NC4&NC6&NC7&NFQ&FPC)]; auto. right.
      assert (UT : forall j, pre (cp s j) = false -> wt s j = true -> timed c j = false).
      { intros j A B. destruct (timed c j) eqn:T; auto. exfalso. destruct (w_t _ _ W _ T B A) as [X|[X|[X|[X|[r [X|X]]]]]].
        - pose proof (QT j) as Y. simpl in Y. unfold take, is_free in Y. rewrite R0, X, LQF in Y. discriminate.
        - specialize (B0 j). intuition congruence.
        - specialize (B0 j). intuition congruence.
        - specialize (B0 j). intuition congruence.
        - apply NFQ in X; auto.
        - apply NFQ in X; auto. }
      assert (PW : forall j, In j (pend s) -> cp s j = C8p /\ wt s j = true /\ timed c j = false).
      { intros j IN. apply P in IN. pose proof (q_c j) as X. rewrite IN in X. split; auto. split; auto. apply UT; auto. rewrite IN. reflexivity. }
      destruct FPC as [FPC|(FPC&j&A&B)].
      + assert (BL : forall k, cp s k = C1 \/ cp s k = CG -> exists j, In j (pend s) /\ env c j <> env c k).
        { intros k C. pose proof (Q (LStep k) eq_refl) as X. simpl in X. unfold cstep, takef, lf_free, is_free in X. rewrite LFF in X.
          apply FA. destruct C as [C|C]; rewrite C in X; destruct (forallb _ (pend s)); auto; discriminate. }
        right. split; auto. split; auto. split; auto. intros j. pose proof (q_c j) as X.
        assert (Y1 := NC2 j). assert (Y2 := NC4 j). assert (Y3 := NC6 j). assert (Y4 := NC7 j). specialize (BL j). specialize (UT j).
        destruct (cp s j) eqn:C; try congruence; try contradiction; auto.
        * right. right. right. destruct BL as (i&A&B); auto. destruct (PW _ A) as (U1&U2&U3). repeat split; auto. exists i. repeat split; auto.
        * right. right. left. repeat split; auto.
        * right. right. left. repeat split; auto.
        * right. right. right. destruct BL as (i&A&B); auto. destruct (PW _ A) as (U1&U2&U3). repeat split; auto. exists i. repeat split; auto.
      + left. split; auto. exists j. destruct (PW _ A) as (X&Y&Z). repeat split; auto.
  Qed.
End Q.

Theorem quiet_shape : forall c p0 s, Inv c p0 s -> quiet c s ->
  stuck_timer_pub s \/ stuck_queue_pub s \/ stuck_start c s \/ stuck_preempted c s \/ at_rest c s.
Proof.
  intros c p0 s I Q. destruct (fin s) eqn:F.
  - destruct (q_fin c p0 s I (quiet_quiet0 _ _ Q) F) as [A|[A|A]]; auto.
  - destruct (q_run c p0 s I (quiet_quiet0 _ _ Q) (fun j => Q (LTim j) eq_refl) F) as [A|[A|A]]; auto.
Qed.

(** ** Executions are finite *)
Fixpoint sumN (n : nat) (f : nat -> nat) : nat := match n with 0 => 0 | S m => sumN m f + f m end.
Lemma sumN_ext : forall n f g, (forall i, i < n -> f i = g i) -> sumN n f = sumN n g.
Proof. induction n; simpl; intros f g H; auto. rewrite (IHn f g), (H n); auto. Qed.
Lemma sumN_change : forall n j f g, j < n -> (forall i, i <> j -> g i = f i) -> sumN n g + f j = sumN n f + g j.
Proof.
  induction n; intros j f g L H; [lia|]. simpl. destruct (Nat.eq_dec j n) as [->|NE].
  - rewrite (sumN_ext n g f); [lia|]. intros i LI. apply H. lia.
  - rewrite (H n) by auto. assert (LJ : j < n) by lia. specialize (IHn j f g LJ H). lia.
Qed.
Definition cw (p : cpc) : nat :=
  match p with C0 => 21 | C1 => 20 | C2 => 19 | C3 => 18 | C4 => 17 | C5 => 16 | C6 => 10 | C7 => 9 | C8 => 8 | C8b => 7 | C8p => 6
             | C9 => 6 | C9b => 5 | CP => 5 | CG => 4 | CG2 => 3 | CE => 2 | CE2 _ => 1 | CD => 0 end.
Definition bw (p : bpc) : nat := match p with BN => 0 | B1 => 4 | B2 => 3 | B3 => 2 | B4 => 1 | BD => 0 end.
Definition tw (t : tstat) : nat := match t with TS => 0 | _ => 20 end.
Definition fw (p : fpc) (k : nat) : nat :=
  match p with
  | FRun => 5 * k + 6 | FLk => 5 * k + 5 | FSet => 5 * k + 4 | FPubL => 5 * k + 3
  | FPub r => 5 * length r + 1 | FT _ r => 5 * length r + 5 | FQ _ r => 5 * length r + 4 | FW _ r => 5 * length r + 3
  | FK _ r => 5 * length r + 2 | FDone => 0 end.
Definition rw (r : rpc) (t : nat -> tstat) : nat :=
  match r with
  | RI => 9
  | RT j => 8 + match t j with TS => 10 | _ => 0 end
  | RS j => 2 + match t j with TS => 10 | _ => 0 end
  end.
Lemma fw_le : forall p k k', k <= k' -> fw p k <= fw p k'.
Proof. intros p k k' L. destruct p; simpl; lia. Qed.
Lemma rw_up : forall r t j x, rw r (upd t j x) <= rw r t + 10.
Proof. intros r t j x. destruct r as [|i|i]; simpl; try lia; unfold upd; destruct (i =? j); destruct x, (t i); lia. Qed.
Lemma rw_tr : forall r t j, rw r (upd t j TR) <= rw r t.
Proof. intros r t j. destruct r as [|i|i]; simpl; try lia; unfold upd; destruct (i =? j); destruct (t i); lia. Qed.
Lemma fw_add : forall p k, fw p (k + 1) <= fw p k + 5.
Proof. intros p k. destruct p; simpl; lia. Qed.
Definition per (s : jst) (j : nat) : nat := cw (cp s j) + tw (tst s j) + bw (bp s j).
Definition mu (n : nat) (s : jst) : nat := sumN n (per s) + fw (fp s) (length (subs s)) + rw (rp s) (tst s) + (if freed s then 0 else 1).
Lemma filter_len : forall (f : nat -> bool) l, length (filter f l) <= length l.
Proof. induction l; simpl; auto. destruct (f a); simpl; lia. Qed.
Lemma mu_step : forall c p0 n s l s', Inv c p0 s -> (forall j, n <= j -> cp s j = C0) -> (forall j, l = LCall j -> j < n) ->
  jstep_ok c s l = Some s' -> mu n s' < mu n s.
Proof.
  intros c p0 n s l s' (O&D&W&P) C LB E.
  assert (T0 : forall j, n <= j -> tst s j = TN).
  { intros j L. apply (w_pre _ _ W). rewrite C; auto. }
  assert (B0 : forall j, n <= j -> bp s j = BN).
  { intros j L. destruct (bp s j) eqn:B; auto; exfalso; assert (N : bp s j <> BN) by congruence; apply (w_b0 _ _ W) in N; auto. }
  assert (R0 : forall j, rp s = RT j -> bp s j = BN /\ j < n).
  { intros j R. destruct (w_rt _ _ W _ R). split; auto. destruct (le_lt_dec n j); auto. exfalso; auto. }
  assert (R1 : forall j, rp s = RS j -> j < n).
  { intros j R. destruct (w_rs _ _ W _ R). destruct (le_lt_dec n j); auto. exfalso; auto. }
  assert (CN : forall j, cp s j <> C0 -> j < n) by (intros j X; destruct (le_lt_dec n j); auto; exfalso; auto).
  assert (BNN : forall j, bp s j <> BN -> j < n) by (intros j X; destruct (le_lt_dec n j); auto; exfalso; auto).
  assert (TNN : forall j, tst s j <> TN -> j < n) by (intros j X; destruct (le_lt_dec n j); auto; exfalso; auto).
  assert (NT : forall j, pre (cp s j) = true -> tst s j = TN) by (apply (w_pre _ _ W)).
  assert (NF : forall j, cp s j = C5 -> after_fin (fp s) = false).
  { intros j X. rewrite <- (d_fin _ _ _ D). apply (d_not _ _ _ D j). now rewrite X. }
  (* the change of the sum at one index *)
  Ltac same n s' s := assert (SE : sumN n (per s') = sumN n (per s)) by (apply sumN_ext; intros; unfold per; js; reflexivity).
  Ltac at1 n j s' s := assert (SE : sumN n (per s') + per s j = sumN n (per s) + per s' j)
    by (apply sumN_change; [|intros i NI; unfold per; js; unfold upd; destruct (Nat.eqb_spec i j); [contradiction|reflexivity]]).
  destruct l; jcases E; unfold mu;
  match goal with |- context[sumN n (per ?s') + _ + _ + _ < _] =>
    first [ same n s' s | match goal with
            | M : cp s ?j = _ |- _ => assert (J : j < n) by (try (apply CN; rewrite M; discriminate); apply LB; reflexivity); 
               assert (SE : sumN n (per s') + per s j = sumN n (per s) + per s' j)
                 by (apply sumN_change; [exact J|intros i NI; unfold per; js; unfold upd; destruct (Nat.eqb_spec i j); [contradiction|reflexivity]])
            | M : bp s ?j = _ |- _ => assert (J : j < n) by (apply BNN; rewrite M; discriminate);
               assert (SE : sumN n (per s') + per s j = sumN n (per s) + per s' j)
                 by (apply sumN_change; [exact J|intros i NI; unfold per; js; unfold upd; destruct (Nat.eqb_spec i j); [contradiction|reflexivity]])
            | M : tst s ?j = TR |- _ => assert (J : j < n) by (apply TNN; rewrite M; discriminate);
               assert (SE : sumN n (per s') + per s j = sumN n (per s) + per s' j)
                 by (apply sumN_change; [exact J|intros i NI; unfold per; js; unfold upd; destruct (Nat.eqb_spec i j); [contradiction|reflexivity]])
            | M : rp s = RT ?j |- _ => destruct (R0 j eq_refl) as [BJ J];
               assert (SE : sumN n (per s') + per s j = sumN n (per s) + per s' j)
                 by (apply sumN_change; [exact J|intros i NI; unfold per; js; unfold upd; destruct (Nat.eqb_spec i j); [contradiction|reflexivity]])
            | M : rp s = RS ?j |- _ => pose proof (R1 j eq_refl) as J;
               assert (SE : sumN n (per s') + per s j = sumN n (per s) + per s' j)
                 by (apply sumN_change; [exact J|intros i NI; unfold per; js; unfold upd; destruct (Nat.eqb_spec i j); [contradiction|reflexivity]])
            end ]
  end.
  all: repeat match goal with |- context[sumN ?n ?f] => let X := fresh "X" in set (X := sumN n f) in *; clearbody X end.
  all: try unfold per in SE; js; fx; rewrite ?upd_same in SE.
  all: try match goal with M : cp _ ?j = _ |- _ => rewrite ?M in SE; cbn [cw tw] in SE end.
  all: try match goal with M : bp _ ?j = _ |- _ => rewrite ?M in SE; cbn [bw] in SE end.
  all: repeat match goal with M : freed _ = _ |- _ => rewrite M; revert M end; intros.
  all: cbn [fw]; rewrite ?app_length; cbn [length]; try lia.
  - match goal with M : tst s j = TR |- _ => rewrite M in SE; cbn [tw] in SE end. pose proof (rw_up (rp s) (tst s) j TS). lia.
  - pose proof (fw_add (fp s) (length (subs s))). lia.
  - pose proof (fw_add (fp s) (length (subs s))). lia.
  - pose proof (rw_tr (rp s) (tst s) j). rewrite (NT j) in SE; [cbn [tw] in SE; lia|]. match goal with M : cp s j = C7 |- _ => now rewrite M end.
  - pose proof (fw_le (fp s) _ _ (filter_len (fun x : nat => negb (j =? x)) (subs s))). lia.
  - match goal with M : rp s = RI |- _ => rewrite M end. match goal with M : tst s j = TR |- _ => cbn [rw]; rewrite M end. lia.
  - match goal with M : rp s = _ |- _ => rewrite M end. cbn [bw rw] in *. lia.
  - match goal with M : rp s = _ |- _ => rewrite M end. cbn [rw tw] in *. destruct (tst s j); cbn [tw] in SE; lia.
Qed.
Definition only_below (n : nat) (ls : list jlbl) : Prop := forall j, In (LCall j) ls -> j < n.
Lemma c0_step : forall c n s l s', (forall j, n <= j -> cp s j = C0) -> (forall j, l = LCall j -> j < n) ->
  jstep_ok c s l = Some s' -> forall j, n <= j -> cp s' j = C0.
Proof.
  intros c n s l s' C LB E. destruct l; jcases E; intros j0 L; js; auto; up; auto; exfalso;
  try (specialize (C _ L); congruence). specialize (LB j eq_refl). lia.
Qed.
Theorem run_bounded : forall c p0 n ls s s', Inv c p0 s -> (forall j, n <= j -> cp s j = C0) -> only_below n ls ->
  run (jstep_ok c) s ls = Some s' -> length ls + mu n s' <= mu n s.
Proof.
  induction ls as [|l ls IH]; intros s s' I C B R; simpl in R.
  - injection R as <-. simpl. lia.
  - destruct (jstep_ok c s l) as [s1|] eqn:E; [|discriminate].
    assert (LB : forall j, l = LCall j -> j < n) by (intros j ->; apply B; now left).
    assert (X : length ls + mu n s' <= mu n s1).
    { apply IH; auto. - eapply inv_step; eauto. - eapply c0_step; eauto. - intros j IN. apply B. now right. }
    pose proof (mu_step _ _ _ _ _ _ I C LB E). simpl. lia.
Qed.
Lemma mu_init : forall n p0, mu n (jinit p0) = 41 * n + 16.
Proof. intros n p0. unfold mu. simpl. assert (X : sumN n (per (jinit p0)) = 41 * n); [|lia]. induction n; [reflexivity|]. cbn [sumN]. rewrite IHn. unfold per. simpl. lia. Qed.
