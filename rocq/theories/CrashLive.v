(** After a fatal signal: when the program cannot end, and that it can otherwise. *)
From Coq Require Import List Arith Bool Lia.
From Verif Require Import Base HistSpec ShutSpec ShutModel ShutProofs ShutLive CrashSpec CrashModel CrashProofs.
Import ListNotations.

Lemma HI_reach : forall ls s, run step cinit ls = Some s -> HI s.
Proof.
  intros ls s R. enough (X : inv3 (sh s) /\ HI s) by tauto. eapply (run_inv step (fun s => inv3 (sh s) /\ HI s)); [| |exact R].
  - split; [apply (inv3_reach []); reflexivity|apply HI_init].
  - intros a l b [I J] S. split; [eapply inv3_below; eauto; eapply step_below; eauto|eapply HI_step; eauto].
Qed.

(** ** Spaced signals *)
Record PI (s : cst) : Prop := {
  p_beg : flag s = true <-> exists t, In (WBegin t) (evs s);
  p_one : flag s = false -> length (signals (evs s)) <= 1;
  p_set : flag s = true -> forall t n, ~ In (HSet n) (hp s t);
  p_main : forall t u a b, In a (hp s t) -> In b (hp s u) -> prog a <> None -> prog b <> None -> t = u /\ a = b;
  p_fate : fate s <> Some Undefined;
  p_exit : exit_once (evs s) }.
Lemma spaced_tail : forall v h, spaced (v :: h) -> spaced h.
Proof. intros v h X. apply always_at_cons in X. tauto. Qed.
Lemma evs_mono : forall s l s', step s l = Some s' -> exists vs, evs s' = vs ++ evs s.
Proof.
  intros s l s' E. unfold step in E. destruct (fate s); [discriminate|]. destruct l as [l|t n|t].
  - assert (X : option_map (setsh s) (sstep (sh s) l) = Some s').
    { destruct (who (sh s) l) as [[]|]; try discriminate; auto; destruct (hp s _); auto; discriminate. }
    destruct (sstep (sh s) l); [|discriminate]. injection X as <-. now exists [].
  - destruct (alive (sh s) t && unmasked (hp s t) n); [|discriminate]. injection E as <-. now exists [WSig t n].
  - destruct (hp s t) as [|h r]; [discriminate|]. destruct h as [m|m|m|m k|m]; simpl in E.
    + injection E as <-. now exists [WLine t m].
    + destruct (flag s); injection E as <-; [now exists [WEnd (128 - m); WAgain t m]|now exists []].
    + injection E as <-. now exists [WBegin t].
    + destruct (k <? 4); [injection E as <-; now exists [WSec t k]|]. destruct (k =? 4).
      { destruct (info_free (sh s) t); [|discriminate]. injection E as <-. now exists [WSec t k]. }
      destruct (dp (sh s)); try (injection E as <-; now exists [WExit t]). destruct (dstep (sh s)); [|discriminate]. injection E as <-. now exists [WExit t].
    + destruct (dp (sh s)); try (destruct (dstep (sh s)); [|discriminate]; injection E as <-; now exists []). injection E as <-. now exists [WEnd (128 - m)].
Qed.
Lemma spaced_back : forall vs h, spaced (vs ++ h) -> spaced h.
Proof. induction vs; simpl; auto. intros h X. apply IHvs. eapply spaced_tail; eauto. Qed.

Lemma PI_step : forall s l s', inv3 (sh s) -> HI s -> PI s -> step s l = Some s' -> spaced (evs s') -> PI s'.
Proof.
  intros s l s' (H&C&_) HH I E Sp. unfold step in E. destruct (fate s) eqn:N; [discriminate|]. destruct I as [I1 I2 I3 I4 I5 I6]. destruct l as [l|t n|t].
  - assert (X : option_map (setsh s) (sstep (sh s) l) = Some s').
    { destruct (who (sh s) l) as [[]|]; try discriminate; auto; destruct (hp s _); auto; discriminate. }
    destruct (sstep (sh s) l); [|discriminate]. injection X as <-. constructor; simpl; auto.
  - destruct (alive (sh s) t && unmasked (hp s t) n); [|discriminate]. injection E as <-. simpl in Sp. apply always_at_cons in Sp as [S1 _]. constructor; simpl; auto.
    + rewrite I1. split; intros (u&X); exists u; [now right|destruct X as [X|X]; [discriminate|auto]].
    + intros F. destruct S1 as [S1|(u&S1)]; [rewrite S1; simpl; auto|]. assert (flag s = true) by (apply I1; eauto). congruence.
    + intros F u m. destruct (thr_eq u t) as [->|]; auto. intros [X|X]; [discriminate|]. now apply (I3 F t m).
    + intros u v a b A B Pa Pb.
      assert (A' : In a (hp s u)). { destruct (thr_eq u t) as [->|]; auto. destruct A as [<-|A]; auto. now destruct Pa. }
      assert (B' : In b (hp s v)). { destruct (thr_eq v t) as [->|]; auto. destruct B as [<-|B]; auto. now destruct Pb. }
      eauto.
    + apply cons_ok; simpl; auto.
  - destruct (hp s t) as [|h r] eqn:P; [discriminate|].
    assert (In' : forall x, In x (h :: r) -> In x (hp s t)) by (intros; now rewrite P).
    destruct h as [m|m|m|m k|m]; cbn [hstep] in E.
    + injection E as <-. constructor; simpl; auto.
      * rewrite I1. split; intros (u&X); exists u; [now right|destruct X as [X|X]; [discriminate|auto]].
      * intros F u q. destruct (thr_eq u t) as [->|]; auto. intros [X|X]; [discriminate|]. apply (I3 F t q), In'. now right.
      * intros u v a b A B Pa Pb.
        assert (A' : In a (hp s u)). { destruct (thr_eq u t) as [->|]; auto. destruct A as [<-|A]; [now destruct Pa|apply In'; now right]. }
        assert (B' : In b (hp s v)). { destruct (thr_eq v t) as [->|]; auto. destruct B as [<-|B]; [now destruct Pb|apply In'; now right]. }
        eauto.
      * apply cons_ok; simpl; auto.
    + destruct (flag s) eqn:F; injection E as <-.
      * constructor; simpl; auto.
        -- rewrite F. rewrite I1. split; intros (u&X); exists u; [now right; right|destruct X as [X|[X|X]]; try discriminate; auto].
        -- rewrite F. discriminate.
        -- discriminate.
        -- apply cons_ok; simpl; auto. apply cons_ok; simpl; auto.
      * constructor; simpl; auto.
        -- rewrite F. auto.
        -- rewrite F. discriminate.
        -- intros u v a b A B Pa Pb.
           assert (A' : In a (hp s u)). { destruct (thr_eq u t) as [->|]; auto. destruct A as [<-|A]; [now destruct Pa|apply In'; now right]. }
           assert (B' : In b (hp s v)). { destruct (thr_eq v t) as [->|]; auto. destruct B as [<-|B]; [now destruct Pb|apply In'; now right]. }
           eauto.
    + injection E as <-. assert (F : flag s = false).
      { destruct (flag s) eqn:F; auto. exfalso. apply (I3 eq_refl t m), In'. now left. }
      assert (One : forall u x, In x (hp s u) -> u = t /\ x = HSet m).
      { intros u x X. destruct (thr_eq u t) as [Eu|Nu].
        - split; auto. assert (D : {x = HSet m} + {x <> HSet m}) by (decide equality; apply Nat.eq_dec). destruct D as [D|D]; auto.
          pose proof (two_handlers s t u (HSet m) x HH (In' _ (or_introl eq_refl)) X (or_introl (not_eq_sym D))). specialize (I2 F). lia.
        - pose proof (two_handlers s t u (HSet m) x HH (In' _ (or_introl eq_refl)) X (or_intror (not_eq_sym Nu))). specialize (I2 F). lia. }
      assert (Nr : r = []).
      { destruct r as [|x r]; auto. destruct (One t x) as [_ X]; [apply In'; right; now left|]. subst x.
        pose proof (h_sig _ HH t) as Q. rewrite P in Q. pose proof (sigs_nodup t _ (h_nd _ HH)) as Q2. rewrite Q in Q2. simpl in Q2.
        inversion Q2 as [|? ? Q3 _]. exfalso. apply Q3. now left. }
      subst r. constructor; simpl; auto.
      * split; auto. intros _. exists t. now left.
      * intros _ u q. destruct (thr_eq u t) as [->|Nu]; [intros [X|[]]; discriminate|]. intros X. destruct (One u _ X). congruence.
      * intros u v a b A B Pa Pb.
        assert (A' : u = t /\ a = HRep m 0). { destruct (thr_eq u t) as [->|Nu]; [destruct A as [<-|[]]; auto|]. destruct (One u _ A). congruence. }
        assert (B' : v = t /\ b = HRep m 0). { destruct (thr_eq v t) as [->|Nu]; [destruct B as [<-|[]]; auto|]. destruct (One v _ B). congruence. }
        destruct A', B'. split; congruence.
      * apply cons_ok; simpl; auto.
    + assert (Fl : flag s = true).
      { destruct (flag s) eqn:F; auto. pose proof (h_flag _ HH F t) as X. rewrite P in X. inversion X. contradiction. }
      assert (MainI : forall u x, In x (hp s u) -> prog x <> None -> u = t /\ x = HRep m k).
      { intros u x X Px. apply (I4 u t); auto. apply In'; now left. discriminate. }
      assert (Sh : Forall early r /\ k <= 5). { pose proof (h_shape _ HH t) as X. rewrite P in X. destruct (head_main _ _ k X eq_refl) as (X1&X2&_). auto. }
      destruct Sh as [Er _].
      assert (Sec : forall k', (k' = S k) -> PI (cev1 (sethp s t (HRep m k' :: r)) (WSec t k))).
      { intros k' ->. constructor; simpl; auto.
        - rewrite I1. split; intros (u&X); exists u; [now right|destruct X as [X|X]; [discriminate|auto]].
        - intros F u q. destruct (thr_eq u t) as [->|]; auto. intros [X|X]; [discriminate|]. apply (I3 F t q), In'. now right.
        - intros u v a b A B Pa Pb.
          assert (A' : u = t /\ a = HRep m (S k)).
          { destruct (thr_eq u t) as [->|Nu]; [|destruct (MainI _ _ A Pa); congruence]. destruct A as [<-|A]; auto. rewrite Forall_forall in Er.
            exfalso. apply Pa, early_prog; auto. }
          assert (B' : v = t /\ b = HRep m (S k)).
          { destruct (thr_eq v t) as [->|Nu]; [|destruct (MainI _ _ B Pb); congruence]. destruct B as [<-|B]; auto. rewrite Forall_forall in Er.
            exfalso. apply Pb, early_prog; auto. }
          destruct A', B'. split; congruence.
        - apply cons_ok; simpl; auto. }
      destruct (k <? 4) eqn:K4; [injection E as <-; apply Sec; auto|]. destruct (k =? 4) eqn:K5.
      { destruct (info_free (sh s) t); [|discriminate]. injection E as <-. apply Sec; auto. }
      destruct (h_dp _ HH) as (D1&D2&D3).
      assert (Dn : dp (sh s) = DNone).
      { destruct (dp (sh s)) eqn:D; auto; destruct (D3 ltac:(discriminate)) as (u&q&X); destruct (MainI _ _ X); try discriminate. }
      rewrite Dn in E. destruct (dstep (sh s)) as [y|]; [|discriminate]. injection E as <-. constructor; simpl; auto.
      * rewrite I1. split; intros (u&X); exists u; [now right|destruct X as [X|X]; [discriminate|auto]].
      * intros F u q. destruct (thr_eq u t) as [->|]; auto. intros [X|X]; [discriminate|]. apply (I3 F t q), In'. now right.
      * intros u v a b A B Pa Pb.
        assert (A' : u = t /\ a = HDtor m).
        { destruct (thr_eq u t) as [->|Nu]; [|destruct (MainI _ _ A Pa); congruence]. destruct A as [<-|A]; auto. rewrite Forall_forall in Er.
          exfalso. apply Pa, early_prog; auto. }
        assert (B' : v = t /\ b = HDtor m).
        { destruct (thr_eq v t) as [->|Nu]; [|destruct (MainI _ _ B Pb); congruence]. destruct B as [<-|B]; auto. rewrite Forall_forall in Er.
          exfalso. apply Pb, early_prog; auto. }
        destruct A', B'. split; congruence.
      * apply cons_ok; simpl; auto. apply D1, Dn.
    + assert (X : forall y, PI (setsh s y)) by (intros; constructor; simpl; auto).
      destruct (dp (sh s)); try (destruct (dstep (sh s)) as [y|]; [|discriminate]; injection E as <-; auto).
      injection E as <-. constructor; simpl; auto.
      * rewrite I1. split; intros (u&Y); exists u; [now right|destruct Y as [Y|Y]; [discriminate|auto]].
      * discriminate.
      * apply cons_ok; simpl; auto.
Qed.
Lemma PI_reach : forall ls s, run step cinit ls = Some s -> spaced (evs s) -> PI s.
Proof.
  intros ls. induction ls as [|l ls IH] using rev_ind; intros s R Sp.
  - injection R as <-. constructor; simpl; auto; try discriminate.
    + split; [discriminate|]. intros (t&[]).
    + intros ? ? ? ? [].
    + apply always_at_nil.
  - rewrite run_app in R. destruct (run step cinit ls) as [s0|] eqn:R0; [|discriminate]. simpl in R. destruct (step s0 l) as [s1|] eqn:E; [|discriminate].
    injection R as <-. destruct (evs_mono _ _ _ E) as [vs Q]. eapply PI_step; eauto.
    + eapply inv3_crash; eauto.
    + eapply HI_reach; eauto.
    + apply IH; auto. rewrite Q in Sp. eapply spaced_back; eauto.
Qed.

(** ** What the steps of others do to a thread *)
Lemma begin_facts : forall x y, EI x -> dp x = DNone -> dstep x = Some y ->
  locked x = false /\ clean y = true /\ dp y = DCleaner /\ mp y = mp x /\ (cp y = cp x \/ cp y = woken (cp x)) /\
  tp y = (match tp x with RWait => RCheck | RWaitU => RTest | z => z end) /\ next y = next x /\ (forall i, envs y i = envs x i \/ envs y i = swept (envs x i)).
Proof.
  intros x y H P S. unfold dstep in S. rewrite P in S. destruct (locked x) eqn:LK; [discriminate|].
  set (s1 := ev (ev (mkS (envs x) (next x) (cur x) (ccur x) true (cp x) (mp x) (tp x) DCleaner (hist x)) VClean) (VMgr TDestroyer)) in *.
  injection S as <-. assert (K : EI s1).
  { set (s0 := mkS (envs x) (next x) (cur x) (ccur x) true (cp x) (mp x) (tp x) DCleaner (hist x)) in *.
    assert (K0 : EI s0) by (eapply EI_same; [eassumption|repeat split; reflexivity|reflexivity]).
    assert (K1 : EI (ev s0 VClean)) by splain. splain. }
  destruct (sweep_facts TDestroyer (at_place s1 Normal) s1) as (_&X&E1&E2&Cp); auto using at_place_nodup.
  { intros e X. now apply at_place_spec. }
  fold (sweep TDestroyer s1) in X, E1, E2, Cp. destruct (wake_cleaner_frame (sweep TDestroyer s1)) as (Ye&_&Yc&Y). assert (Z := ext_trans _ _ _ X Y).
  destruct (wake_timer_frame (wake_cleaner (sweep TDestroyer s1))) as (C1&_&C3&_&_&C6&C7&C8&C9&C10).
  rewrite C3, C6, C7, C8, C9, C10, Yc, (x_cl _ _ Z), (x_tp _ _ Z), (x_mp _ _ Z), (x_dp _ _ Z), (x_n _ _ Z). repeat split; auto.
  - destruct Cp as [Cp|Cp]; rewrite Cp; [right|rewrite woken_woken; right]; reflexivity.
  - intros i. rewrite C1, Ye. destruct (in_dec Nat.eq_dec i (at_place s1 Normal)) as [I|I]; [right; now apply E1|left; now apply E2].
Qed.
Lemma later_facts : forall x y, dp x <> DNone -> dstep x = Some y -> clean y = clean x /\ mp y = mp x /\ cp y = cp x /\ tp y = tp x /\ next y = next x /\ envs y = envs x.
Proof.
  intros x y P S. unfold dstep in S. destruct (dp x); try congruence.
  - destruct (cp x) eqn:Q; try discriminate. injection S as <-. simpl. rewrite Q. auto 7.
  - destruct (mp x) eqn:Q; try discriminate. injection S as <-. simpl. rewrite Q. auto 7.
  - destruct (tp x) eqn:Q; try discriminate. injection S as <-. simpl. rewrite Q. auto 7.
Qed.

Lemma ph_others : forall x l y e, EI x -> sstep x l = Some y -> e < next x -> wrk (envs x e) = true -> who x l <> Some (TWorker e) ->
  ph (envs y e) = ph (envs x e) /\ e < next y /\ wrk (envs y e) = true.
Proof.
  intros x l y e H S L Wk W. destruct (o_wrk _ _ (e_ok _ H _ L) Wk) as [_ Ow].
  destruct l; simpl in S, W.
  - destruct (locked x || clean x || negb (maker t)); [discriminate|]. injection S as <-. simpl. rewrite upd_other by lia. auto.
  - destruct (cur x n); [destruct (ph (envs x n0)); try discriminate; injection S as <-; simpl; auto|]. destruct (locked x); [discriminate|]. injection S as <-. simpl.
    rewrite upd_other by lia. auto.
  - destruct (cur x n) as [i|] eqn:Cu; [|discriminate]. destruct (nos (envs x i)); [|discriminate]. injection S as <-. simpl. destruct (e_cu _ H _ _ Cu) as (_&_&F).
    rewrite upd_other by congruence. auto.
  - assert (Q : y = wake_timer x) by (destruct (tp x); congruence). subst. destruct (wake_timer_frame x) as (C1&_&C3&_). rewrite C1, C3. auto.
  - destruct (ph (envs x e0)); try discriminate. destruct (told (envs x e0) && negb (locked x) && (e0 <? next x)); [|discriminate]. injection S as <-.
    unfold expire. set (s1 := ev (with_env (with_env x e0 _) e0 _) (VExp e0)). destruct (wake_cleaner_frame s1) as (Q&_&_&X). simpl. rewrite Q, (x_n _ _ X).
    unfold s1. simpl. assert (e <> e0) by congruence. rewrite !upd_other by auto. auto.
  - destruct (ph (envs x e0)); try discriminate. injection S as <-. assert (e <> e0) by congruence. destruct (own (envs x e0)); simpl; rewrite upd_other by auto; auto.
  - unfold cstep in S. destruct (cp x) eqn:P; try discriminate; try (injection S as <-; simpl; auto; fail).
    + destruct (clean x); [|injection S as <-; simpl; auto]. destruct (at_place x Normal); injection S as <-; simpl; auto. destruct (clear_facts x H P) as (_&X&A&B&_).
      rewrite (x_n _ _ X). split; [|split]; auto; (destruct (pl (envs x e)) eqn:Pl; [rewrite A by auto; unfold cleared; destruct (nos (envs x e)); auto|..];
        (rewrite B by (intuition congruence); auto)).
    + destruct (at_place x Expired); [|discriminate]. injection S as <-. simpl. auto.
    + injection S as <-. unfold guard_cleaner. destruct (ccur x); simpl; auto. rewrite upd_other by lia. auto.
  - unfold free in S. destruct (cp x); try discriminate. destruct (pl (envs x e0)); try discriminate.
    destruct ((e0 <? next x) && _); [|discriminate]. injection S as <-. simpl. destruct (Nat.eq_dec e e0) as [->|N]; [rewrite upd_same|rewrite upd_other by auto]; auto.
  - unfold mstep in S; destruct (mp x); try discriminate; try (destruct (locked x); [discriminate|]); injection S as <-; simpl; auto.
    destruct (reclaim_facts l x H) as (_&X&_&Q). rewrite (x_n _ _ X). destruct (Q e) as [Z|(_&_&_&Z)]; rewrite Z; auto. unfold swept. destruct (nos (envs x e)); auto.
  - unfold tstep in S; destruct (tp x); try discriminate; injection S as <-; simpl; auto.
  - destruct (tp x); try discriminate; injection S as <-; simpl; auto.
  - destruct (cp x); try discriminate; injection S as <-; simpl; auto.
  - destruct (tp x); try discriminate; injection S as <-; simpl; auto.
  - assert (D : dp x = DNone \/ dp x <> DNone) by (destruct (dp x); auto; right; discriminate). destruct D as [D|D].
    + destruct (begin_facts x y H D S) as (_&_&_&_&_&_&N&Z). rewrite N. destruct (Z e) as [Z1|Z1]; rewrite Z1; auto. unfold swept. destruct (nos (envs x e)); auto.
    + destruct (later_facts x y D S) as (_&_&_&_&N&Z). rewrite N, Z. auto.
Qed.
(** The background threads. *)
Definition back (t : thr) : bool := match t with TCleaner | TMonitor | TTimer => true | _ => false end.
Definition bound (t : thr) : bool := match t with TWorker _ => true | _ => back t end.
Lemma alive_others : forall x l y t, EI x -> CI x -> sstep x l = Some y -> bound t = true -> who x l <> Some t -> alive x t = true -> alive y t = true.
Proof.
  intros x l y t H C S B W A. 
  assert (K : (t = TCleaner -> cp y = cp x \/ cp y = woken (cp x)) /\ (t = TMonitor -> mp y = mp x) /\
    (t = TTimer -> tp y = tp x \/ tp y = match tp x with RWait => RCheck | RWaitU => RTest | z => z end)).
  { destruct l; simpl in S, W.
    - destruct (locked x || clean x || negb (maker t0)); [discriminate|]. injection S as <-. simpl. auto.
    - destruct (cur x n); [destruct (ph (envs x n0)); try discriminate; injection S as <-; simpl; auto|]. destruct (locked x); [discriminate|]. injection S as <-. simpl. auto.
    - destruct (cur x n); [|discriminate]. destruct (nos (envs x n0)); [|discriminate]. injection S as <-. simpl. auto.
    - assert (Q : y = wake_timer x) by (destruct (tp x); congruence). subst. destruct (wake_timer_frame x) as (_&_&_&_&_&_&C7&C8&_&C10). auto.
    - destruct (ph (envs x e)); try discriminate. destruct (told (envs x e) && negb (locked x) && (e <? next x)); [|discriminate]. injection S as <-.
      unfold expire. set (s1 := ev (with_env (with_env x e _) e _) (VExp e)). destruct (wake_cleaner_frame s1) as (_&_&Q&X). simpl. rewrite Q, (x_mp _ _ X), (x_tp _ _ X). auto.
    - destruct (ph (envs x e)); try discriminate. injection S as <-. destruct (own (envs x e)); simpl; auto.
    - split; [intros ->; congruence|]. unfold cstep in S. destruct (cp x) eqn:P; try discriminate; try (injection S as <-; simpl; auto; fail).
      + destruct (clean x); [|injection S as <-; simpl; auto]. destruct (at_place x Normal); injection S as <-; simpl; auto. destruct (clear_facts x H P) as (_&X&_). rewrite (x_mp _ _ X), (x_tp _ _ X). auto.
      + destruct (at_place x Expired); [|discriminate]. injection S as <-. simpl. auto.
      + injection S as <-. unfold guard_cleaner. destruct (ccur x); simpl; auto.
    - split; [intros ->; congruence|]. unfold free in S. destruct (cp x); try discriminate. destruct (pl (envs x e)); try discriminate.
      destruct ((e <? next x) && _); [|discriminate]. injection S as <-. simpl. auto.
    - split; [|split; [intros ->; congruence|]]; unfold mstep in S; destruct (mp x); try discriminate; try (destruct (locked x); [discriminate|]); injection S as <-; simpl; auto;
        destruct (reclaim_facts l x H) as (_&X&Q&_); rewrite ?(x_mp _ _ X), ?(x_tp _ _ X); auto.
    - split; [|split; [|intros ->; congruence]]; unfold tstep in S; destruct (tp x); try discriminate; injection S as <-; simpl; auto.
    - split; [|split; [|intros ->; congruence]]; destruct (tp x); try discriminate; injection S as <-; simpl; auto.
    - split; [intros ->; congruence|]. destruct (cp x); try discriminate; injection S as <-; simpl; auto.
    - split; [|split; [|intros ->; congruence]]; destruct (tp x); try discriminate; injection S as <-; simpl; auto.
    - assert (D : dp x = DNone \/ dp x <> DNone) by (destruct (dp x); auto; right; discriminate). destruct D as [D|D].
      + destruct (begin_facts x y H D S) as (_&_&_&Q1&Q2&Q3&_). auto.
      + destruct (later_facts x y D S) as (_&Q1&Q2&Q3&_). auto. }
  destruct K as (K1&K2&K3). destruct t; simpl in B; try discriminate; simpl in A |- *.
  - destruct (K1 eq_refl) as [Q|Q]; rewrite Q; destruct (cp x); simpl; auto.
  - rewrite (K2 eq_refl). auto.
  - destruct (K3 eq_refl) as [Q|Q]; rewrite Q; destruct (tp x); simpl; auto.
  - apply andb_true_iff in A as [A A3]. apply andb_true_iff in A as [A1 A2]. apply Nat.ltb_lt in A1. destruct (ph_others x l y e) as (D&E&F); auto.
    apply Nat.ltb_lt in E. rewrite D, E, F, A3. reflexivity.
Qed.

(** A background thread in a handler has not ended. *)
Record BI (s : cst) : Prop := {
  b_al : forall t, bound t = true -> hp s t <> [] -> alive (sh s) t = true;
  b_end : forall c, fate s = Some (Ended c) -> dp (sh s) = DRet \/ 2 <= length (signals (evs s)) }.
Lemma BI_step : forall s l s', inv3 (sh s) -> HI s -> BI s -> step s l = Some s' -> BI s'.
Proof.
  intros s l s' (H&C&_) HH [I1 I2] E. unfold step in E. destruct (fate s) eqn:N; [discriminate|]. destruct l as [l|t n|t].
  - assert (X : option_map (setsh s) (sstep (sh s) l) = Some s' /\ (forall t, who (sh s) l = Some t -> hp s t = [])).
    { destruct (who (sh s) l) as [w|]; [|split; auto; discriminate].
      assert (Y : match hp s w with [] => option_map (setsh s) (sstep (sh s) l) | _ => None end = Some s') by (destruct w; auto; discriminate).
      destruct (hp s w) eqn:P; [|discriminate]. split; auto. intros t [=<-]. exact P. }
    destruct X as [X W]. destruct (sstep (sh s) l) as [y|] eqn:S; [|discriminate]. injection X as <-. constructor; simpl; [|congruence].
    intros t B P. eapply alive_others; eauto.
  - destruct (alive (sh s) t && unmasked (hp s t) n) eqn:G; [|discriminate]. injection E as <-. apply andb_true_iff in G as [G _]. constructor; simpl; [|congruence].
    intros u B P. destruct (thr_eq u t) as [->|]; auto.
  - destruct (hp s t) as [|h r] eqn:P; [discriminate|].
    assert (F : forall h' f v, BI (mkC (sh s) f (fun u => if thr_eq u t then h' :: r else hp s u) (fate s) v)).
    { intros. constructor; simpl; [|congruence]. intros u B X. apply I1; auto. destruct (thr_eq u t) as [->|]; auto. rewrite P. discriminate. }
    destruct h as [m|m|m|m k|m]; cbn [hstep] in E.
    + injection E as <-. apply F.
    + destruct (flag s) eqn:Fl; injection E as <-; [|apply F]. constructor; simpl; auto. intros c _. right.
      destruct (h_rep _ HH Fl) as (u&x&A&B). apply (two_handlers s t u (HTest m) x); auto; [rewrite P; now left|]. left. intros <-. now apply B.
    + injection E as <-. apply F.
    + destruct (k <? 4); [injection E as <-; apply F|]. destruct (k =? 4).
      { destruct (info_free (sh s) t); [|discriminate]. injection E as <-. apply F. }
      destruct (dp (sh s)) eqn:D; try (injection E as <-; constructor; simpl; auto; discriminate).
      destruct (dstep (sh s)) as [y|] eqn:DS; [|discriminate]. injection E as <-. constructor; simpl; [|congruence].
      intros u B X. apply (alive_others (sh s) LD y u); auto; [simpl; intros [=<-]; discriminate|]. apply I1; auto. destruct (thr_eq u t) as [->|]; auto. rewrite P. discriminate.
    + assert (Y : forall y, dstep (sh s) = Some y -> BI (setsh s y)).
      { intros y DS. constructor; simpl; [|congruence]. intros u B X. apply (alive_others (sh s) LD y u); auto. simpl. intros [=<-]. discriminate. }
      destruct (dp (sh s)) eqn:D; try (destruct (dstep (sh s)) as [y|]; [|discriminate]; injection E as <-; auto).
      injection E as <-. constructor; simpl; auto.
Qed.
Lemma BI_reach : forall ls s, run step cinit ls = Some s -> BI s.
Proof.
  intros ls s R. enough (X : inv3 (sh s) /\ HI s /\ BI s) by tauto. eapply (run_inv step (fun s => inv3 (sh s) /\ HI s /\ BI s)); [| |exact R].
  - split; [apply (inv3_reach []); reflexivity|]. split; [apply HI_init|]. constructor; simpl; congruence.
  - intros a l b (I&J&K) S. split; [eapply inv3_below; eauto; eapply step_below; eauto|]. split; [eapply HI_step; eauto|eapply BI_step; eauto].
Qed.
Lemma back_bound : forall t, back t = true -> bound t = true.
Proof. intros []; simpl; auto. Qed.
Lemma back_hangs : forall ls s t n, run step cinit ls = Some s -> signals (evs s) = [(t, n)] -> back t = true -> fate s = None.
Proof.
  intros ls s t n R Sg B. pose proof (inv3_crash _ _ R) as (_&C&_). pose proof (HI_reach _ _ R) as I. destruct (BI_reach _ _ R) as [A E].
  destruct (fate s) as [[c|]|] eqn:F; auto; exfalso.
  - destruct (E c eq_refl) as [D|D]; [|rewrite Sg in D; simpl in D; lia].
    assert (X : hp s t <> []).
    { intros X. pose proof (h_sig _ I t) as Y. rewrite X in Y. unfold sigs_of in Y. rewrite Sg in Y. simpl in Y. destruct (thr_eq t t); [discriminate|congruence]. }
    specialize (A t (back_bound t B) X). destruct t; simpl in B; try discriminate; simpl in A.
    + rewrite (c_d1 _ C) in A; auto; discriminate.
    + rewrite (c_d2 _ C) in A; auto; discriminate.
    + rewrite (c_d3 _ C) in A; auto; discriminate.
  - pose proof (h_fate _ I) as X. rewrite F, Sg in X. simpl in X. lia.
Qed.

(** ** The program can end when the signal came to a thread of the client, or to one of an environment that does not finish *)

(** Threads whose standstill keeps nobody waiting. *)
Definition idle (x : sst) (t : thr) : Prop :=
  match t with TUser _ => True | TWorker e => e < next x /\ wrk (envs x e) = true /\ ph (envs x e) <> PPub | _ => False end.
Lemma idle_step : forall x l y t, EI x -> idle x t -> sstep x l = Some y -> who x l <> Some t -> idle y t.
Proof.
  intros x l y [] H I S W; simpl in *; try tauto. destruct I as (A&B&C). destruct (ph_others x l y e) as (D&E&F); auto. rewrite D. auto.
Qed.
(** One handler, on thread t. *)
Definition solo (s : cst) (t : thr) (h : hpc) : Prop := fate s = None /\ hp s t = [h] /\ forall u, u <> t -> hp s u = [].
(** No step of the client and no signal. *)
Definition inner (l : clbl) : bool := match l with CS l => serves l && match l with LSpurC | LSpurT => false | _ => true end | CSig _ _ => false | CH _ => true end.
Definition leads (s s' : cst) : Prop := exists ls, Forall (fun l => inner l = true) ls /\ run step s ls = Some s'.
Lemma leads_refl : forall s, leads s s. Proof. intros s. exists []. auto. Qed.
Lemma leads_step : forall s l s1 s2, inner l = true -> step s l = Some s1 -> leads s1 s2 -> leads s s2.
Proof. intros s l s1 s2 I S (ls&A&B). exists (l :: ls). split; auto. simpl. now rewrite S. Qed.
Lemma leads_trans : forall a b c, leads a b -> leads b c -> leads a c.
Proof. intros a b c (l1&A1&B1) (l2&A2&B2). exists (l1 ++ l2). split; [now apply Forall_app|]. now rewrite run_app, B1. Qed.

Lemma solo_cs : forall s t h l w y, solo s t h -> who (sh s) l = Some w -> w <> t -> w <> TDestroyer -> sstep (sh s) l = Some y ->
  step s (CS l) = Some (setsh s y) /\ solo (setsh s y) t h.
Proof.
  intros s t h l w y (F&A&B) W N D S. unfold step. rewrite F, W, (B w N), S. split; [destruct w; auto; congruence|]. split; [|split]; auto.
Qed.

(** The locks that the report needs. *)
Definition easy (t : tpc) : bool := match t with RTest | RWait | RWaitU | REnd => true | _ => false end.
Lemma timer_easy : forall s t h, solo s t h -> t <> TTimer -> clean (sh s) = false ->
  exists x, leads s (setsh s x) /\ easy (tp x) = true /\ envs x = envs (sh s) /\ next x = next (sh s) /\ cp x = cp (sh s) /\ clean x = false /\ dp x = dp (sh s) /\ ccur x = ccur (sh s).
Proof.
  assert (One : forall s t h b y, solo s t h -> t <> TTimer -> tstep (sh s) b = Some y -> leads s (setsh s y) /\ solo (setsh s y) t h).
  { intros s t h b y O N S. destruct (solo_cs s t h (LT b) TTimer y) as [A B]; auto; [discriminate|]. split; auto.
    eapply leads_step; [|exact A|apply leads_refl]. reflexivity. }
  assert (G : forall k s t h, (match tp (sh s) with RTest | RWait | RWaitU | REnd => 0 | RPark | RParkU => 1 | REmpty | RFront => 2 | RCheck => 3 end) <= k ->
    solo s t h -> t <> TTimer -> clean (sh s) = false ->
    exists x, leads s (setsh s x) /\ easy (tp x) = true /\ envs x = envs (sh s) /\ next x = next (sh s) /\ cp x = cp (sh s) /\ clean x = false /\ dp x = dp (sh s) /\ ccur x = ccur (sh s)).
  { induction k as [|k IH]; intros s t h K O N Cl.
    - exists (sh s). split; [destruct s; apply leads_refl|]. split; [destruct (tp (sh s)); auto; simpl in K; lia|auto 8].
    - destruct (easy (tp (sh s))) eqn:Ez.
      { exists (sh s). split; [destruct s; apply leads_refl|]. auto 8. }
      assert (T : exists y, tstep (sh s) true = Some y \/ tstep (sh s) false = Some y) by (unfold tstep; destruct (tp (sh s)); simpl in Ez; try discriminate; eauto).
      assert (Nx : exists b z, tstep (sh s) b = Some (with_tp (sh s) z) /\
        (match z with RTest | RWait | RWaitU | REnd => 0 | RPark | RParkU => 1 | REmpty | RFront => 2 | RCheck => 3 end) <= k).
      { unfold tstep. rewrite Cl. destruct (tp (sh s)); simpl in Ez, K; try discriminate; exists true; eexists; (split; [reflexivity|]); simpl; lia. }
      destruct Nx as (b&z&S&Kz). destruct (One s t h b _ O N S) as [L O'].
      destruct (IH (setsh s (with_tp (sh s) z)) t h) as (x&A&B&C); auto. exists x. split; [eapply leads_trans; eauto|]. auto. }
  intros s t h O N Cl. eapply G; eauto.
Qed.
Definition cw (x : sst) : nat :=
  sumn (fun e => match pl (envs x e) with Expired => 3 | _ => 0 end + match ph (envs x e) with PPub => 1 | _ => 0 end) (next x) +
  match cp x with CLoop => 1 | CIdle => 2 | _ => 0 end.
Lemma cleaner_easy : forall k s t h, cw (sh s) <= k -> solo s t h -> inv3 (sh s) -> idle (sh s) t -> clean (sh s) = false ->
  exists x, leads s (setsh s x) /\ locked x = false /\ idle x t /\ clean x = false /\ dp x = dp (sh s) /\ inv3 x.
Proof.
  induction k as [k IH] using (well_founded_induction lt_wf). intros s t h K O I Id Cl. destruct (locked (sh s)) eqn:LK.
  2:{ exists (sh s). split; [destruct s; apply leads_refl|]. auto 8. }
  assert (Nc : TCleaner <> t) by (destruct t; simpl in Id; try tauto; discriminate).
  destruct (cp (sh s)) eqn:P; unfold locked in LK; rewrite P in LK; try discriminate.
  - (* to the wait *)
    set (y := ev (with_cp (sh s) CWait) (VMgr TCleaner)). assert (S : sstep (sh s) LC = Some y) by (simpl; unfold cstep; rewrite P, Cl; reflexivity).
    destruct (solo_cs s t h LC TCleaner y) as [A B]; auto; [discriminate|]. exists y. split; [eapply leads_step; [|exact A|apply leads_refl]; reflexivity|].
    split; [reflexivity|]. split; [eapply idle_step; eauto; [apply I|simpl; congruence]|]. split; [exact Cl|]. split; [reflexivity|]. eapply inv3_step; eauto.
  - destruct (at_place (sh s) Expired) as [|e l] eqn:AE.
    + set (y := ev (with_cp (sh s) CTest) (VMgr TCleaner)). assert (S : sstep (sh s) LC = Some y) by (simpl; unfold cstep; rewrite P, AE; reflexivity).
      destruct (solo_cs s t h LC TCleaner y) as [A B]; auto; [discriminate|].
      assert (J : inv3 y) by (eapply inv3_step; eauto). assert (Iy : idle y t) by (eapply idle_step; eauto; [apply I|simpl; congruence]).
      destruct (IH (cw y)) with (s := setsh s y) (t := t) (h := h) as (x&X1&X2&X3&X4&X5&X6); auto.
      * unfold y, cw in *. simpl. rewrite P in K. lia.
      * exists x. split; [eapply leads_step; [|exact A|exact X1]; reflexivity|]. auto.
    + assert (Ie : e < next (sh s) /\ pl (envs (sh s) e) = Expired) by (apply at_place_spec; rewrite AE; now left). destruct Ie as [L E].
      assert (Fr : wrk (envs (sh s) e) = false \/ ph (envs (sh s) e) = PGone -> exists y, sstep (sh s) (LFree e) = Some y /\ cw y < cw (sh s) /\ clean y = false /\ dp y = dp (sh s)).
      { intros G. simpl. unfold free. rewrite P, E. apply Nat.ltb_lt in L. rewrite L.
        assert (Gb : negb (wrk (envs (sh s) e)) || match ph (envs (sh s) e) with PGone => true | _ => false end = true) by (destruct G as [G|G]; rewrite G; auto using orb_true_r).
        rewrite Gb. simpl. eexists. split; [reflexivity|]. split; [|split; auto]. unfold cw. simpl. rewrite P. apply Nat.ltb_lt in L.
        match goal with |- sumn ?g _ + _ < sumn ?f _ + _ => assert (Sm : sumn g (next (sh s)) + 3 <= sumn f (next (sh s))) end; [|lia].
        apply sumn_drop with e; auto.
        - intros i Li. destruct (Nat.eq_dec i e) as [->|N]; [|rewrite upd_other by auto; auto]. rewrite upd_same, E. simpl. lia.
        - rewrite upd_same, E. simpl. lia. }
      assert (Q : exists l w y, inner (CS l) = true /\ who (sh s) l = Some w /\ w <> t /\ w <> TDestroyer /\ sstep (sh s) l = Some y /\ cw y < cw (sh s) /\ clean y = false /\ dp y = dp (sh s)).
      { destruct I as (H&_). destruct (wrk (envs (sh s) e)) eqn:Wk.
        - destruct (o_exp _ _ (e_ok _ H _ L) Wk E) as [F|F].
          + destruct (o_wrk _ _ (e_ok _ H _ L) Wk) as [_ Ow]. exists (LPub e), (TWorker e). eexists. split; [reflexivity|]. split; [simpl; now rewrite Ow|].
            split; [|split; [discriminate|]]. { intros <-. simpl in Id. tauto. }
            split; [simpl; rewrite F, Ow; reflexivity|]. split; [|split; auto]. unfold cw. simpl.
            match goal with |- sumn ?g _ + _ < sumn ?f _ + _ => assert (Sm : sumn g (next (sh s)) + 1 <= sumn f (next (sh s))) end; [|lia].
            apply sumn_drop with e; auto.
            * intros i Li. destruct (Nat.eq_dec i e) as [->|N]; [|rewrite upd_other by auto; auto]. rewrite upd_same. simpl. lia.
            * rewrite upd_same, F. simpl. lia.
          + destruct Fr as (y&Y1&Y2&Y3); auto. exists (LFree e), TCleaner, y. repeat split; auto; try discriminate; tauto.
        - destruct Fr as (y&Y1&Y2&Y3); auto. exists (LFree e), TCleaner, y. repeat split; auto; try discriminate; tauto. }
      destruct Q as (l'&w&y&Q1&Q2&Q3&Q4&Q5&Q6&Q7&Q8). destruct (solo_cs s t h l' w y) as [A B]; auto.
      assert (J : inv3 y) by (eapply inv3_step; eauto). assert (Iy : idle y t) by (eapply idle_step; eauto; [apply I|congruence]).
      destruct (IH (cw y)) with (s := setsh s y) (t := t) (h := h) as (x&X1&X2&X3&X4&X5&X6); auto.
      * lia.
      * exists x. split; [eapply leads_step; [exact Q1|exact A|exact X1]|]. split; auto. split; auto. split; auto. split; auto. simpl in X5. congruence.
  - assert (Y : exists y, sstep (sh s) LC = Some y /\ cw y < cw (sh s) /\ clean y = false /\ dp y = dp (sh s)).
    { simpl. unfold cstep. rewrite P. eexists. split; [reflexivity|]. unfold guard_cleaner, cw. rewrite P. destruct (ccur (sh s)); simpl; (split; [|auto]); [lia|].
      rewrite upd_same. simpl.
      match goal with |- sumn ?g _ + _ < sumn ?f _ + _ => rewrite (sumn_ext f g) by (intros i Li; rewrite upd_other by lia; reflexivity) end. lia. }
    destruct Y as (y&S&Y1&Y2&Y3). destruct (solo_cs s t h LC TCleaner y) as [A B]; auto; [discriminate|].
    assert (J : inv3 y) by (eapply inv3_step; eauto). assert (Iy : idle y t) by (eapply idle_step; eauto; [apply I|simpl; congruence]).
    destruct (IH (cw y)) with (s := setsh s y) (t := t) (h := h) as (x&X1&X2&X3&X4&X5&X6); auto.
    + lia.
    + exists x. split; [eapply leads_step; [|exact A|exact X1]; reflexivity|]. split; auto. split; auto. split; auto. split; auto. simpl in X5. congruence.
Qed.
Lemma both_easy : forall s t h, solo s t h -> inv3 (sh s) -> idle (sh s) t -> clean (sh s) = false ->
  exists x, leads s (setsh s x) /\ locked x = false /\ easy (tp x) = true /\ idle x t /\ clean x = false /\ dp x = dp (sh s) /\ inv3 x.
Proof.
  intros s t h O I Id Cl. destruct (cleaner_easy (cw (sh s)) s t h) as (x&X1&X2&X3&X4&X5&X6); auto.
  assert (O' : solo (setsh s x) t h) by (destruct O as (A&B&C); split; [|split]; auto).
  assert (Nt : t <> TTimer) by (intros ->; exact Id).
  destruct (timer_easy (setsh s x) t h) as (y&Y1&Y2&Y3&Y4&Y5&Y6&Y7&_); auto. exists y. simpl in *.
  split; [eapply leads_trans; eauto|]. split; [unfold locked in *; now rewrite Y5|]. split; auto.
  split; [unfold idle in *; destruct t; auto; rewrite Y3, Y4; auto|]. split; auto. split; [congruence|].
  destruct Y1 as (ls&_&R). change y with (sh (setsh (setsh s x) y)). eapply (run_inv step (fun s => inv3 (sh s))); [|  |exact R]; auto.
  intros a l b J S. eapply inv3_below; eauto. eapply step_below; eauto.
Qed.

(** exit, once begun outside the window, reaches its end. *)
Lemma exit_ends : forall k s t n, meas (sh s) <= k -> solo s t (HDtor n) -> inv3 (sh s) -> idle (sh s) t -> clean (sh s) = true -> window (tp (sh s)) = false ->
  exists s', leads s s' /\ fate s' = Some (Ended (128 - n)) /\ forall u, printed u (evs s') = printed u (evs s).
Proof.
  induction k as [k IH] using (well_founded_induction lt_wf). intros s t n K O I Id Cl W. pose proof I as (H&C&_).
  assert (D : dp (sh s) = DRet \/ dp (sh s) <> DRet) by (destruct (dp (sh s)); auto; right; discriminate). destruct D as [D|D].
  - exists (finish s (128 - n)). destruct O as (F&A&_). split; [|split; auto]. apply leads_step with (CH t) (finish s (128 - n)); [reflexivity| |apply leads_refl].
    unfold step. rewrite F, A. simpl. now rewrite D.
  - destruct (serve_can_who (sh s) H C Cl W D) as (l&y&Sv&S&G). destruct (serve_step (sh s) l y H C Cl W Sv S) as (Y1&Y2&Y3).
    assert (Go : forall l', inner l' = true -> step s l' = Some (setsh s y) -> idle y t -> exists s', leads s s' /\ fate s' = Some (Ended (128 - n)) /\ forall u, printed u (evs s') = printed u (evs s)).
    { intros l' Il Sl Iy. destruct (IH (meas y)) with (s := setsh s y) (t := t) (n := n) as (s'&A1&A2&A3); auto.
      - lia.
      - eapply inv3_step; eauto.
      - exists s'. split; [eapply leads_step; eauto|]. auto. }
    assert (Dec : l = LD \/ exists w, who (sh s) l = Some w /\ w <> t /\ w <> TDestroyer).
    { destruct l; try discriminate; simpl; auto; try (destruct G).
      - right. destruct (lt_dec e (next (sh s))) as [L|L]; [|rewrite (e_out _ H e) in H1 by lia; discriminate].
        destruct (o_wrk _ _ (e_ok _ H _ L) H0) as [_ Ow]. rewrite Ow. exists (TWorker e). split; auto. split; [|discriminate]. intros <-. simpl in Id. tauto.
      - right. exists TCleaner. split; auto. split; [intros <-; exact Id|discriminate].
      - right. exists TCleaner. split; auto. split; [intros <-; exact Id|discriminate].
      - right. exists TMonitor. split; auto. split; [intros <-; exact Id|discriminate].
      - right. exists TTimer. split; auto. split; [intros <-; exact Id|discriminate].
      - right. exists TTimer. split; auto. split; [intros <-; exact Id|discriminate]. }
    destruct Dec as [->|(w&W1&W2&W3)].
    + apply (Go (CH t)); [reflexivity| |].
      * destruct O as (F&A&_). unfold step. rewrite F, A. cbn [hstep]. simpl in S. destruct (dp (sh s)); try congruence; rewrite S; reflexivity.
      * eapply idle_step; eauto. simpl. intros E. injection E as <-. exact Id.
    + destruct (solo_cs s t (HDtor n) l w y O W1 W2 W3 S) as [A _]. apply (Go (CS l)); auto.
      * destruct l; try discriminate; auto; destruct G.
      * eapply idle_step; eauto. congruence.
Qed.

(** Up to the last section nothing is needed but the thread itself. *)
Definition wt (h : hpc) : nat := match h with HLine _ => 7 | HTest _ => 6 | HSet _ => 5 | HRep _ k => 4 - k | HDtor _ => 0 end.
Lemma solo_set : forall s t h h' f v, solo s t h -> solo (mkC (sh s) f (fun u => if thr_eq u t then [h'] else hp s u) (fate s) v) t h'.
Proof.
  intros s t h h' f v (F&A&B). split; [auto|]. split; simpl; [destruct (thr_eq t t); congruence|]. intros u N. destruct (thr_eq u t); [congruence|auto].
Qed.
Lemma early_one : forall s t h, solo s t h -> HI s -> 0 < wt h ->
  exists s' h', step s (CH t) = Some s' /\ solo s' t h' /\ wt h' < wt h /\ sig_of h' = sig_of h /\ sh s' = sh s.
Proof.
  intros s t h O I K. assert (St : step s (CH t) = hstep s t h []) by (destruct O as (F&A&_); unfold step; now rewrite F, A). rewrite St.
  destruct h as [n|n|n|n k|n]; cbn [hstep]; cbn [wt] in K.
  - eexists; exists (HTest n); split; [reflexivity|]; split; [exact (solo_set s t _ _ _ _ O)|auto].
  - destruct (flag s) eqn:F.
    { destruct (h_rep _ I F) as (u&x&A&B). destruct O as (_&O1&O2). destruct (thr_eq u t) as [->|N]; [|rewrite O2 in A by auto; destruct A].
      rewrite O1 in A. destruct A as [<-|[]]. now destruct B. }
    eexists; exists (HSet n); split; [reflexivity|]; split; [exact (solo_set s t _ _ _ _ O)|auto].
  - eexists; exists (HRep n 0); split; [reflexivity|]; split; [exact (solo_set s t _ _ _ _ O)|]. simpl. auto.
  - assert (Q : k <? 4 = true) by (apply Nat.ltb_lt; lia). rewrite Q.
    eexists; exists (HRep n (S k)); split; [reflexivity|]; split; [exact (solo_set s t _ _ _ _ O)|]. split; [cbn [wt]; lia|auto].
  - lia.
Qed.
Lemma early_part : forall k s t h, wt h <= k -> solo s t h -> inv3 (sh s) -> HI s ->
  exists s' h', leads s s' /\ solo s' t h' /\ wt h' = 0 /\ sig_of h' = sig_of h /\ sh s' = sh s /\ HI s'.
Proof.
  induction k as [|k IH]; intros s t h K O I J.
  - exists s, h. split; [apply leads_refl|]. split; auto. split; [lia|auto].
  - destruct (le_lt_dec (wt h) 0) as [Z|Z].
    { exists s, h. split; [apply leads_refl|]. split; auto. split; [lia|auto]. }
    destruct (early_one s t h O J Z) as (s1&h1&S&O1&W&Sg&Sh). destruct (IH s1 t h1) as (s2&h2&A&B&C&D&E&F); auto; [lia|congruence|eapply HI_step; eauto|].
    exists s2, h2. split; [eapply leads_step; [|exact S|exact A]; reflexivity|]. split; auto. split; auto. split; [congruence|]. split; [congruence|auto].
Qed.
(** The whole way. *)
Lemma can_end : forall s t h, solo s t h -> inv3 (sh s) -> HI s -> idle (sh s) t -> (clean (sh s) = true -> window (tp (sh s)) = false) ->
  exists s', leads s s' /\ fate s' = Some (Ended (128 - sig_of h)).
Proof.
  intros s t h O I J Id Cw. destruct (early_part (wt h) s t h) as (s1&h1&L1&O1&W1&Sg&E1&J1); auto. rewrite <- E1 in I, Id, Cw. rewrite <- Sg.
  assert (D : (exists n, h1 = HDtor n) \/ exists n k, h1 = HRep n k /\ 4 <= k <= 5).
  { destruct h1 as [n|n|n|n k|n]; cbn [wt] in W1; try lia; eauto. right. exists n, k. split; auto.
    pose proof (h_shape _ J1 t) as Sp. destruct O1 as (_&A&_). rewrite A in Sp. destruct (head_main _ _ k Sp eq_refl) as (_&B&_). lia. }
  destruct D as [[n ->]|(n&k&->&K)].
  - assert (Cl : clean (sh s1) = true).
    { apply (c_cl _ (proj1 (proj2 I))). apply (proj1 (proj2 (h_dp _ J1)) t n). destruct O1 as (_&A&_). rewrite A. now left. }
    destruct (exit_ends (meas (sh s1)) s1 t n) as (s2&L2&F2&_); auto. exists s2. split; [eapply leads_trans; eauto|auto].
  - assert (Dn : dp (sh s1) = DNone).
    { destruct (dp (sh s1)) eqn:D; auto; (destruct (proj2 (proj2 (h_dp _ J1))) as (u&m&X); [rewrite D; discriminate|]; destruct O1 as (_&A&B);
        (destruct (thr_eq u t) as [->|N]; [rewrite A in X; destruct X as [X|[]]; discriminate|rewrite B in X by auto; destruct X])). }
    assert (Cl : clean (sh s1) = false) by (destruct (clean (sh s1)) eqn:C; auto; apply (c_cl _ (proj1 (proj2 I))) in C; congruence).
    destruct (both_easy s1 t (HRep n k)) as (x&L2&Lk&Ez&Ix&Cx&Dx&I3); auto.
    assert (O2 : solo (setsh s1 x) t (HRep n k)) by (destruct O1 as (A&B&C); split; [|split]; auto).
    assert (Five : exists s3, leads (setsh s1 x) s3 /\ solo s3 t (HRep n 5) /\ sh s3 = x).
    { assert (Kd : k = 4 \/ k = 5) by lia. destruct Kd as [-> | ->]; [|exists (setsh s1 x); split; [apply leads_refl|auto]].
      exists (cev1 (sethp (setsh s1 x) t [HRep n 5]) (WSec t 4)). split; [|split; auto; exact (solo_set (setsh s1 x) t _ _ _ _ O2)].
      eapply leads_step; [|..|apply leads_refl]; [instantiate (1 := CH t); reflexivity|]. destruct O2 as (F&A&_). unfold step. rewrite F, A. cbn [hstep Nat.ltb Nat.leb Nat.eqb].
      assert (Q : info_free (sh (setsh s1 x)) t = true) by (simpl; unfold info_free; rewrite Lk; simpl; destruct (tp x); simpl in Ez; auto; discriminate).
      now rewrite Q. }
    destruct Five as (s3&L3&O3&E3). rewrite Dn in Dx.
    assert (DS : exists y, dstep x = Some y) by (unfold dstep; rewrite Dx, Lk; eauto). destruct DS as [y DS].
    assert (Pk : parked (tp x) = false) by (destruct (tp x); simpl in Ez; auto; discriminate).
    destruct (begin_step x y (proj1 I3) (proj1 (proj2 I3)) Dx Pk DS) as [Y1 Y2].
    set (s4 := cev1 (sethp (setsh s3 y) t [HDtor n]) (WExit t)).
    assert (S4 : step s3 (CH t) = Some s4).
    { destruct O3 as (F&A&_). unfold step. rewrite F, A. cbn [hstep Nat.ltb Nat.leb Nat.eqb]. rewrite E3, Dx, DS. reflexivity. }
    destruct (exit_ends (meas y) s4 t n) as (s5&L5&F5&_); auto.
    + change s4 with (mkC (sh (setsh s3 y)) (flag s3) (fun u => if thr_eq u t then [HDtor n] else hp s3 u) (fate s3) (WExit t :: evs s3)).
      apply solo_set with (h := HRep n 5) (s := setsh s3 y). destruct O3 as (A&B&C); split; [|split]; auto.
    + change (sh s4) with y. apply inv3_step with x LD; auto.
    + change (sh s4) with y. apply idle_step with x LD; auto; [apply I3|]. simpl. intros E. injection E as <-. exact Ix.
    + exists s5. split; [|auto]. eapply leads_trans; [exact L1|]. eapply leads_trans; [exact L2|]. eapply leads_trans; [exact L3|]. eapply leads_step; [|exact S4|exact L5]. reflexivity.
Qed.
