(** Round robin within a priority. *)
From Coq Require Import List Arith Bool ZArith Lia.
From Verif Require Import Base SchedSpec SchedModel SchedProofs SchedHist SchedPick.
Import ListNotations.

(** x stands before y in l. *)
Definition before (x y : nat) (l : list nat) : Prop := exists l1 l2, l = l1 ++ x :: l2 /\ In y l2.

Lemma before_snoc : forall x y z l, before x y l -> before x y (l ++ [z]).
Proof. intros x y z l (l1&l2&->&I). exists l1, (l2 ++ [z]). rewrite <- app_assoc. split; auto. rewrite in_app_iff. auto. Qed.
Lemma before_last : forall x y l, In x l -> before x y (l ++ [y]).
Proof.
  intros x y l I. apply in_split in I as (l1&l2&->). exists l1, (l2 ++ [y]). rewrite <- app_assoc. split; auto.
  rewrite in_app_iff. simpl. auto.
Qed.
Lemma before_rm : forall x y z l, before x y l -> z <> x -> z <> y -> before x y (rm z l).
Proof.
  intros x y z l (l1&l2&->&I) A B. exists (rm z l1), (rm z l2). split.
  - unfold rm. rewrite filter_app. simpl. destruct (Nat.eqb_spec z x); [congruence|]. reflexivity.
  - apply in_rm. auto.
Qed.

Lemma overdue_runnable : forall c d H, overdue c d H -> runnable d H.
Proof. intros c d [|e r]; simpl; tauto. Qed.
Lemma overdue_step : forall c d e H, overdue c d (e :: H) -> overdue c d H \/ e = VPick (Some c).
Proof.
  intros c d e H O. simpl in O. destruct O as [_ O]. destruct e as [| | | | | | |[x|]| |]; auto; try tauto.
  destruct (Nat.eqb_spec x c) as [->|]; tauto.
Qed.

Section RR.
  Variables (cfg : nat -> Z * bool * bool * bool) (c d : nat).
  Hypothesis ne : c <> d.

  Record RInv (s : sst) : Prop := {
    r_ord : overdue c d (shi s) -> loc (cx s c) = Here -> pr (cx s c) = pr (cx s d) -> before d c (qs s (pr (cx s d)));
    r_scn : overdue c d (shi s) -> forall i r, scn s = Some (i, r) ->
      ~ (minp s <= pr (cx s d) < i) /\ (pr (cx s d) = i -> In d r)
  }.

  Lemma rinv_step : forall s l s', SInv s -> HInv cfg s -> RInv s -> sstep_ok s l = Some s' -> RInv s'.
  Proof.
    intros s l s' HI HH [R1 R2] E.
    pose proof (hinv_step _ _ _ _ HI HH E) as HH'. pose proof (sinv_step _ _ _ HI E) as HI'.
    (* d is runnable before and after *)
    assert (RB : overdue c d (shi s) -> loc (cx s d) = Here /\ can_schedule (cx s d) = true).
    { intros O. apply overdue_runnable in O. now apply (runnable_iff cfg) in O. }
    assert (RA : overdue c d (shi s') -> loc (cx s' d) = Here /\ can_schedule (cx s' d) = true).
    { intros O. apply overdue_runnable in O. now apply (runnable_iff cfg) in O. }
    destruct l.
    - (* SetEnv *)
      assert (X : (loc (cx s c0) = Away \/ loc (cx s c0) = Taken) /\
        s' = setag (setcx s c0 (set_loc (cx s c0) Coming)) k (ASet c0)).
      { unfold sstep_ok, sstep in E. dm E; injection E as <-; auto. }
      destruct X as (L&X). subst s'. cbn [cx qs minp cur count scn pnd ag shi setag setcx] in *. split; hs; intros O.
      + destruct (RB O) as [RB1 _]. cs; try discriminate; try (now apply R1); destruct L; congruence.
      + destruct (RB O) as [RB1 _]. cs; auto.
    - (* Push *)
      unfold sstep_ok, sstep in E. destruct (ag s k) as [|x| | |] eqn:A; try discriminate. destruct (unlocked s) eqn:U; [|discriminate].
      injection E as <-. pose proof (i_set _ HI _ _ A) as L. unfold unlocked in U. destruct (scn s) eqn:SC; [discriminate|].
      cbn [cx qs minp cur count scn pnd ag shi setag setcx setq log] in *.
      split; hs; intros O; [|rewrite SC; discriminate]. destruct (overdue_step _ _ _ _ O) as [O0|O0]; [|discriminate].
      destruct (RB O0) as [RB1 RB2]. assert (x <> d) by congruence. rewrite (@upd_other _ (cx s) _ _ d) by auto.
      destruct (Nat.eq_dec x c) as [->|].
      + rewrite upd_same. simpl. intros _ P. rewrite P, upd_same. apply before_last. apply (i_q _ HI). auto.
      + rewrite upd_other by auto. intros L1 P. specialize (R1 O0 L1 P). unfold upd. destruct (Nat.eqb_spec (pr (cx s d)) (pr (cx s x))) as [<-|]; auto.
        now apply before_snoc.
    - (* Upd1 *)
      assert (X : exists a, s' = setag s k a \/ s' = log (VRet k) (setag s k a)).
      { unfold sstep_ok, sstep in E. dm E; injection E as <-; eauto. }
      destruct X as (a&[X|X]); subst s'; cbn [cx qs minp cur count scn pnd ag shi setag log] in *; split; hs; auto;
      intros O; destruct (overdue_step _ _ _ _ O) as [O0|O0]; try discriminate; auto.
    - (* Upd2 *)
      unfold sstep_ok, sstep in E. destruct (ag s k) as [| | | |p x] eqn:A; try discriminate. destruct (unlocked s) eqn:U; [|discriminate].
      injection E as <-. unfold unlocked in U. destruct (scn s) eqn:SC; [discriminate|].
      cbn [cx qs minp cur count scn pnd ag shi setag setcx setq setmin log] in *. split; hs; intros O; [|rewrite SC; discriminate].
      destruct (overdue_step _ _ _ _ O) as [O0|O0]; try discriminate; auto.
    - (* Enter *)
      unfold sstep_ok, sstep in E. dm E; injection E as <-. cbn [cx qs minp cur count scn pnd ag shi setag setcx setq setmin log] in *.
      assert (F : forall y, let z := upd (cx s) c0 (enter_w (cx s c0) r) y in pr z = pr (cx s y) /\ loc z = loc (cx s y)).
      { intros y. cs; auto. }
      split; hs; intros O; (destruct (overdue_step _ _ _ _ O) as [O0|O0]; [|discriminate]);
      destruct (F c) as [F1 F2], (F d) as [F3 F4]; rewrite ?F1, ?F2, ?F3; auto.
    - (* Leave *)
      unfold sstep_ok, sstep in E. dm E; injection E as <-. cbn [cx qs minp cur count scn pnd ag shi setag setcx setq setmin log] in *.
      assert (F : forall y, let z := upd (cx s) c0 (leave_w (cx s c0) r) y in pr z = pr (cx s y) /\ loc z = loc (cx s y)).
      { intros y. cs; auto. }
      split; hs; intros O; (destruct (overdue_step _ _ _ _ O) as [O0|O0]; [|discriminate]);
      destruct (F c) as [F1 F2], (F d) as [F3 F4]; rewrite ?F1, ?F2, ?F3; auto.
    - (* Prio *)
      unfold sstep_ok, sstep in E. destruct (alive s c0 && unlocked s) eqn:G; [|discriminate]. apply andb_true_iff in G as [_ U].
      destruct (Nat.eqb_spec (clamp z) (pr (cx s c0))) as [|NE]; [injection E as <-; split; auto|].
      unfold unlocked in U. destruct (scn s) eqn:SC; [discriminate|].
      assert (X : shi s' = VPrio c0 (clamp z) :: shi s /\ scn s' = None /\ cx s' = upd (cx s) c0 (set_pr (cx s c0) (clamp z)) /\
        ((qs s' = qs s /\ loc (cx s c0) = Away) \/
         (In c0 (qs s (pr (cx s c0))) /\
          qs s' = let q1 := upd (qs s) (pr (cx s c0)) (rm c0 (qs s (pr (cx s c0)))) in upd q1 (clamp z) (q1 (clamp z) ++ [c0])))).
      { destruct (loc (cx s c0)) eqn:L; try (injection E as <-; hs; auto 12; fail);
        (destruct (existsb _ _) eqn:Q; [|discriminate]); apply existsb_in in Q; injection E as <-; hs; auto 12. }
      clear E. destruct X as (X1&X2&X3&X4). split; rewrite X1; intros O; [|rewrite X2; discriminate].
      assert (ND : c0 <> d) by (simpl in O; tauto). destruct (overdue_step _ _ _ _ O) as [O0|O0]; [|discriminate].
      destruct (RB O0) as [RB1 RB2]. rewrite X3. rewrite (@upd_other _ (cx s) _ _ d) by auto. destruct X4 as [(->&L)|(Q&->)].
      + destruct (Nat.eq_dec c0 c) as [->|]; [rewrite upd_same; simpl; congruence|]. rewrite upd_other by auto. auto.
      + set (q1 := upd (qs s) _ _). cbv zeta.
        assert (Qd : In d (q1 (pr (cx s d)))).
        { assert (In d (qs s (pr (cx s d)))) by (apply (i_q _ HI); auto). unfold q1, upd. destruct (Nat.eqb_spec (pr (cx s d)) (pr (cx s c0))) as [<-|]; auto.
          apply in_rm. auto. }
        destruct (Nat.eq_dec c0 c) as [->|N].
        * rewrite upd_same. simpl. intros _ P. rewrite P, upd_same. now apply before_last.
        * rewrite upd_other by auto. intros L P. specialize (R1 O0 L P).
          assert (B : before d c (q1 (pr (cx s d)))).
          { unfold q1, upd. destruct (Nat.eqb_spec (pr (cx s d)) (pr (cx s c0))) as [<-|]; auto. apply before_rm; auto. }
          unfold upd at 1. destruct (Nat.eqb_spec (pr (cx s d)) (clamp z)) as [<-|]; auto. now apply before_snoc.
    - (* Finish *)
      unfold sstep_ok, sstep in E. destruct (cur s) as [x|] eqn:C; [|discriminate]. destruct (stt (cx s x)) eqn:T; try discriminate.
      destruct (running s) eqn:R; [|discriminate]. injection E as <-.
      cbn [cx qs minp cur count scn pnd ag shi setag setcx setq setmin log] in *.
      assert (F : forall y, let z := upd (cx s) x (set_stt (cx s x) Fin) y in pr z = pr (cx s y) /\ loc z = loc (cx s y)).
      { intros y. cs; rewrite ?set_stt_pr, ?set_stt_loc; auto. }
      split; hs; intros O; (destruct (overdue_step _ _ _ _ O) as [O0|O0]; [|discriminate]);
      destruct (F c) as [F1 F2], (F d) as [F3 F4]; rewrite ?F1, ?F2, ?F3; auto.
    - (* Unlock *)
      unfold sstep_ok, sstep in E. dm E; injection E as <-. cbn [cx qs minp cur count scn pnd ag shi setag setcx setq setmin log] in *.
      assert (F : forall y, let z := upd (cx s) c0 (unlock_d (cx s c0)) y in pr z = pr (cx s y) /\ loc z = loc (cx s y)).
      { intros y. cs; auto. }
      split; hs; intros O; (destruct (overdue_step _ _ _ _ O) as [O0|O0]; [|discriminate]);
      destruct (F c) as [F1 F2], (F d) as [F3 F4]; rewrite ?F1, ?F2, ?F3; auto.
    - (* PickB *)
      unfold sstep_ok, sstep in E. destruct (running s) eqn:R; [|discriminate]. injection E as <-.
      cbn [cx qs minp cur count scn pnd ag shi setscn] in *. split; hs; auto. intros O i r X. injection X as <- <-. split; [lia|].
      intros P. apply (i_q _ HI). split; auto. now apply RB.
    - (* PickS *)
      unfold sstep_ok, sstep in E. destruct (scn s) as [[i [|x r]]|] eqn:SC; [| |discriminate].
      + destruct (Nat.ltb_spec (S i) nprio) as [LT|GE]; injection E as <-; cbn [cx qs minp cur count scn pnd ag shi setscn do_idle] in *.
        * split; hs; auto. intros O i' r X. injection X as <- <-. destruct (R2 O _ _ eq_refl) as [A B]. split.
          -- intros Z. destruct (Nat.eq_dec (pr (cx s d)) i) as [Q|Q]; [apply (B Q)|apply A; lia].
          -- intros P. apply (i_q _ HI). split; auto. now apply RB.
        * split; hs; [|discriminate]. intros O. destruct (overdue_step _ _ _ _ O) as [O0|O0]; [|discriminate]. auto.
      + destruct (can_schedule (cx s x)) eqn:CS; injection E as <-; cbn [cx qs minp cur count scn pnd ag shi setscn] in *.
        2:{ split; hs; auto. intros O i' r' X. injection X as <- <-. destruct (R2 O _ _ eq_refl) as [A B]. split; auto.
            intros P. destruct (B P) as [->|]; auto. destruct (RB O); congruence. }
        clear RA. set (cx1 := match cur s with Some d => if d =? x then cx s else upd (cx s) d (set_stt (cx s d) Susp) | None => cx s end).
        assert (C2 : forall y, cx1 y = cx s y \/ cx1 y = set_stt (cx s y) Susp).
        { intros y. unfold cx1. destruct (cur s) as [e|]; auto. destruct (Nat.eqb_spec e x); auto. cs; auto. }
        assert (F : forall y, let z := upd cx1 x (set_stt (cx1 x) Runn) y in pr z = pr (cx s y) /\ loc z = loc (cx s y)).
        { intros y. unfold upd. destruct (Nat.eqb_spec y x) as [->|]; simpl; rewrite ?set_stt_loc, ?set_stt_pr;
          [destruct (C2 x) as [-> | ->]|destruct (C2 y) as [-> | ->]]; rewrite ?set_stt_loc, ?set_stt_pr; auto. }
        split; hs; fold cx1; [|discriminate]. intros O. destruct (F c) as [-> ->], (F d) as [-> FD]. intros L P.
        assert (Hx : loc (cx s x) = Here /\ pr (cx s x) = i).
        { apply (i_q _ HI). destruct (i_scn _ HI _ _ SC) as (_&_&(l&Z)&_). rewrite Z. apply in_elt. }
        destruct (Nat.eq_dec x c) as [->|N].
        * assert (Rd : loc (cx s d) = Here).
          { apply overdue_runnable in O. destruct O as (M&_). simpl in M. rewrite (h_mem _ _ HH) in M. destruct (loc (cx s d)); simpl in M; congruence. }
          destruct Hx as [_ <-]. rewrite <- P, upd_same. apply before_last, in_rm. split; auto. apply (i_q _ HI). split; auto.
        * assert (O0 : overdue c d (shi s) /\ x <> d).
          { simpl in O. destruct O as [_ O]. destruct (Nat.eqb_spec x c); [congruence|tauto]. }
          destruct O0 as [O0 ND]. specialize (R1 O0 L P). unfold upd. destruct (Nat.eqb_spec (pr (cx s d)) i) as [<-|]; auto.
          apply before_snoc, before_rm; auto.
    - (* Mark *)
      unfold sstep_ok, sstep in E. destruct (pnd s) as [x|] eqn:PN; [|discriminate]. injection E as <-.
      cbn [cx qs minp cur count scn pnd ag shi setcx] in *.
      assert (F : forall y, let z := upd (cx s) x (set_stt (cx s x) Susp) y in pr z = pr (cx s y) /\ loc z = loc (cx s y)).
      { intros y. cs; rewrite ?set_stt_pr, ?set_stt_loc; auto. }
      split; hs; intros O; destruct (F c) as [F1 F2], (F d) as [F3 F4]; rewrite ?F1, ?F2, ?F3; auto.
    - (* Reap *)
      unfold sstep_ok, sstep in E. destruct (loc (cx s c0)) eqn:L; try discriminate. destruct (stt (cx s c0)) eqn:T; try discriminate.
      destruct (_ && _) eqn:G; [|discriminate]. injection E as <-. cbn [cx qs minp cur count scn pnd ag shi setcx setq log] in *.
      assert (SC : scn s = None).
      { apply andb_true_iff in G as [G _]. apply andb_true_iff in G as [G _]. unfold running, unlocked in G. destruct (scn s); auto; discriminate. }
      split; hs; intros O; [|rewrite SC; discriminate]. destruct (overdue_step _ _ _ _ O) as [O0|O0]; [|discriminate].
      destruct (RA O) as [A1 _]. assert (ND : c0 <> d) by (intros ->; rewrite upd_same in A1; discriminate).
      rewrite (@upd_other _ (cx s) _ _ d) by auto. destruct (Nat.eq_dec c0 c) as [->|N]; [rewrite upd_same; discriminate|].
      rewrite upd_other by auto. intros L1 P. specialize (R1 O0 L1 P). unfold upd. destruct (Nat.eqb_spec (pr (cx s d)) (pr (cx s c0))) as [<-|]; auto.
      apply before_rm; auto.
    - (* Take *)
      unfold sstep_ok, sstep in E. destruct (unlocked s) eqn:U; [|discriminate].
      destruct (scan_mv _ _ _ _) as [[i x]|] eqn:SM; [|discriminate]. injection E as <-. unfold unlocked in U. destruct (scn s) eqn:SC; [discriminate|].
      cbn [cx qs minp cur count scn pnd ag shi setcx setq log] in *.
      split; hs; intros O; [|rewrite SC; discriminate]. destruct (overdue_step _ _ _ _ O) as [O0|O0]; [|discriminate].
      destruct (RA O) as [A1 _]. assert (ND : x <> d) by (intros ->; rewrite upd_same in A1; discriminate).
      rewrite (@upd_other _ (cx s) _ _ d) by auto. destruct (Nat.eq_dec x c) as [->|N]; [rewrite upd_same; discriminate|].
      rewrite upd_other by auto. intros L1 P. specialize (R1 O0 L1 P). unfold upd. destruct (Nat.eqb_spec (pr (cx s d)) i) as [<-|]; auto.
      apply before_rm; auto.
    - (* Depart *)
      unfold sstep_ok, sstep in E. destruct (loc (cx s c0)) eqn:L; try discriminate. injection E as <-.
      cbn [cx qs minp cur count scn pnd ag shi setcx] in *. split; hs; intros O.
      + destruct (RB O) as [RB1 _]. cs; try discriminate; try (now apply R1); congruence.
      + destruct (RB O) as [RB1 _]. cs; auto.
    - (* Other *)
      assert (X : shi s' = shi s \/ shi s' = VFin c0 :: shi s).
      { unfold sstep_ok, sstep in E. destruct (loc (cx s c0)) eqn:L; try discriminate. destruct (stt (cx s c0)); try discriminate;
        injection E as <-; destruct t; hs; auto. }
      assert (Y : cx s' = upd (cx s) c0 (set_stt (cx s c0) t) /\ qs s' = qs s /\ scn s' = scn s /\ minp s' = minp s).
      { unfold sstep_ok, sstep in E. destruct (loc (cx s c0)) eqn:L; try discriminate. destruct (stt (cx s c0)); try discriminate;
        injection E as <-; destruct t; hs; auto. }
      destruct Y as (Y1&Y2&Y3&Y4).
      assert (F : forall y, let z := cx s' y in pr z = pr (cx s y) /\ loc z = loc (cx s y)).
      { intros y. rewrite Y1. cs; rewrite ?set_stt_pr, ?set_stt_loc; auto. }
      assert (O1 : overdue c d (shi s') -> overdue c d (shi s)).
      { destruct X as [-> | ->]; auto. intros O. destruct (overdue_step _ _ _ _ O) as [O0|O0]; [auto|discriminate]. }
      split; intros O; apply O1 in O; destruct (F c) as [F1 F2], (F d) as [F3 F4]; rewrite ?F1, ?F2, ?F3, ?Y2, ?Y3, ?Y4; auto.
  Qed.

  Lemma rinv_run : forall ls s, run sstep_ok (sinit cfg) ls = Some s -> SInv s /\ HInv cfg s /\ RInv s.
  Proof.
    intros ls s R. apply (@run_inv _ _ sstep_ok (fun s => SInv s /\ HInv cfg s /\ RInv s) (sinit cfg)) with (ls := ls); auto.
    - split; [apply sinv_init|]. split; [apply hinv_init|]. split; unfold sinit; hs; simpl; [tauto|discriminate].
    - intros s0 l s1 (A&B&C) E. split; [eapply sinv_step|]; eauto. split; [eapply hinv_step|eapply rinv_step]; eauto.
  Qed.

  (** A coroutine is not picked again before an overdue one of the same priority. *)
  Lemma rr_core : forall ls s, run sstep_ok (sinit cfg) ls = Some s -> forall post pre, shi s = post ++ VPick (Some c) :: pre ->
    overdue c d pre -> hprio c pre = hprio d pre -> False.
  Proof.
    intros ls s R post pre E O P. destruct (hist_prefix _ _ _ R _ _ _ E) as (ls1&l&ls2&s1&s2&_&R1&S1&H1&H2).
    destruct (rinv_run _ _ R1) as (HI&HH&[V1 V2]). rewrite <- H1 in H2. destruct (ev_pick_some _ _ _ _ S1 H2) as (i&r&SC&CS).
    rewrite <- H1 in O, P. destruct (V2 O _ _ SC) as [A B].
    destruct (i_scn _ HI _ _ SC) as (MI&_&(l0&Q)&_).
    assert (Hc : loc (cx s1 c) = Here /\ pr (cx s1 c) = i) by (apply (i_q _ HI); rewrite Q; apply in_elt). destruct Hc as [Lc Pc].
    assert (Ld : loc (cx s1 d) = Here) by (apply overdue_runnable in O; now apply (runnable_iff cfg) in O).
    rewrite (h_pr _ _ HH _ Lc), (h_pr _ _ HH _ Ld) in P. specialize (V1 O Lc P). rewrite <- P, Pc in V1.
    assert (Id : In d r) by (destruct B as [X|X]; [congruence|congruence|auto]).
    destruct V1 as (a&b&Q2&Ib). pose proof (i_nd _ HI i) as ND. rewrite Q in Q2, ND.
    (* d occurs after c and before c *)
    assert (X : forall l0 a, l0 ++ c :: r = a ++ d :: b -> NoDup (l0 ++ c :: r) -> False).
    { clear -Ib Id ne. induction l0 as [|y l0 IH]; intros a Ea N.
      - destruct a as [|z a]; simpl in Ea; injection Ea as Ez Ea; [congruence|]. subst. inversion N; subst. apply H1.
        rewrite in_app_iff. simpl. auto.
      - destruct a as [|z a]; simpl in Ea; injection Ea as Ez Ea.
        + subst. inversion N; subst. apply H1. rewrite in_app_iff. simpl. auto.
        + inversion N; subst. eapply IH; eauto. }
    eauto.
  Qed.
End RR.
