(** A timed wait taken off the line by its timer reports it. *)
From Coq Require Import List Arith Bool Lia.
From Verif Require Import Base LinSpec LinLemmas CvSpec CvModel CvProofs.
Import ListNotations.

Section T.
  Variables (D : Type) (d0 : D) (modf : nat -> D -> D) (pred : nat -> D -> bool).
  Notation cst := (cst D).
  Notation Inv := (Inv D d0 modf pred).

  Definition op_of (p : pc) : option cvop :=
    match p with
    | PTim o | W1 o | W2 o | W3 o | W4 o | W5 o | W6 o | W7 o | W8 o | W9 o => Some o
    | _ => None
    end.
  Definition entering (p : pc) : bool := match p with PTim _ | W1 _ | W2 _ | W3 _ => true | _ => false end.

  Record J (s : cst) : Prop := {
    j_off : forall t, off_by_timer (hist D s) t = true ->
      tmo D s = true \/ exists a o, cbs D s a = CFlag t /\ pcs D s t = W6 o /\ mk D s t = true;
    j_op : forall t o, op_of (pcs D s t) = Some o -> cur_op (hist D s) t = Some o;
    j_in : forall t o, op_of (pcs D s t) = Some o -> is_timed o = true -> entering (pcs D s t) = true ->
      off_by_timer (hist D s) t = false;
    j_h : timeout_reported (hist D s)
  }.

  Lemma j_init : J (cinit D d0).
  Proof. split; simpl; try discriminate; auto. Qed.

  (** A step of [t] that adds at most one event which is neutral, and leaves the callbacks alone. *)
  Definition neutral (e : cvev) : bool := match e with ECall _ _ | EAux _ AEnter | EAux _ ATimeout => false | _ => true end.

  Lemma neutral_off : forall e h t, neutral e = true -> off_by_timer (e :: h) t = off_by_timer h t.
  Proof. intros [u o|u o r|u o r|u []] h t; simpl; try discriminate; auto. Qed.
  Lemma neutral_cur : forall e h t, neutral e = true -> cur_op (e :: h) t = cur_op h t.
  Proof. intros [u o|u o r|u o r|u []] h t; simpl; try discriminate; auto. Qed.

  Lemma cb_holds : forall s a t, Inv s -> cbs D s a = CFlag t -> cvl D s = Some (Cb a).
  Proof. intros s a t HI E. apply (i_cb _ _ _ _ _ HI). now rewrite E. Qed.

  (** Thread [t] moves from [p] to [p']. *)
  Lemma j_gen : forall s s' t p p' h', Inv s -> J s -> pcs D s t = p ->
    pcs D s' = upd (pcs D s) t p' -> cbs D s' = cbs D s -> tmo D s' = tmo D s -> hist D s' = h' ->
    (h' = hist D s \/ exists e, h' = e :: hist D s /\ neutral e = true /\
       (forall o, e = ELin t o (RB true) -> is_timed o = true -> off_by_timer (hist D s) t = false) /\
       (forall u o, e = ELin u o (RB true) -> u = t)) ->
    (forall o, p <> W6 o \/ mk D s t = false) ->
    (forall u, u <> t -> mk D s' u = mk D s u \/ cvh p = true) ->
    (forall o, op_of p' = Some o -> op_of p = Some o) ->
    (entering p' = true -> entering p = true \/ tmo D s = false \/ (forall o, op_of p' = Some o -> is_timed o = false)) ->
    J s'.
  Proof.
    intros s s' t p p' h' HI [J1 J2 J3 J4] Hp Hpc Hcb Ht Hh He H6 Hm Ho Hen.
    assert (E1 : forall u, off_by_timer h' u = off_by_timer (hist D s) u).
    { intros u. destruct He as [->|(e&->&N&_)]; auto using neutral_off. }
    assert (E2 : forall u, cur_op h' u = cur_op (hist D s) u).
    { intros u. destruct He as [->|(e&->&N&_)]; auto using neutral_cur. }
    split.
    - intros u. rewrite Hh, E1, Ht, Hcb, Hpc. intros Hu. destruct (J1 u Hu) as [K|(a&o&K1&K2&K3)]; auto. right.
      exists a, o. destruct (Nat.eq_dec u t) as [->|Hne].
      + exfalso. destruct (H6 o) as [H|H]; congruence.
      + rewrite upd_other by auto. repeat split; auto. destruct (Hm u Hne) as [K|K]; [congruence|].
        exfalso. pose proof (cb_holds s a u HI K1) as C1. pose proof (proj2 (i_cv _ _ _ _ _ HI t)) as C2.
        rewrite Hp in C2. rewrite (C2 K) in C1. discriminate.
    - intros u o. rewrite Hpc, Hh, E2. unfold upd. destruct (Nat.eqb_spec u t) as [->|]; [|apply J2].
      intros K. apply J2. rewrite Hp. now apply Ho.
    - intros u o. rewrite Hpc, Hh, E1. unfold upd. destruct (Nat.eqb_spec u t) as [->|]; [|apply J3].
      intros K1 K2 K3. destruct (Hen K3) as [K|[K|K]].
      + apply (J3 t o); auto; rewrite Hp; auto.
      + destruct (off_by_timer (hist D s) t) eqn:E; auto. destruct (J1 t E) as [L|(a&o'&L1&L2&L3)]; [congruence|].
        exfalso. destruct (H6 o') as [H|H]; congruence.
      + rewrite (K o K1) in K2. discriminate.
    - rewrite Hh. destruct He as [->|(e&->&N&K1&K2)]; auto. simpl.
      destruct e as [u o|u o [|[]]|u o r|u []]; simpl in N; try discriminate; auto.
      split; auto. intros Hti. rewrite (K2 u o eq_refl) in *. now apply (K1 o).
  Qed.

  Lemma cline_in : forall h t, existsb (Nat.eqb t) (cline h) = true <-> In t (cline h).
  Proof. intros h t. rewrite existsb_exists. split; [intros (x&H1&H2); apply Nat.eqb_eq in H2; congruence|intros H; exists t; split; auto; apply Nat.eqb_refl]. Qed.

  Ltac side :=
    try exact eq_refl; try solve [auto | left; reflexivity | intros; left; discriminate | discriminate | intros; discriminate |
      right; eexists; split; [reflexivity|]; split; [reflexivity|]; split; [discriminate|intros; discriminate]].

  Lemma j_step : forall s l s', Inv s -> J s -> cstep D modf pred s l = Some s' -> J s'.
  Proof.
    intros s l s' HI HJ Hs. destruct l as [t o|t|t a|a]; simpl in Hs.
    - destruct (pcs D s t) eqn:E; try discriminate. destruct (allowed _ _ _); try discriminate. injection Hs as <-.
      destruct HJ as [J1 J2 J3 J4]. split; cbn [hist pcs cbs tmo mk log set_pc].
      + intros u. simpl. destruct (Nat.eqb_spec t u) as [->|Hne]; [discriminate|]. intros Hu.
        destruct (J1 u Hu) as [K|(a&o'&K1&K2&K3)]; auto. right. exists a, o'. rewrite upd_other by auto. auto.
      + intros u o'. simpl. unfold upd. rewrite (Nat.eqb_sym u t). destruct (Nat.eqb_spec t u) as [->|Hne]; [|apply J2].
        destruct o; simpl; congruence.
      + intros u o'. simpl. unfold upd. rewrite (Nat.eqb_sym u t). destruct (Nat.eqb_spec t u) as [->|Hne]; [auto|apply J3].
      + exact J4.
    - destruct (pcs D s t) eqn:E; unfold step_run in Hs; rewrite E in Hs; simpl in Hs; try discriminate.
      + destruct o; try discriminate; [destruct (ulk D s); try discriminate| |]; injection Hs as <-;
        (eapply (j_gen s _ t); try exact E; side).
      + injection Hs as <-. eapply (j_gen s _ t); try exact E; side.
      + unfold tas in Hs. destruct (cvl D s); try discriminate. injection Hs as <-.
        eapply (j_gen s _ t); try exact E; side.
      + injection Hs as <-. eapply (j_gen s _ t); try exact E; side.
      + (* W3 *) injection Hs as <-. destruct HJ as [J1 J2 J3 J4]. split; cbn [hist pcs cbs tmo mk log set_pc set_ulk].
        * intros u. simpl. destruct (Nat.eqb_spec t u) as [->|Hne]; [discriminate|]. intros Hu.
          destruct (J1 u Hu) as [K|(a&o'&K1&K2&K3)]; auto. right. exists a, o'. rewrite upd_other by auto. auto.
        * intros u o'. simpl. unfold upd. destruct (Nat.eqb_spec u t) as [->|Hne]; [|apply J2].
          intros H. apply J2. rewrite E. exact H.
        * intros u o'. simpl. unfold upd. rewrite (Nat.eqb_sym u t). destruct (Nat.eqb_spec t u) as [->|Hne]; [discriminate|apply J3].
        * simpl. split; auto. intros o' H1 H2. assert (o' = o). { pose proof (J2 t o) as K. rewrite E in K. specialize (K eq_refl). congruence. }
          subst o'. apply (J3 t o); auto; now rewrite E.
      + injection Hs as <-. eapply (j_gen s _ t); try exact E; side.
      + injection Hs as <-. eapply (j_gen s _ t); try exact E; side.
      + destruct (mk D s t) eqn:M; try discriminate. injection Hs as <-.
        eapply (j_gen s _ t); try exact E; side.
      + destruct (ulk D s); try discriminate. injection Hs as <-.
        eapply (j_gen s _ t); try exact E; side.
      + injection Hs as <-. eapply (j_gen s _ t); try exact E; side.
        * intros o'. now destruct (loops D pred s o).
        * destruct (loops D pred s o) eqn:L; [|discriminate]. intros _. right. destruct o; simpl in L; try discriminate.
          { right. intros o' K. injection K as <-. reflexivity. }
          { left. now destruct (tmo D s). }
      + (* W9 *) injection Hs as <-. eapply (j_gen s _ t); try exact E; side.
        right. eexists; split; [reflexivity|]; split; [reflexivity|]; split; [|intros u o' K; now injection K].
        intros o' K Ht. injection K as <- K. destruct (off_by_timer (hist D s) t) eqn:F; auto. exfalso.
        destruct (j_off _ HJ t F) as [T|(a&o'&L1&L2&L3)]; [|congruence].
        destruct o; simpl in K, Ht; try discriminate; injection K as K; rewrite T in K; discriminate.
      + unfold tas in Hs. destruct (cvl D s); try discriminate. injection Hs as <-.
        eapply (j_gen s _ t); try exact E; side; destruct o; discriminate.
      + destruct (wq D s); injection Hs as <-; (eapply (j_gen s _ t); try exact E; side).
      + injection Hs as <-. eapply (j_gen s _ t); try exact E; side.
      + destruct l; injection Hs as <-; (eapply (j_gen s _ t); try exact E; side).
      + injection Hs as <-. eapply (j_gen s _ t); try exact E; side.
      + injection Hs as <-. eapply (j_gen s _ t); try exact E; side.
      + injection Hs as <-. eapply (j_gen s _ t); try exact E; side.
    - destruct (tarm D s t); try discriminate. destruct (cbs D s a) eqn:C; try discriminate. injection Hs as <-.
      destruct HJ as [J1 J2 J3 J4]. split; cbn [hist pcs cbs tmo mk log set_cb set_tarm]; auto.
      intros u Hu. destruct (J1 u Hu) as [K|(a'&o'&K1&K2&K3)]; auto. right. exists a', o'. rewrite upd_other; auto. congruence.
    - unfold step_cb in Hs. destruct (cbs D s a) as [|t|t|t|t|] eqn:C; try discriminate.
      + unfold tas in Hs. destruct (cvl D s) eqn:L; try discriminate. injection Hs as <-.
        destruct HJ as [J1 J2 J3 J4]. split; cbn [hist pcs cbs tmo mk set_cb set_cvl]; auto.
        intros u Hu. destruct (J1 u Hu) as [K|(a'&o'&K1&K2&K3)]; auto. right. exists a', o'. rewrite upd_other; auto. congruence.
      + (* CRem *) injection Hs as <-. destruct HJ as [J1 J2 J3 J4].
        assert (L : cvl D s = Some (Cb a)) by (apply (i_cb _ _ _ _ _ HI); now rewrite C).
        assert (NF : forall a' u, cbs D s a' = CFlag u -> False).
        { intros a' u K. pose proof (cb_holds s a' u HI K). congruence. }
        assert (IN : In t (cline (hist D s)) -> exists o, pcs D s t = W6 o /\ mk D s t = true).
        { intros H. apply (i_q _ _ _ _ _ HI) in H. assert (NT : cvh (pcs D s t) = false).
          { destruct (cvh (pcs D s t)) eqn:X; auto. apply (i_cv _ _ _ _ _ HI) in X. congruence. }
          destruct (pcs D s t) eqn:X; simpl in H, NT; try contradiction; try discriminate. exists o. now destruct H. }
        split; cbn [hist pcs cbs tmo mk log set_cb set_wq].
        * intros u. simpl. destruct (Nat.eqb t u && existsb (Nat.eqb u) (cline (hist D s))) eqn:X.
          { intros _. apply andb_true_iff in X. destruct X as [X1 X2]. apply Nat.eqb_eq in X1. subst u.
            apply cline_in in X2. destruct (IN X2) as (o&P1&P2). right. exists a, o. rewrite upd_same. auto. }
          { intros Hu. destruct (J1 u Hu) as [K|(a'&o'&K1&_)]; auto. now destruct (NF a' u). }
        * exact J2.
        * intros u o P1 P2 P3. simpl. destruct (Nat.eqb t u && existsb (Nat.eqb u) (cline (hist D s))) eqn:X; [|now apply (J3 u o)].
          apply andb_true_iff in X. destruct X as [X1 X2]. apply Nat.eqb_eq in X1. subst u.
          apply cline_in in X2. destruct (IN X2) as (o'&Q1&Q2). rewrite Q1 in P3. discriminate.
        * exact J4.
      + injection Hs as <-. destruct HJ as [J1 J2 J3 J4]. split; cbn [hist pcs cbs tmo mk set_cb set_tmo]; auto.
      + injection Hs as <-. destruct HJ as [J1 J2 J3 J4]. split; cbn [hist pcs cbs tmo mk set_cb set_mk]; auto.
        assert (L : cvl D s = Some (Cb a)) by (apply (i_cb _ _ _ _ _ HI); now rewrite C).
        intros u Hu. destruct (J1 u Hu) as [K|(a'&o'&K1&_)]; auto. pose proof (cb_holds s a' u HI K1). congruence.
      + injection Hs as <-. destruct HJ as [J1 J2 J3 J4]. split; cbn [hist pcs cbs tmo mk set_cb set_cvl]; auto.
        assert (L : cvl D s = Some (Cb a)) by (apply (i_cb _ _ _ _ _ HI); now rewrite C).
        intros u Hu. destruct (J1 u Hu) as [K|(a'&o'&K1&_)]; auto. pose proof (cb_holds s a' u HI K1). congruence.
  Qed.

  Lemma cv_timeout_reported : forall ls s, run (cstep D modf pred) (cinit D d0) ls = Some s -> timeout_reported (hist D s).
  Proof.
    intros ls s Hr. assert (K : Inv s /\ J s); [|apply K].
    revert ls s Hr. apply (run_inv (cstep D modf pred) (fun s => Inv s /\ J s)); [split; [apply inv_init|apply j_init]|].
    intros s l s' [K1 K2] Hs. split; [|eapply j_step; eauto]. eapply inv_step; eauto.
  Qed.

  Definition before_timer (p : pc) : bool := match p with PTim _ => true | _ => false end.
  Record K (s : cst) : Prop := {
    k_arm : forall t, tarm D s t = true ->
      timed_pc (pcs D s t) = true /\ before_timer (pcs D s t) = false /\ expired (hist D s) t = false;
    k_tim : forall t, before_timer (pcs D s t) = true -> expired (hist D s) t = false;
    k_h : deadlines_inside (hist D s)
  }.

  Lemma k_init : K (cinit D d0).
  Proof. split; simpl; try discriminate; auto. Qed.

  Definition calm (e : cvev) : bool := match e with ECall _ _ | EAux _ ADeadline => false | _ => true end.

  (** A step of [t] which arms no timer and adds at most one event that is neither a call nor a deadline. *)
  Lemma k_gen : forall s s' t p', K s ->
    (hist D s' = hist D s \/ exists e, hist D s' = e :: hist D s /\ calm e = true) ->
    pcs D s' = upd (pcs D s) t p' -> (forall u, tarm D s' u = true -> tarm D s u = true) ->
    before_timer p' = false -> (tarm D s' t = true -> timed_pc (pcs D s t) = true -> timed_pc p' = true) -> K s'.
  Proof.
    intros s s' t p' [K1 K2 K3] Hh Hp Ha Hb Ht.
    assert (E : forall u, expired (hist D s') u = expired (hist D s) u).
    { intros u. destruct Hh as [->|(e&->&He)]; auto. destruct e as [x o|x o r|x o r|x []]; try discriminate; reflexivity. }
    split.
    - intros u Hu. rewrite E, Hp. destruct (K1 u (Ha u Hu)) as (A&B&C). destruct (Nat.eq_dec u t) as [->|N].
      + rewrite upd_same. auto.
      + rewrite upd_other by auto. auto.
    - intros u. rewrite E, Hp. destruct (Nat.eq_dec u t) as [->|N].
      + rewrite upd_same. congruence.
      + rewrite upd_other by auto. auto.
    - destruct Hh as [->|(e&->&He)]; auto. destruct e as [x o|x o r|x o r|x []]; try discriminate; exact K3.
  Qed.

  Lemma k_step : forall s l s', Inv s -> K s -> cstep D modf pred s l = Some s' -> K s'.
  Proof.
    intros s l s' HI HK Hs. destruct l as [t o|t|t a|a]; cbn [cstep] in Hs.
    - destruct (pcs D s t) eqn:Ep; try discriminate. destruct (allowed (hist D s) t o); [|discriminate].
      injection Hs as <-. destruct HK as [K1 K2 K3].
      assert (N : tarm D s t = false).
      { destruct (tarm D s t) eqn:X; auto. destruct (K1 t X) as [H _]. rewrite Ep in H. discriminate. }
      split; cbn [hist pcs tarm log set_pc expired deadlines_inside]; auto.
      + intros u Hu. destruct (Nat.eq_dec u t) as [->|E]; [congruence|].
        rewrite upd_other by auto. apply Nat.neq_sym, Nat.eqb_neq in E. rewrite E. auto.
      + intros u Hu. destruct (Nat.eqb t u) eqn:E; auto. apply Nat.eqb_neq, Nat.neq_sym in E. rewrite upd_other in Hu by auto. auto.
    - unfold step_run in Hs.
      destruct (pcs D s t) as [|o|o|o|o|o|o|o|o|o|o|o|o| |v|[|u l]| |o|o r] eqn:Ep; try discriminate.
      2:{ (* the timer starts *)
          injection Hs as <-. pose proof (ti_wt _ _ _ _ _ _ _ _ (i_t _ _ _ _ _ HI t)) as Hw. rewrite Ep in Hw.
          destruct HK as [K1 K2 K3]. split; cbn [hist pcs tarm set_pc set_tarm]; auto.
          - intros u Hu. destruct (Nat.eq_dec u t) as [->|E].
            + rewrite !upd_same in *. simpl in Hw. repeat split; [exact Hw|]. apply K2. now rewrite Ep.
            + rewrite !upd_other in * by auto. auto.
          - intros u Hu. destruct (Nat.eq_dec u t) as [->|E]; [rewrite upd_same in Hu; discriminate|].
            rewrite upd_other in Hu by auto. auto. }
      all: unfold tas in Hs;
        repeat match type of Hs with context [match ?x with _ => _ end] => destruct x eqn:?; try discriminate end;
        cbn [option_map] in Hs; try discriminate; injection Hs as <-; (eapply (k_gen s _ t _ HK); [|reflexivity| | |]);
        cbn [hist pcs tarm fin log set_pc set_cvl set_wq set_ulk set_dat set_mk set_tarm];
        try (left; reflexivity); try (right; eexists; split; reflexivity); try reflexivity; auto;
        try (destruct (loops D pred s o); reflexivity);
        try (rewrite Ep; cbn [timed_pc]; auto; fail);
        try (intros u Hu; destruct (Nat.eq_dec u t) as [->|E]; [rewrite upd_same in Hu; discriminate|now rewrite upd_other in Hu by auto]);
        try (rewrite upd_same; discriminate).
    - destruct (tarm D s t) eqn:Ea; [|discriminate]. destruct (cbs D s a) eqn:Ec; try discriminate. injection Hs as <-.
      destruct HK as [K1 K2 K3]. destruct (K1 t Ea) as (A&B&C).
      split; cbn [hist pcs tarm log set_cb set_tarm expired deadlines_inside].
      + intros u Hu. destruct (Nat.eq_dec u t) as [->|E]; [rewrite upd_same in Hu; discriminate|].
        rewrite upd_other in Hu by auto. apply Nat.neq_sym, Nat.eqb_neq in E. rewrite E. auto.
      + intros u Hu. destruct (Nat.eqb t u) eqn:E; auto. apply Nat.eqb_eq in E. subst u. congruence.
      + split; auto. split; auto. pose proof (ti_ph _ _ _ _ _ _ _ _ (i_t _ _ _ _ _ HI t)) as Hp.
        destruct (pcs D s t); try discriminate; eexists; (split; [exact Hp|exact A]).
    - unfold step_cb, tas in Hs. destruct HK as [K1 K2 K3].
      destruct (cbs D s a) eqn:Ec; try discriminate; [destruct (cvl D s); [discriminate|]; cbn [option_map] in Hs|..];
        injection Hs as <-; split; auto.
  Qed.

  Lemma cv_deadlines_inside : forall ls s, run (cstep D modf pred) (cinit D d0) ls = Some s -> deadlines_inside (hist D s).
  Proof.
    intros ls s Hr. assert (H : Inv s /\ K s); [|apply H].
    revert ls s Hr. apply (run_inv (cstep D modf pred) (fun s => Inv s /\ K s)); [split; [apply inv_init|apply k_init]|].
    intros s l s' [K1 K2] Hs. split; [|eapply k_step; eauto]. eapply inv_step; eauto.
  Qed.

  (** The other way round: the timer of a timed wait that has not fired is armed. *)
  Definition armed_pc (p : pc) : bool := timed_pc p && negb (before_timer p).
  Definition L (s : cst) : Prop := forall t, armed_pc (pcs D s t) = true -> expired (hist D s) t = false -> tarm D s t = true.
  Lemma l_gen : forall s s' t p', L s ->
    (hist D s' = hist D s \/ exists e, hist D s' = e :: hist D s /\ calm e = true) ->
    pcs D s' = upd (pcs D s) t p' -> (forall u, u <> t -> tarm D s' u = tarm D s u) ->
    (armed_pc p' = true -> tarm D s' t = true \/ armed_pc (pcs D s t) = true /\ tarm D s' t = tarm D s t) -> L s'.
  Proof.
    intros s s' t p' HL Hh Hp Ha Ht u P.
    assert (E : expired (hist D s') u = expired (hist D s) u).
    { destruct Hh as [->|(e&->&He)]; auto. destruct e as [x o|x o r|x o r|x []]; try discriminate; reflexivity. }
    rewrite E. intros X. rewrite Hp in P. destruct (Nat.eq_dec u t) as [->|N].
    - rewrite upd_same in P. destruct (Ht P) as [Y|[Y ->]]; auto.
    - rewrite upd_other in P by auto. rewrite Ha by auto. auto.
  Qed.
  Lemma l_step : forall s l s', Inv s -> L s -> cstep D modf pred s l = Some s' -> L s'.
  Proof.
    intros s l s' HI HL Hs. destruct l as [t o|t|t a|a]; cbn [cstep] in Hs.
    - destruct (pcs D s t) eqn:Ep; try discriminate. destruct (allowed (hist D s) t o); [|discriminate].
      injection Hs as <-. intros u. cbn [hist pcs tarm log set_pc expired]. destruct (Nat.eq_dec u t) as [->|N].
      + rewrite upd_same. destruct o; discriminate.
      + rewrite upd_other by auto. apply Nat.neq_sym, Nat.eqb_neq in N. rewrite N. apply HL.
    - unfold step_run in Hs.
      destruct (pcs D s t) as [|o|o|o|o|o|o|o|o|o|o|o|o| |v|[|u l]| |o|o r] eqn:Ep; try discriminate.
      all: unfold tas in Hs;
        repeat match type of Hs with context [match ?x with _ => _ end] => destruct x eqn:?; try discriminate end;
        cbn [option_map] in Hs; try discriminate; injection Hs as <-; (eapply (l_gen s _ t _ HL); [|reflexivity| |]);
        cbn [hist pcs tarm fin log set_pc set_cvl set_wq set_ulk set_dat set_mk set_tarm];
        try (left; reflexivity); try (right; eexists; split; reflexivity); try reflexivity; auto;
        try (intros; now rewrite upd_other by auto);
        try (rewrite Ep; intros X; right; split; [exact X|reflexivity]);
        try (intros X; discriminate X);
        try (left; now rewrite upd_same).
    - destruct (tarm D s t) eqn:Ea; [|discriminate]. destruct (cbs D s a) eqn:Ec; try discriminate. injection Hs as <-.
      intros u. cbn [hist pcs tarm log set_cb set_tarm expired]. destruct (Nat.eqb_spec t u) as [->|N]; [discriminate|].
      rewrite upd_other by auto. apply HL.
    - unfold step_cb, tas in Hs.
      destruct (cbs D s a) eqn:Ec; try discriminate; [destruct (cvl D s); [discriminate|]; cbn [option_map] in Hs|..];
        injection Hs as <-; exact HL.
  Qed.
  Lemma cv_armed : forall ls s, run (cstep D modf pred) (cinit D d0) ls = Some s -> Inv s /\ L s.
  Proof.
    apply (run_inv (cstep D modf pred) (fun s => Inv s /\ L s)); [split; [apply inv_init|intros t X; discriminate]|].
    intros s l s' [K1 K2] Hs. split; [|eapply l_step; eauto]. eapply inv_step; eauto.
  Qed.
End T.
