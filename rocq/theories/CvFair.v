(** Fair executions of the condition variable. *)
From Coq Require Import List Arith Bool Lia.
From Verif Require Import Base LinSpec LinLemmas CvSpec CvModel CvProofs FairSpec.
Import ListNotations.

(** The steps a coroutine makes itself, with even numbers for the client's coroutines and odd numbers for those that run a callback of a
    timer; a call is the client's choice, and when a deadline passes is up to the clock. *)
Definition cwho (l : lbl) : option nat :=
  match l with Call _ _ | Fire _ _ => None | Run t => Some (2 * t) | CbRun a => Some (2 * a + 1) end.

Section F.
  Variables (D : Type) (d0 : D) (modf : nat -> D -> D) (pred : nat -> D -> bool).
  Notation step := (cstep D modf pred).
  Variables (st : nat -> cst D) (lb : nat -> option lbl).
  Hypothesis EX : execution _ _ step (cinit D d0) st lb.
  Hypothesis SF : strongly_fair _ _ step cwho st lb.
  Hypothesis CL : forall t n, holds (hist D (st n)) t = true -> exists m, n <= m /\ holds (hist D (st m)) t = false.

  Lemma ex_inv : forall n, Inv D d0 modf pred (st n).
  Proof.
    induction n as [|n IH]; [rewrite (proj1 EX); apply inv_init|]. pose proof (proj2 EX n) as H.
    destruct (lb n) as [l|]; [eapply inv_step; eauto|now rewrite H].
  Qed.
  Lemma moves_dec : forall x n, moves _ cwho lb x n \/ ~ moves _ cwho lb x n.
  Proof.
    intros x n. unfold moves. destruct (lb n) as [l|]; [|right; intros (l&E&_); discriminate E].
    destruct (cwho l) as [u|] eqn:E; [|right; intros (l'&E'&W); injection E' as <-; congruence].
    destruct (Nat.eq_dec u x) as [->|N]; [left; eauto|right; intros (l'&E'&W); injection E' as <-; congruence].
  Qed.
  (** What only [x] itself ends lasts until [x] makes a step, and it makes one if it is able to again and again. *)
  Lemma comes : forall (P : cst D -> Prop) x n,
    (forall s l s', P s -> step s l = Some s' -> cwho l <> Some x -> P s') -> P (st n) ->
    (forall m, n <= m -> exists k, m <= k /\ (P (st k) -> able _ _ step cwho (st k) x)) ->
    exists m, n <= m /\ moves _ cwho lb x m /\ P (st m).
  Proof.
    intros P x n Per Pn Ab.
    assert (G : forall j, (exists m, n <= m /\ moves _ cwho lb x m /\ P (st m)) \/ P (st (n + j))).
    { induction j as [|j [IH|IH]]; [right; now rewrite Nat.add_0_r|now left|]. destruct (moves_dec x (n + j)) as [M|M]; [left; exists (n + j); repeat split; auto; lia|].
      right. rewrite Nat.add_succ_r. pose proof (proj2 EX (n + j)) as H. destruct (lb (n + j)) as [l|] eqn:El; [|now rewrite H].
      apply (Per _ _ _ IH H). intros W. apply M. exists l. auto. }
    destruct (SF x n) as (m&L&[M|M]).
    - destruct (G (m - n)) as [Q|Q]; auto. replace (n + (m - n)) with m in Q by lia. eauto.
    - destruct (Ab m L) as (k&Lk&A). destruct (G (k - n)) as [Q|Q]; auto. replace (n + (k - n)) with k in Q by lia. exfalso. apply (M k Lk). auto.
  Qed.

  (** Frames. *)
  Lemma pcs_frame : forall s l s' t, step s l = Some s' -> cwho l <> Some (2 * t) -> pcs D s t <> Out -> pcs D s' t = pcs D s t.
  Proof.
    intros s [u o|u|u a|a] s' t H W N; simpl in H.
    - destruct (pcs D s u) eqn:E; try discriminate. destruct (allowed _ u o); [|discriminate]. injection H as <-. simpl. rewrite upd_other; auto. congruence.
    - assert (Ne : t <> u) by (intros ->; apply W; reflexivity). unfold step_run, tas, fin in H.
      destruct (pcs D s u) as [|[]|o|o|o|o|o|o|o|o|o|o|o| |v|[|v l]| |o|o r]; try discriminate;
        repeat match goal with H : context [match ?x with _ => _ end] |- _ => destruct x eqn:?; try discriminate end; injection H as <-; simpl; now rewrite upd_other.
    - destruct (tarm D s u), (cbs D s a); try discriminate. now injection H as <-.
    - unfold step_cb, tas in H. destruct (cbs D s a); try discriminate; try (now injection H as <-). destruct (cvl D s); [discriminate|]. now injection H as <-.
  Qed.
  Lemma cbs_frame : forall s l s' a, step s l = Some s' -> cwho l <> Some (2 * a + 1) -> cbs D s a <> CNone -> cbs D s' a = cbs D s a.
  Proof.
    intros s [u o|u|u b|b] s' a H W N; simpl in H.
    - destruct (pcs D s u) eqn:E; try discriminate. destruct (allowed _ u o); [|discriminate]. now injection H as <-.
    - unfold step_run, tas, fin in H.
      destruct (pcs D s u) as [|[]|o|o|o|o|o|o|o|o|o|o|o| |v|[|v l]| |o|o r]; try discriminate;
        repeat match goal with H : context [match ?x with _ => _ end] |- _ => destruct x eqn:?; try discriminate end; now injection H as <-.
    - destruct (tarm D s u), (cbs D s b) eqn:E; try discriminate. injection H as <-. simpl. rewrite upd_other; auto. congruence.
    - assert (Ne : a <> b) by (intros ->; apply W; reflexivity). unfold step_cb, tas in H. destruct (cbs D s b); try discriminate; try (injection H as <-; simpl; now rewrite upd_other).
      destruct (cvl D s); [discriminate|]. injection H as <-. simpl. now rewrite upd_other.
  Qed.
  Lemma who_run : forall l t, cwho l = Some (2 * t) -> l = Run t.
  Proof. intros [u o|u|u a|a] t E; simpl in E; try discriminate; injection E as E; [f_equal; lia|lia]. Qed.
  Lemma who_cb : forall l a, cwho l = Some (2 * a + 1) -> l = CbRun a.
  Proof. intros [u o|u|u b|b] a E; simpl in E; try discriminate; injection E as E; [lia|f_equal; lia]. Qed.

  (** A coroutine that can go on again and again does so. *)
  Lemma goes : forall t n p, pcs D (st n) t = p -> p <> Out -> (forall m, n <= m -> exists k, m <= k /\ (pcs D (st k) t = p -> step (st k) (Run t) <> None)) ->
    exists m, n <= m /\ pcs D (st m) t = p /\ step_run D modf pred (st m) t = Some (st (S m)).
  Proof.
    intros t n p E N Ab. destruct (comes (fun s => pcs D s t = p) (2 * t) n) as (m&L&(l&El&W)&Em); auto.
    - intros s l s' P H W. rewrite <- P. eapply pcs_frame; eauto. now rewrite P.
    - intros m L. destruct (Ab m L) as (k&Lk&A). exists k. split; auto. intros P. specialize (A P). destruct (step (st k) (Run t)) as [s'|] eqn:Es; [|contradiction]. exists (Run t), s'. auto.
    - exists m. repeat split; auto. apply who_run in W. subst l. pose proof (proj2 EX m) as H. rewrite El in H. exact H.
  Qed.
  Lemma goes_cb : forall a n p, cbs D (st n) a = p -> p <> CNone -> (forall m, n <= m -> exists k, m <= k /\ (cbs D (st k) a = p -> step (st k) (CbRun a) <> None)) ->
    exists m, n <= m /\ cbs D (st m) a = p /\ step_cb D (st m) a = Some (st (S m)).
  Proof.
    intros a n p E N Ab. destruct (comes (fun s => cbs D s a = p) (2 * a + 1) n) as (m&L&(l&El&W)&Em); auto.
    - intros s l s' P H W. rewrite <- P. eapply cbs_frame; eauto. now rewrite P.
    - intros m L. destruct (Ab m L) as (k&Lk&A). exists k. split; auto. intros P. specialize (A P). destruct (step (st k) (CbRun a)) as [s'|] eqn:Es; [|contradiction]. exists (CbRun a), s'. auto.
    - exists m. repeat split; auto. apply who_cb in W. subst l. pose proof (proj2 EX m) as H. rewrite El in H. exact H.
  Qed.
  (** Where a coroutine can always go on. *)
  Definition always (p : pc) : bool :=
    match p with
    | PDo OUnlock | PDo (OMod _) | PTim _ | W2 _ | W3 _ | W4 _ | W5 _ | W8 _ | W9 _ | N2 | N3 _ | A2 _ | A3 | N4 _ | PRet _ _ => true
    | _ => false
    end.
  Lemma goes_always : forall t n p, pcs D (st n) t = p -> always p = true -> exists m, n <= m /\ pcs D (st m) t = p /\ step_run D modf pred (st m) t = Some (st (S m)).
  Proof.
    intros t n p E A. apply goes with (1 := E); [intros ->; discriminate A|]. intros m L. exists m. split; auto. intros P. simpl. unfold step_run. rewrite P.
    destruct p as [|[]|o|o|o|o|o|o|o|o|o|o|o| |v|[|v l]| |o|o r]; try discriminate A; try discriminate. destruct (wq D (st m)); discriminate.
  Qed.

  (** The spin lock is free again and again. *)
  Definition rk (p : pc) : nat :=
    match p with W2 _ => 4 | W3 _ => 3 | W4 _ => 2 | W5 _ => 1 | N2 => 3 | N3 _ => 2 | A2 l => 3 + length l | A3 => 2 | N4 _ => 1 | _ => 0 end.
  Lemma spin_t : forall j t n, cvh (pcs D (st n) t) = true -> rk (pcs D (st n) t) <= j -> exists m, n <= m /\ cvl D (st m) = None.
  Proof.
    induction j as [|j IH]; intros t n C R; [destruct (pcs D (st n) t); simpl in C, R; try discriminate C; lia|].
    destruct (goes_always t n _ eq_refl) as (m&L&E&H); [destruct (pcs D (st n) t); try discriminate C; reflexivity|].
    assert (X : cvl D (st (S m)) = None \/ cvh (pcs D (st (S m)) t) = true /\ rk (pcs D (st (S m)) t) <= j).
    { unfold step_run in H. rewrite E in H. destruct (pcs D (st n) t) as [|o|o|o|o|o|o|o|o|o|o|o|o| |v|[|v l]| |o|o r]; simpl in C, R; try discriminate C;
        try (injection H as <-; simpl; rewrite ?upd_same; simpl; first [now left | right; split; [reflexivity|lia]]).
      destruct (wq D (st m)); injection H as <-; simpl; rewrite upd_same; simpl; right; split; auto; lia. }
    destruct X as [X|(X&Y)]; [exists (S m); split; [lia|auto]|]. destruct (IH t (S m) X Y) as (k&Lk&K). exists k. split; [lia|auto].
  Qed.
  Definition rkc (p : cbpc) : nat := match p with CRem _ => 4 | CFlag _ => 3 | CLeave _ => 2 | CRel => 1 | _ => 0 end.
  Lemma goes_cb_always : forall a n p, cbs D (st n) a = p -> cbh p = true -> exists m, n <= m /\ cbs D (st m) a = p /\ step_cb D (st m) a = Some (st (S m)).
  Proof.
    intros a n p E A. apply goes_cb with (1 := E); [intros ->; discriminate A|]. intros m L. exists m. split; auto. intros P. simpl. unfold step_cb. rewrite P.
    destruct p; try discriminate A; discriminate.
  Qed.
  Lemma spin_cb : forall j a n, cbh (cbs D (st n) a) = true -> rkc (cbs D (st n) a) <= j -> exists m, n <= m /\ cvl D (st m) = None.
  Proof.
    induction j as [|j IH]; intros a n C R; [destruct (cbs D (st n) a); simpl in C, R; try discriminate C; lia|].
    destruct (goes_cb_always a n _ eq_refl C) as (m&L&E&H).
    assert (X : cvl D (st (S m)) = None \/ cbh (cbs D (st (S m)) a) = true /\ rkc (cbs D (st (S m)) a) <= j).
    { unfold step_cb in H. rewrite E in H. destruct (cbs D (st n) a); simpl in C, R; try discriminate C;
        (injection H as <-; simpl; rewrite ?upd_same; simpl; first [now left | right; split; [reflexivity|lia]]). }
    destruct X as [X|(X&Y)]; [exists (S m); split; [lia|auto]|]. destruct (IH a (S m) X Y) as (k&Lk&K). exists k. split; [lia|auto].
  Qed.
  Lemma spin_free : forall n, exists m, n <= m /\ cvl D (st m) = None.
  Proof.
    intros n. destruct (cvl D (st n)) as [[t|a]|] eqn:E; [| |eauto].
    - apply (i_cv _ _ _ _ _ (ex_inv n)) in E. apply (spin_t _ t n E (le_n _)).
    - apply (i_cb _ _ _ _ _ (ex_inv n)) in E. apply (spin_cb _ a n E (le_n _)).
  Qed.
  Lemma goes_spin : forall t n p, pcs D (st n) t = p -> (exists o, p = W1 o \/ p = N1 o) -> exists m, n <= m /\ pcs D (st m) t = p /\ step_run D modf pred (st m) t = Some (st (S m)).
  Proof.
    intros t n p E (o&A). apply goes with (1 := E); [destruct A as [-> | ->]; discriminate|]. intros m L. destruct (spin_free m) as (k&Lk&K). exists k. split; auto. intros P. simpl. unfold step_run, tas.
    rewrite P, K. destruct A as [-> | ->]; discriminate.
  Qed.

  (** Who holds the user lock keeps it or frees it. *)
  Lemma ulk_step : forall s l s' t, step s l = Some s' -> ulk D s = Some t -> ulk D s' = Some t \/ ulk D s' = None.
  Proof.
    intros s [u o|u|u b|b] s' t H E; simpl in H.
    - destruct (pcs D s u); try discriminate. destruct (allowed _ u o); [|discriminate]. injection H as <-. auto.
    - unfold step_run, tas, fin in H. rewrite E in H.
      destruct (pcs D s u) as [|[]|o|o|o|o|o|o|o|o|o|o|o| |v|[|v l]| |o|o r]; try discriminate;
        repeat match goal with H : context [match ?x with _ => _ end] |- _ => destruct x eqn:?; try discriminate end; injection H as <-; simpl; auto.
    - destruct (tarm D s u), (cbs D s b) eqn:Eb; try discriminate. injection H as <-. auto.
    - unfold step_cb, tas in H. destruct (cbs D s b); try discriminate; try (injection H as <-; auto). destruct (cvl D s); [discriminate|]. injection H as <-. auto.
  Qed.
  Lemma ulk_keep : forall t n, ulk D (st n) = Some t -> forall m, n <= m -> ulk D (st m) = Some t \/ exists k, n <= k <= m /\ ulk D (st k) = None.
  Proof.
    intros t n E m L. induction L as [|m L [IH|(k&K&F)]]; [now left| |right; exists k; split; [lia|auto]]. pose proof (proj2 EX m) as H.
    destruct (lb m) as [l|]; [|rewrite H; now left]. destruct (ulk_step _ _ _ _ H IH) as [F|F]; [now left|right; exists (S m); split; [lia|auto]].
  Qed.
  (** The way from a call that gives the lock up to the place where it does. *)
  Definition pre (p : pc) : bool := match p with PDo OUnlock | PTim _ | W1 _ | W2 _ | W3 _ => true | _ => false end.
  Definition rp (p : pc) : nat := match p with PDo OUnlock => 1 | PTim _ => 4 | W1 _ => 3 | W2 _ => 2 | W3 _ => 1 | _ => 0 end.
  Lemma pre_frees : forall j t n, pre (pcs D (st n) t) = true -> rp (pcs D (st n) t) <= j -> exists m, n <= m /\ ulk D (st m) = None.
  Proof.
    induction j as [|j IH]; intros t n C R; [destruct (pcs D (st n) t) as [|[]| | | | | | | | | | | | | | | | | ]; simpl in C, R; try discriminate C; lia|].
    assert (G : exists m, n <= m /\ pcs D (st m) t = pcs D (st n) t /\ step_run D modf pred (st m) t = Some (st (S m))).
    { destruct (pcs D (st n) t) as [|[]|o|o|o|o|o|o|o|o|o|o|o| |v|l| |o|o r] eqn:E; simpl in C; try discriminate C; [eapply goes_always; eauto|eapply goes_always; eauto|eapply goes_spin; eauto|eapply goes_always; eauto|eapply goes_always; eauto]. }
    destruct G as (m&L&E&H).
    assert (X : ulk D (st (S m)) = None \/ pre (pcs D (st (S m)) t) = true /\ rp (pcs D (st (S m)) t) <= j).
    { unfold step_run, tas in H. rewrite E in H. destruct (pcs D (st n) t) as [|[]|o|o|o|o|o|o|o|o|o|o|o| |v|l| |o|o r]; simpl in C, R; try discriminate C;
        try (destruct (cvl D (st m)); [discriminate H|]); (injection H as <-; simpl; rewrite ?upd_same; simpl; first [now left | right; split; [reflexivity|lia]]). }
    destruct X as [X|(X&Y)]; [exists (S m); split; [lia|auto]|]. destruct (IH t (S m) X Y) as (k&Lk&K). exists k. split; [lia|auto].
  Qed.
  (** Who holds the lock after it has returned. *)
  Definition kept (t : tid) (s : cst D) : Prop := ulk D s = Some t /\ (holds (hist D s) t = true \/ pre (pcs D s t) = true).
  Lemma kept_step : forall s l s' t, Inv D d0 modf pred s -> step s l = Some s' -> kept t s -> kept t s' \/ ulk D s' = None.
  Proof.
    intros s l s' t HI H (E&Q). destruct (ulk_step _ _ _ _ H E) as [F|F]; [|now right].
    assert (X : (holds (hist D s') t = true \/ pre (pcs D s' t) = true) \/ ulk D s' = None); [|destruct X; [left; split; auto|auto]].
    destruct l as [u o|u|u b|b]; simpl in H.
    - destruct (pcs D s u) eqn:Ep; try discriminate. destruct (allowed _ u o); [|discriminate]. injection H as <-. cbn [log set_pc hist pcs holds].
      destruct (Nat.eqb_spec u t) as [->|N]; [|simpl; rewrite upd_other by auto; now left]. rewrite upd_same. left. simpl andb. destruct Q as [Q|Q]; [|rewrite Ep in Q; discriminate Q].
      destruct o; simpl; auto.
    - destruct (Nat.eq_dec u t) as [->|N].
      + unfold step_run, tas, fin in H. rewrite E in H.
        destruct (pcs D s t) as [|[]|o|o|o|o|o|o|o|o|o|o|o| |v|[|v l]| |o|o r] eqn:Ep; try discriminate; simpl in Q;
        repeat match goal with H : context [match ?x with _ => _ end] |- _ => destruct x eqn:?; try discriminate end; injection H as <-; cbn [log set_pc set_cvl set_wq set_tmo set_ulk set_dat set_mk set_tarm hist pcs ulk] in *; rewrite ?upd_same; simpl; rewrite ?Nat.eqb_refl; auto;
          try (destruct Q as [Q|Q]; [left; left; destruct o; simpl; auto|discriminate Q]); left; left; destruct o, Q; simpl; auto; discriminate.
      + assert (X : pcs D s' t = pcs D s t /\ holds (hist D s') t = holds (hist D s) t); [|destruct X as (->&->); auto].
        unfold step_run, tas, fin in H.
        destruct (pcs D s u) as [|[]|o|o|o|o|o|o|o|o|o|o|o| |v|[|v l]| |o|o r] eqn:Ep; try discriminate;
        repeat match goal with H : context [match ?x with _ => _ end] |- _ => destruct x eqn:?; try discriminate end; injection H as <-; cbn [log set_pc set_cvl set_wq set_tmo set_ulk set_dat set_mk set_tarm hist pcs ulk] in *; rewrite ?upd_other by auto; split; auto.
        simpl. destruct (Nat.eqb_spec u t); [contradiction|reflexivity].
    - destruct (tarm D s u), (cbs D s b) eqn:Eb; try discriminate. injection H as <-. auto.
    - unfold step_cb, tas in H. destruct (cbs D s b); try discriminate; try (injection H as <-; auto). destruct (cvl D s); [discriminate|]. injection H as <-. auto.
  Qed.
  Lemma kept_on : forall t n, kept t (st n) -> forall m, n <= m -> kept t (st m) \/ exists k, n <= k <= m /\ ulk D (st k) = None.
  Proof.
    intros t n E m L. induction L as [|m L [IH|(k&K&F)]]; [now left| |right; exists k; split; [lia|auto]]. pose proof (proj2 EX m) as H.
    destruct (lb m) as [l|]; [|rewrite H; now left]. destruct (kept_step _ _ _ _ (ex_inv m) H IH) as [F|F]; [now left|right; exists (S m); split; [lia|auto]].
  Qed.
  Lemma kept_frees : forall t n, kept t (st n) -> exists m, n <= m /\ ulk D (st m) = None.
  Proof.
    intros t n K. assert (M : exists m, n <= m /\ holds (hist D (st m)) t = false) by (destruct (holds (hist D (st n)) t) eqn:E; eauto).
    destruct M as (m&L&F). destruct (kept_on t n K m L) as [(_&[Q|Q])|(k&Lk&Q)]; [congruence| |exists k; split; [lia|auto]].
    destruct (pre_frees _ t m Q (le_n _)) as (k&Lk&X). exists k. split; [lia|auto].
  Qed.
  (** The lock has been got and the call has not returned yet. *)
  Definition fresh (p : pc) : bool := match p with W8 _ | W9 _ => true | PRet o _ => is_wait o || cvop_eqb o OLock | _ => false end.
  Definition rf (p : pc) : nat := match p with W8 _ => 3 | W9 _ => 2 | PRet _ _ => 1 | _ => 0 end.
  Lemma fresh_frees : forall j t n, ulk D (st n) = Some t -> fresh (pcs D (st n) t) = true -> rf (pcs D (st n) t) <= j -> exists m, n <= m /\ ulk D (st m) = None.
  Proof.
    induction j as [|j IH]; intros t n U C R; [destruct (pcs D (st n) t); simpl in C, R; try discriminate C; lia|].
    destruct (goes_always t n _ eq_refl) as (m&L&E&H); [destruct (pcs D (st n) t); try discriminate C; reflexivity|].
    destruct (ulk_keep t n U (S m)) as [U'|(k&Lk&Uk)]; [lia| |exists k; split; [lia|auto]].
    assert (X : kept t (st (S m)) \/ fresh (pcs D (st (S m)) t) = true /\ rf (pcs D (st (S m)) t) <= j).
    { pose proof (ti_wt _ _ _ _ _ _ _ _ (i_t _ _ _ _ _ (ex_inv n) t)) as Wt.
      unfold kept. unfold step_run, fin in H. rewrite E in H. destruct (pcs D (st n) t) as [|o|o|o|o|o|o|o|o|o|o|o|o| |v|l| |o|o r]; simpl in C, R, Wt; try discriminate C.
      - injection H as H. rewrite <- H in *. simpl. rewrite upd_same. simpl in U'. destruct (loops D pred (st m) o); simpl; [left; auto|right; split; auto; lia].
      - injection H as H. rewrite <- H in *. simpl. rewrite upd_same. simpl. rewrite Wt. right. split; auto. lia.
      - injection H as H. rewrite <- H in *. simpl. rewrite Nat.eqb_refl, C. auto. }
    destruct X as [X|(X&Y)]; [destruct (kept_frees t (S m) X) as (k&Lk&K); exists k; split; [lia|auto]|]. destruct (IH t (S m) U' X Y) as (k&Lk&K). exists k. split; [lia|auto].
  Qed.
  Lemma lock_free : forall n, exists m, n <= m /\ ulk D (st m) = None.
  Proof.
    intros n. destruct (ulk D (st n)) as [t|] eqn:U; [|eauto]. pose proof (proj1 (i_lk _ _ _ _ _ (ex_inv n) t) U) as K. pose proof (ti_hb _ _ _ _ _ _ _ _ (i_t _ _ _ _ _ (ex_inv n) t)) as HB.
    destruct (holds (hist D (st n)) t) eqn:Hd; [apply (kept_frees t n); split; auto|].
    destruct (pre (pcs D (st n) t)) eqn:Pr; [apply (kept_frees t n); split; auto|].
    destruct (fresh (pcs D (st n) t)) eqn:Fr; [apply (fresh_frees _ t n U Fr (le_n _))|]. exfalso.
    pose proof (ti_wt _ _ _ _ _ _ _ _ (i_t _ _ _ _ _ (ex_inv n) t)) as Wt.
    destruct (pcs D (st n) t) as [|[]|o|o|o|o|o|o|o|o|o|o|o| |v|l| |o|[] r]; simpl in *; discriminate.
  Qed.
  Lemma goes_lock : forall t n p, pcs D (st n) t = p -> (p = PDo OLock \/ exists o, p = W7 o) -> exists m, n <= m /\ pcs D (st m) t = p /\ step_run D modf pred (st m) t = Some (st (S m)).
  Proof.
    intros t n p E A. apply goes with (1 := E); [destruct A as [->|(o&->)]; discriminate|]. intros m L. destruct (lock_free m) as (k&Lk&K). exists k. split; auto. intros P. simpl. unfold step_run.
    rewrite P, K. destruct A as [->|(o&->)]; discriminate.
  Qed.

  (** A waiter that is off the line wakes up. *)
  Lemma off_step : forall s l s' t o, step s l = Some s' -> cwho l <> Some (2 * t) -> pcs D s t = W6 o -> ~ In t (cline (hist D s)) -> ~ In t (cline (hist D s')).
  Proof.
    intros s l s' t o H W E N. destruct l as [u p|u|u b|b]; simpl in H.
    - destruct (pcs D s u); try discriminate. destruct (allowed _ u p); [|discriminate]. injection H as <-. exact N.
    - assert (Ne : t <> u) by (intros ->; apply W; reflexivity). unfold step_run, tas, fin in H.
      destruct (pcs D s u) as [|[]|p|p|p|p|p|p|p|p|p|p|p| |v|[|v l]| |p|p r] eqn:Ep; try discriminate;
        repeat match goal with H : context [match ?x with _ => _ end] |- _ => destruct x eqn:?; try discriminate end; injection H as <-; simpl; auto;
        try (rewrite in_app_iff; simpl; intros [Q|[Q|[]]]; auto; fail); try (destruct p; simpl; auto; intros Q; apply N; destruct (cline (hist D s)); simpl in *; auto).
    - destruct (tarm D s u), (cbs D s b) eqn:Eb; try discriminate. injection H as <-. exact N.
    - unfold step_cb, tas in H. destruct (cbs D s b); try discriminate; try (injection H as <-; auto); try (destruct (cvl D s); [discriminate|]; injection H as <-; auto).
      simpl. rewrite filter_In. intros (Q&_). auto.
  Qed.
  Lemma wakes : forall t n o, pcs D (st n) t = W6 o -> ~ In t (cline (hist D (st n))) -> exists m, n <= m /\ pcs D (st (S m)) t = W7 o.
  Proof.
    intros t n o E N. destruct (comes (fun s => pcs D s t = W6 o /\ ~ In t (cline (hist D s))) (2 * t) n) as (m&L&(l&El&W)&Em&_); auto.
    - intros s l s' (P&Q) H W. split; [rewrite <- P; eapply pcs_frame; eauto; now rewrite P|eapply off_step; eauto].
    - intros m L. destruct (spin_free m) as (k&Lk&K). exists k. split; auto. intros (P&Q). exists (Run t).
      assert (M : mk D (st k) t = false). { destruct (mk D (st k) t) eqn:M; auto. exfalso. apply Q. apply (i_q _ _ _ _ _ (ex_inv k)). rewrite P. simpl. split; auto. unfold pend. now rewrite K. }
      simpl. unfold step_run. rewrite P, M. eauto.
    - exists m. split; auto. apply who_run in W. subst l. pose proof (proj2 EX m) as H. rewrite El in H. simpl in H. unfold step_run in H. rewrite Em in H.
      destruct (mk D (st m) t); [discriminate H|]. injection H as <-. simpl. now rewrite upd_same.
  Qed.

  (** A call of [t] returns after moment [n]. *)
  Definition returns_after (t : tid) (o : cvop) (n : nat) : Prop := exists m r, n <= m /\ hist D (st (S m)) = ERet t o r :: hist D (st m).
  Lemma ra_le : forall t o n m, n <= m -> returns_after t o m -> returns_after t o n.
  Proof. intros t o n m L (k&r&K&H). exists k, r. split; [lia|auto]. Qed.
  Lemma ret_returns : forall t n o r, pcs D (st n) t = PRet o r -> returns_after t o n.
  Proof.
    intros t n o r E. destruct (goes_always t n _ E eq_refl) as (m&L&Em&H). unfold step_run in H. rewrite Em in H. injection H as H. exists m, r. split; auto. now rewrite <- H.
  Qed.
  Definition tailp (o : cvop) (p : pc) : Prop := p = W6 o \/ p = W7 o \/ p = W8 o \/ p = W9 o \/ exists r, p = PRet o r.
  Lemma tail_returns : forall t n o, (forall m, n <= m -> loops D pred (st m) o = false) -> tailp o (pcs D (st n) t) -> ~ In t (cline (hist D (st n))) -> returns_after t o n.
  Proof.
    intros t n o NL T N.
    assert (R9 : forall m, n <= m -> pcs D (st m) t = W9 o -> returns_after t o n).
    { intros m L E. destruct (goes_always t m _ E eq_refl) as (k&Lk&Ek&H). unfold step_run, fin in H. rewrite Ek in H. injection H as H.
      apply (ra_le t o n (S k)); [lia|]. eapply ret_returns. rewrite <- H. simpl. now rewrite upd_same. }
    assert (R8 : forall m, n <= m -> pcs D (st m) t = W8 o -> returns_after t o n).
    { intros m L E. destruct (goes_always t m _ E eq_refl) as (k&Lk&Ek&H). unfold step_run in H. rewrite Ek, (NL k) in H by lia. injection H as H.
      apply (R9 (S k)); [lia|]. rewrite <- H. simpl. now rewrite upd_same. }
    assert (R7 : forall m, n <= m -> pcs D (st m) t = W7 o -> returns_after t o n).
    { intros m L E. destruct (goes_lock t m _ E) as (k&Lk&Ek&H); [eauto|]. unfold step_run in H. rewrite Ek in H. destruct (ulk D (st k)); [discriminate H|]. injection H as H.
      apply (R8 (S k)); [lia|]. rewrite <- H. simpl. now rewrite upd_same. }
    destruct T as [T|[T|[T|[T|(r&T)]]]]; [|apply (R7 n); auto|apply (R8 n); auto|apply (R9 n); auto|eapply ret_returns; eauto].
    destruct (wakes t n o T N) as (m&L&E). apply (R7 (S m)); [lia|auto].
  Qed.
  Local Notation phase := (phase_of cvop_eqb cvres_eqb).
  Lemma woken_tail : forall t n o, phase (hist D (st n)) t = Some (PPending o) -> stage (hist D (st n)) t = Some WsEntered -> ~ In t (cline (hist D (st n))) -> tailp o (pcs D (st n) t).
  Proof.
    intros t n o P S0 N. pose proof (i_q _ _ _ _ _ (ex_inv n) t) as Q. destruct (i_t _ _ _ _ _ (ex_inv n) t) as [_ T2 (x&T3&T4) _ _ _ _ _ _]. rewrite P in T2. rewrite S0 in T3. injection T3 as <-. unfold tailp.
    destruct (pcs D (st n) t) as [|y|y|y|y|y|y|y|y|y|y|y|y| |v|l| |y|y r]; simpl in T2, T4, Q; try discriminate T4; try discriminate T2; injection T2 as <-; auto; exfalso; apply N, Q; exact I.
  Qed.
  Lemma woken_returns : forall t n o, (forall m, n <= m -> loops D pred (st m) o = false) ->
    phase (hist D (st n)) t = Some (PPending o) -> stage (hist D (st n)) t = Some WsEntered -> ~ In t (cline (hist D (st n))) -> returns_after t o n.
  Proof. intros t n o NL P S0 N. apply tail_returns; auto. now apply woken_tail. Qed.

  (** The other calls. *)
  Lemma notify_returns : forall j t n o, rk (pcs D (st n) t) <= j -> ph_of (pcs D (st n) t) = PDone o ROk -> returns_after t o n.
  Proof.
    induction j as [|j IH]; intros t n o R P.
    - destruct (pcs D (st n) t) eqn:E; simpl in R, P; try discriminate P; try lia. injection P as <- ->. eapply ret_returns; eauto.
    - destruct (goes_always t n _ eq_refl) as (m&L&E&H); [destruct (pcs D (st n) t); try discriminate P; reflexivity|].
      apply (ra_le t o n m L). unfold step_run in H. rewrite E in H.
      destruct (pcs D (st n) t) as [|y|y|y|y|y|y|y|y|y|y|y|y| |v|[|v l]| |y|y r]; simpl in R, P; try discriminate P;
        try (apply (ra_le t o m (S m)); [lia|]; apply IH; injection H as <-; simpl; rewrite upd_same; simpl; [lia|exact P]).
      + apply (ra_le t o m (S m)); [lia|]. apply IH; destruct (wq D (st m)); injection H as <-; simpl; rewrite upd_same; simpl; try lia; exact P.
      + injection P as <- ->. eapply ret_returns; eauto.
  Qed.
  Lemma plain_returns : forall t n o, is_wait o = false -> (phase (hist D (st n)) t = Some (PPending o) \/ exists r, phase (hist D (st n)) t = Some (PDone o r)) -> returns_after t o n.
  Proof.
    intros t n o Wt P. destruct (i_t _ _ _ _ _ (ex_inv n) t) as [T1 T2 _ _ _ _ _ _ _]. destruct P as [P|(r&P)]; rewrite P in T2; injection T2 as T2.
    - destruct (pcs D (st n) t) as [|y|y|y|y|y|y|y|y|y|y|y|y| |v|l| |y|y r] eqn:E; simpl in T1, T2; try discriminate T2; injection T2 as <-; try congruence;
        try (rewrite Wt in T1; discriminate T1).
      + assert (G : exists m, n <= m /\ pcs D (st m) t = PDo o /\ step_run D modf pred (st m) t = Some (st (S m))).
        { destruct o; try discriminate T1; try discriminate Wt; [eapply goes_lock; eauto|eapply goes_always; eauto|eapply goes_always; eauto]. }
        destruct G as (m&L&Em&H). apply (ra_le t o n (S m)); [lia|]. unfold step_run, fin in H. rewrite Em in H.
        destruct o; try discriminate T1; try discriminate Wt; try (destruct (ulk D (st m)); [discriminate H|]); injection H as H; eapply ret_returns; rewrite <- H; simpl; now rewrite upd_same.
      + destruct o; discriminate.
      + destruct (goes_spin t n _ E) as (m&L&Em&H); [eauto|]. apply (ra_le t o n (S m)); [lia|]. unfold step_run, tas in H. rewrite Em in H. destruct (cvl D (st m)); [discriminate H|]. injection H as H.
        eapply notify_returns; [apply le_n|]. rewrite <- H. simpl. rewrite upd_same. destruct o; try discriminate T1; reflexivity.
    - destruct r as [|b].
      + eapply notify_returns; [apply le_n|auto].
      + destruct (pcs D (st n) t) eqn:E; simpl in T2; try discriminate T2. injection T2 as <- <-. eapply ret_returns; eauto.
  Qed.

  (** A wait without predicate whose deadline passes while it is in the line. *)
  Definition tail2 (o : cvop) (p : pc) : Prop := p = W4 o \/ p = W5 o \/ tailp o p.
  Lemma tail2_stays : forall t n o, (forall m, n <= m -> loops D pred (st m) o = false) -> tail2 o (pcs D (st n) t) -> forall m, n <= m -> tail2 o (pcs D (st m) t) \/ returns_after t o n.
  Proof.
    intros t n o NL T m L. induction L as [|m L [IH|IH]]; [now left| |now right]. pose proof (proj2 EX m) as H. destruct (lb m) as [l|] eqn:El; [|rewrite H; now left].
    assert (Dec : cwho l = Some (2 * t) \/ cwho l <> Some (2 * t)) by (destruct (cwho l) as [u|]; [destruct (Nat.eq_dec u (2 * t)) as [->|]; [now left|right; congruence]|right; discriminate]).
    destruct Dec as [W|W].
    - apply who_run in W. subst l. simpl in H. unfold step_run, fin in H. unfold tail2, tailp in *.
      destruct IH as [E|[E|[E|[E|[E|[E|(r&E)]]]]]]; rewrite E in H.
      + injection H as <-. simpl. rewrite upd_same. auto.
      + injection H as <-. simpl. rewrite upd_same. auto.
      + destruct (mk D (st m) t); [discriminate H|]. injection H as <-. simpl. rewrite upd_same. auto 6.
      + destruct (ulk D (st m)); [discriminate H|]. injection H as <-. simpl. rewrite upd_same. auto 7.
      + rewrite (NL m) in H by lia. injection H as <-. simpl. rewrite upd_same. auto 8.
      + injection H as <-. simpl. rewrite upd_same. left. do 6 right. eauto.
      + right. injection H as H. exists m, r. split; auto. now rewrite <- H.
    - left. rewrite (pcs_frame _ _ _ _ H W); auto. intros E. rewrite E in IH. unfold tail2, tailp in IH. destruct IH as [Q|[Q|[Q|[Q|[Q|[Q|(r&Q)]]]]]]; discriminate Q.
  Qed.
  Lemma deadline_returns : forall t n, phase (hist D (st n)) t = Some (PPending OWaitU) -> In t (cline (hist D (st n))) ->
    hist D (st (S n)) = EAux t ADeadline :: hist D (st n) -> returns_after t OWaitU n.
  Proof.
    intros t n P Q Hh. assert (NL : forall m, n <= m -> loops D pred (st m) OWaitU = false) by reflexivity.
    assert (T : tail2 OWaitU (pcs D (st n) t)).
    { apply (i_q _ _ _ _ _ (ex_inv n)) in Q. destruct (i_t _ _ _ _ _ (ex_inv n) t) as [_ T2 _ _ _ _ _ _ _]. rewrite P in T2. injection T2 as T2. unfold tail2, tailp.
      destruct (pcs D (st n) t) as [|y|y|y|y|y|y|y|y|y|y|y|y| |v|l| |y|y r]; simpl in Q, T2; try contradiction; injection T2 as <-; auto. }
    assert (F : exists a, cbs D (st (S n)) a = CReady t).
    { pose proof (proj2 EX n) as H. destruct (lb n) as [l|]; [|rewrite H in Hh; exfalso; exact (cons_neq _ _ _ Hh)]. destruct l as [u o|u|u a|a]; simpl in H.
      - destruct (pcs D (st n) u); try discriminate H. destruct (allowed _ u o); [|discriminate H]. injection H as H. rewrite <- H in Hh. discriminate Hh.
      - exfalso. unfold step_run, tas, fin in H.
        destruct (pcs D (st n) u) as [|[]|o|o|o|o|o|o|o|o|o|o|o| |v|[|v l]| |o|o r]; try discriminate H;
          repeat match type of H with context [match ?x with _ => _ end] => destruct x eqn:?; try discriminate H end; injection H as H; rewrite <- H in Hh; simpl in Hh; try discriminate Hh; exact (cons_neq _ _ _ Hh).
      - destruct (tarm D (st n) u), (cbs D (st n) a) eqn:Eb; try discriminate H. injection H as H. rewrite <- H in Hh. injection Hh as <-. exists a. rewrite <- H. simpl. now rewrite upd_same.
      - exfalso. unfold step_cb, tas in H. destruct (cbs D (st n) a); try discriminate H; try (destruct (cvl D (st n)); [discriminate H|]); injection H as H; rewrite <- H in Hh; simpl in Hh; try discriminate Hh; exact (cons_neq _ _ _ Hh). }
    destruct F as (a&F). destruct (goes_cb a (S n) _ F) as (m&L&E&H); [discriminate| |].
    { intros m L. destruct (spin_free m) as (k&Lk&K). exists k. split; auto. intros Ek. simpl. unfold step_cb, tas. rewrite Ek, K. discriminate. }
    unfold step_cb, tas in H. rewrite E in H. destruct (cvl D (st m)); [discriminate H|]. injection H as H.
    destruct (goes_cb_always a (S m) (CRem t)) as (k&Lk&Ek&Hk); [rewrite <- H; simpl; now rewrite upd_same|reflexivity|].
    unfold step_cb in Hk. rewrite Ek in Hk. injection Hk as Hk.
    assert (N : ~ In t (cline (hist D (st (S k))))) by (rewrite <- Hk; simpl; rewrite filter_In, Nat.eqb_refl; intros (_&X); discriminate X).
    destruct (tail2_stays t n OWaitU NL T (S k)) as [T2|R]; [lia| |auto]. apply (ra_le t OWaitU n (S k)); [lia|].
    apply tail_returns; auto. destruct T2 as [T2|[T2|T2]]; auto; exfalso; apply N; apply (i_q _ _ _ _ _ (ex_inv (S k))); rewrite T2; exact I.
  Qed.
End F.
