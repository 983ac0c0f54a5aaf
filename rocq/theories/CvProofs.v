(** Invariant of the condition variable model. *)
From Coq Require Import List Arith Bool Lia.
From Verif Require Import Base LinSpec LinLemmas CvSpec CvModel.
Import ListNotations.

Lemma op_refl : forall o, cvop_eqb o o = true.
Proof. intros [| |m| |k| |k| |]; simpl; auto using Nat.eqb_refl. Qed.
Lemma res_refl : forall r, cvres_eqb r r = true.
Proof. intros [|b]; simpl; auto using eqb_reflx. Qed.

Local Notation phase := (phase_of cvop_eqb cvres_eqb).

Section Proofs.
  Variables (D : Type) (d0 : D) (modf : nat -> D -> D) (pred : nat -> D -> bool).
  Notation cst := (cst D).
  Notation cstep := (cstep D modf pred).

  (** Which program counters hold the spin lock. *)
  Definition cvh (p : pc) : bool :=
    match p with W2 _ | W3 _ | W4 _ | W5 _ | N2 | N3 _ | A2 _ | A3 | N4 _ => true | _ => false end.
  Definition cbh (c : cbpc) : bool :=
    match c with CRem _ | CFlag _ | CLeave _ | CRel => true | _ => false end.

  (** Shape of program counters. *)
  Definition is_not (o : cvop) : bool := match o with ONotify1 | ONotifyAll => true | _ => false end.
  Definition wt (p : pc) : bool :=
    match p with
    | PDo o => negb (is_wait o) && negb (is_not o)
    | PTim o => is_timed o
    | W1 o | W2 o | W3 o | W4 o | W5 o | W6 o | W7 o | W8 o | W9 o => is_wait o
    | N1 o | N4 o => is_not o
    | _ => true
    end.

  Definition ph_of (p : pc) : LinSpec.phase cvop cvres :=
    match p with
    | Out => PIdle
    | PDo o | PTim o | W1 o | W2 o | W3 o | W4 o | W5 o | W6 o | W7 o | W8 o | W9 o | N1 o => PPending o
    | N2 | N3 _ => PDone ONotify1 ROk
    | A2 _ | A3 => PDone ONotifyAll ROk
    | N4 o => PDone o ROk
    | PRet o r => PDone o r
    end.

  Definition st_ok (p : pc) (x : wstage) : bool :=
    match p, x with
    | PTim _, WsIn => true
    | (W1 _ | W2 _ | W3 _), (WsIn | WsBack) => true
    | (W4 _ | W5 _ | W6 _ | W7 _), WsEntered => true
    | (W8 _ | W9 _), WsBack => true
    | (Out | PDo _ | N1 _ | N2 | N3 _ | A2 _ | A3 | N4 _), WsOut => true
    | PRet o _, WsBack => is_wait o
    | PRet o _, WsOut => negb (is_wait o)
    | _, _ => false
    end.

  (** Does the coroutine hold the user lock?  [hd]: it does according to its API history. *)
  Definition lk (p : pc) (hd : bool) : bool :=
    match p with
    | PDo OLock => false
    | PDo _ => true
    | PTim _ | W1 _ | W2 _ | W3 _ | W8 _ | W9 _ => true
    | W4 _ | W5 _ | W6 _ | W7 _ => false
    | PRet OUnlock _ => false
    | PRet (ONotify1 | ONotifyAll) _ => hd
    | PRet _ _ => true
    | _ => hd
    end.
  Definition hb (p : pc) (hd : bool) : bool :=
    match p with
    | PDo OLock | PDo OUnlock | PRet OUnlock _ => negb hd
    | PDo (OMod _) | PRet (OMod _) _ => hd
    | _ => true
    end.

  Definition parkp (p : pc) : bool := match p with W5 _ | W6 _ => true | _ => false end.

  (** Facts about one coroutine. *)
  Record tinv (p : pc) (m : bool) (tm : bool) (d : D) (h : list cvev) (t : tid) : Prop := mkT {
    ti_wt : wt p = true;
    ti_ph : phase h t = Some (ph_of p);
    ti_st : exists x, stage h t = Some x /\ st_ok p x = true;
    ti_hb : hb p (holds h t) = true;
    ti_mk : m = true -> parkp p = true;
    ti_m5 : forall o, p = W5 o -> m = true;
    ti_p : forall k, p = W9 (OWaitP k) \/ (exists r, p = PRet (OWaitP k) r) \/ p = PRet (OWaitUP k) (RB true) -> pred k d = true;
    ti_u : forall k, p = W9 (OWaitUP k) -> tm = true \/ pred k d = true;
    ti_f : forall o, p = PRet o (RB false) -> tm = true
  }.

  (** Somebody is about to unmark [t]. *)
  Definition pend (s : cst) (t : tid) : Prop :=
    match cvl D s with
    | Some (Th u) => match pcs D s u with
                     | N2 => hd_error (wq D s) = Some t
                     | N3 v => v = t
                     | A2 l => In t l
                     | _ => False
                     end
    | Some (Cb a) => match cbs D s a with CFlag v | CLeave v => v = t | _ => False end
    | None => False
    end.

  Definition wq_ok (s : cst) : Prop :=
    match cvl D s with
    | Some (Th u) => match pcs D s u with
                     | W3 _ => wq D s = cline (hist D s) ++ [u]
                     | N2 => cline (hist D s) = tl (wq D s)
                     | A2 _ | A3 => cline (hist D s) = []
                     | _ => wq D s = cline (hist D s)
                     end
    | _ => wq D s = cline (hist D s)
    end.

  Definition inline (p : pc) (m : bool) (pe : Prop) : Prop :=
    match p with W4 _ | W5 _ => True | W6 _ => m = true /\ ~ pe | _ => False end.

  Definition timed_by (h : list cvev) (t : tid) : Prop := exists o, In (ECall t o) h /\ is_timed o = true.
  Definition timed_pc (p : pc) : bool :=
    match p with
    | PTim o | W1 o | W2 o | W3 o | W4 o | W5 o | W6 o | W7 o | W8 o | W9 o => is_timed o
    | _ => false
    end.

  Record Inv (s : cst) : Prop := mkI {
    i_t : forall t, tinv (pcs D s t) (mk D s t) (tmo D s) (dat D s) (hist D s) t;
    i_cv : forall t, cvl D s = Some (Th t) <-> cvh (pcs D s t) = true;
    i_cb : forall a, cvl D s = Some (Cb a) <-> cbh (cbs D s a) = true;
    i_lk : forall t, ulk D s = Some t <-> lk (pcs D s t) (holds (hist D s) t) = true;
    i_wq : wq_ok s;
    i_nd : NoDup (cline (hist D s));
    i_q : forall t, In t (cline (hist D s)) <-> inline (pcs D s t) (mk D s t) (pend s t);
    i_d : dat D s = shared D d0 modf (hist D s);
    i_po : preds_ok D d0 modf pred (hist D s);
    i_wf : woken_first (hist D s);
    i_fo : false_ok (hist D s);
    i_tm : tmo D s = true -> exists u, In (EAux u ATimeout) (hist D s);
    i_cf : forall a t, cbs D s a = CFlag t -> In (EAux t ATimeout) (hist D s);
    i_tp : forall t, timed_pc (pcs D s t) = true \/ tarm D s t = true -> timed_by (hist D s) t;
    i_tc : forall a t, cbs D s a = CReady t \/ cbs D s a = CRem t -> timed_by (hist D s) t /\ In (EAux t ADeadline) (hist D s);
    i_tt : forall t, In (EAux t ATimeout) (hist D s) -> timed_by (hist D s) t /\ In (EAux t ADeadline) (hist D s)
  }.

  Lemma inv_init : Inv (cinit D d0).
  Proof.
    split; simpl; auto; try (intros; intuition discriminate); try (intros; split; intros; try contradiction; discriminate).
    - intros t. split; try reflexivity; try discriminate.
      + exists WsOut. auto.
      + intros k H. destruct H as [H|[[r H]|H]]; discriminate.
    - apply NoDup_nil.
  Qed.

  Definition inert (e : cvev) (t : tid) : Prop := ev_tid e <> t \/ e = EAux t ATimeout \/ e = EAux t ADeadline.

  Lemma NoDup_app_one : forall (l : list tid) x, NoDup l -> ~ In x l -> NoDup (l ++ [x]).
  Proof.
    induction l as [|a l IH]; intros x Hn Hx; simpl; [repeat constructor; auto|].
    inversion Hn; subst. constructor; [rewrite in_app_iff; simpl in *; intuition|apply IH; simpl in *; intuition].
  Qed.

  Lemma inert_ph : forall e h t, inert e t -> phase (e :: h) t = phase h t.
  Proof.
    intros e h t [H|[-> | ->]]; [now apply phase_other|apply phase_aux|apply phase_aux].
  Qed.
  Lemma inert_st : forall e h t, inert e t -> stage (e :: h) t = stage h t.
  Proof.
    intros e h t [H|[-> | ->]]; try reflexivity.
    apply Nat.eqb_neq in H. destruct e as [u o|u o r|u o r|u []]; simpl in *; rewrite ?H; reflexivity.
  Qed.
  Lemma inert_hd : forall e h t, inert e t -> holds (e :: h) t = holds h t.
  Proof.
    intros e h t [H|[-> | ->]]; try reflexivity.
    apply Nat.eqb_neq in H. destruct e as [u o|u o r|u o r|u []]; simpl in *; rewrite ?H; reflexivity.
  Qed.

  Definition ext (h h' : list cvev) (t : tid) : Prop := h' = h \/ exists e, h' = e :: h /\ inert e t.

  Lemma tinv_frame : forall p m m' tm tm' d d' h h' t,
    tinv p m tm d h t -> ext h h' t -> (tm = true -> tm' = true) ->
    (d' = d \/ lk p (holds h t) = false) -> (m' = true -> m = true) -> ((forall o, p <> W5 o) \/ m' = m) ->
    tinv p m' tm' d' h' t.
  Proof.
    intros p m m' tm tm' d d' h h' t [H1 H2 H3 H4 H5 H6 H7 H8 H9] He Htm Hd Hm Hm5.
    assert (E1 : phase h' t = phase h t) by (destruct He as [->|(e&->&He)]; auto using inert_ph).
    assert (E2 : stage h' t = stage h t) by (destruct He as [->|(e&->&He)]; auto using inert_st).
    assert (E3 : holds h' t = holds h t) by (destruct He as [->|(e&->&He)]; auto using inert_hd).
    split; rewrite ?E1, ?E2, ?E3; auto.
    - intros o ->. destruct Hm5 as [H|H]; [now destruct (H o)|]. rewrite H. eauto.
    - intros k Hp. destruct Hd as [->|Hl]; [now apply H7|].
      destruct Hp as [Hp|[[r Hp]|Hp]]; subst; discriminate.
    - intros k Hp. destruct Hd as [->|Hl]; [destruct (H8 k Hp); auto|]. subst; discriminate.
    - eauto.
  Qed.

  Lemma ext_hd : forall h h' t, ext h h' t -> holds h' t = holds h t.
  Proof. intros h h' t [->|(e&->&He)]; auto using inert_hd. Qed.

  Ltac proj := cbn [CvModel.cvl CvModel.wq CvModel.tmo CvModel.ulk CvModel.dat CvModel.mk CvModel.pcs CvModel.tarm
                    CvModel.cbs CvModel.hist set_pc set_cvl set_wq set_tmo set_ulk set_dat set_mk set_tarm set_cb log fin] in *.
  Ltac cmp a b := destruct (Nat.eq_dec a b) as [?E|?E]; [subst; rewrite ?upd_same in *|rewrite ?upd_other in * by auto].

  Lemma timed_mono : forall e h t, timed_by h t -> timed_by (e :: h) t.
  Proof. intros e h t (o&H&K). exists o. split; [now right|auto]. Qed.

  Lemma inv_call : forall s t o s', Inv s -> cstep s (Call t o) = Some s' -> Inv s'.
  Proof.
    intros s t o s' HI Hs. simpl in Hs. destruct (pcs D s t) eqn:Ep; try discriminate.
    destruct (allowed (hist D s) t o) eqn:Ea; [|discriminate]. injection Hs as <-.
    pose proof (i_t s HI t) as Ht. rewrite Ep in Ht. destruct Ht as [T1 T2 (x&T3&T3') T4 T5 T6 T7 T8 T9].
    destruct x; try discriminate.
    assert (Hm : mk D s t = false). { destruct (mk D s t); auto. discriminate (T5 eq_refl). }
    assert (Hin : forall t', t' <> t -> inert (ECall t o) t') by (intros; left; simpl; auto).
    destruct HI as [It Icv Icb Ilk Iwq Ind Iq Id Ipo Iwf Ifo Itm Icf Itp Itc Itt].
    assert (Hcv : cvl D s <> Some (Th t)). { intros H. apply Icv in H. rewrite Ep in H. discriminate. }
    split; proj; auto.
    - intros t'. cmp t' t.
      + split; auto.
        * destruct o; reflexivity.
        * rewrite phase_call; auto. destruct o; reflexivity.
        * exists (if is_wait o then WsIn else WsOut). simpl. rewrite Nat.eqb_refl, T3. destruct o; simpl; auto.
        * simpl. rewrite Nat.eqb_refl. destruct o; simpl in *; auto.
        * congruence.
        * destruct o; discriminate.
        * intros k H. destruct H as [H|[[r H]|H]]; destruct o; discriminate.
        * intros k H. destruct o; discriminate.
        * intros k H. destruct o; discriminate.
      + eapply tinv_frame; eauto. right. eauto.
    - intros t'. cmp t' t; [|apply Icv]. rewrite Icv, Ep. destruct o; simpl; tauto.
    - intros t'. cmp t' t.
      + rewrite Ilk, Ep. simpl. rewrite Nat.eqb_refl. destruct o; simpl in *; rewrite ?Ea; try tauto;
        destruct (holds (hist D s) t); simpl in *; try discriminate; tauto.
      + rewrite inert_hd by auto. apply Ilk.
    - unfold wq_ok in *. proj. destruct (cvl D s) as [[u|a]|]; auto. cmp u t; [congruence|]. exact Iwq.
    - intros t'. rewrite Iq. unfold pend. proj.
      assert (Hx : forall u, cvl D s = Some (Th u) -> upd (pcs D s) t (entry o) u = pcs D s u).
      { intros u Hu. apply upd_other. congruence. }
      cmp t' t; [rewrite Ep; destruct o; simpl; tauto|].
      destruct (cvl D s) as [[u|a]|]; try tauto. rewrite Hx by auto. tauto.
    - intros H. destruct (Itm H) as [u K]. exists u. now right.
    - intros a t' H. right. eauto.
    - intros t' H. cmp t' t.
      + destruct H as [H|H]; [|apply timed_mono; auto].
        exists o. split; [now left|]. destruct o; simpl in *; auto; discriminate.
      + apply timed_mono. auto.
    - intros a t' H. destruct (Itc a t' H). split; [now apply timed_mono|now right].
    - intros t' [H|H]; [discriminate|]. destruct (Itt t' H). split; [now apply timed_mono|now right].
  Qed.

  Lemma lk_excl : forall s t u, Inv s -> lk (pcs D s t) (holds (hist D s) t) = true ->
    u <> t -> lk (pcs D s u) (holds (hist D s) u) = false.
  Proof.
    intros s t u HI H Hne. destruct (lk (pcs D s u) (holds (hist D s) u)) eqn:E; auto.
    apply (i_lk s HI) in H. apply (i_lk s HI) in E. congruence.
  Qed.

  Lemma inv_gen : forall s s' t p',
    Inv s ->
    (hist D s' = hist D s \/ exists e, hist D s' = e :: hist D s /\ ev_tid e = t) ->
    pcs D s' = upd (pcs D s) t p' -> cbs D s' = cbs D s -> tmo D s' = tmo D s ->
    (forall u, u <> t -> (mk D s' u = true -> mk D s u = true) /\ ((forall o, pcs D s u <> W5 o) \/ mk D s' u = mk D s u)) ->
    (dat D s' = dat D s \/ lk (pcs D s t) (holds (hist D s) t) = true) ->
    tinv p' (mk D s' t) (tmo D s') (dat D s') (hist D s') t ->
    (cvl D s' = Some (Th t) <-> cvh p' = true) ->
    (forall ag, ag <> Th t -> (cvl D s' = Some ag <-> cvl D s = Some ag)) ->
    (ulk D s' = Some t <-> lk p' (holds (hist D s') t) = true) ->
    (forall u, u <> t -> (ulk D s' = Some u <-> ulk D s = Some u)) ->
    wq_ok s' -> NoDup (cline (hist D s')) ->
    (forall u, In u (cline (hist D s')) <-> inline (pcs D s' u) (mk D s' u) (pend s' u)) ->
    dat D s' = shared D d0 modf (hist D s') ->
    preds_ok D d0 modf pred (hist D s') -> woken_first (hist D s') -> false_ok (hist D s') ->
    (timed_pc p' = true \/ tarm D s' t = true -> timed_by (hist D s') t) ->
    (forall u, u <> t -> tarm D s' u = tarm D s u) ->
    (forall u, hist D s' <> EAux u ATimeout :: hist D s) ->
    Inv s'.
  Proof.
    intros s s' t p' HI Hh Hp Hcb Htm Hmk Hd Ht Hcv Hcv' Hlk Hlk' Hwq Hnd Hq Hd' Hpo Hwf Hfo Htp Hta Hno.
    assert (Hext : forall u, u <> t -> ext (hist D s) (hist D s') u).
    { intros u Hu. destruct Hh as [H|(e&H&K)]; [now left|]. right. exists e. split; auto. left. congruence. }
    assert (Hinc : forall e, In e (hist D s) -> In e (hist D s')).
    { intros e He. destruct Hh as [->|(e0&->&_)]; [auto|now right]. }
    assert (Htb : forall u, timed_by (hist D s) u -> timed_by (hist D s') u).
    { intros u (o&H1&H2). exists o. auto. }
    destruct HI as [It Icv Icb Ilk Iwq Ind Iq Id Ipo Iwf Ifo Itm Icf Itp Itc Itt].
    split; auto.
    - intros u. rewrite Hp. cmp u t; [exact Ht|]. destruct (Hmk u E) as [K1 K2].
      apply (tinv_frame _ (mk D s u) _ (tmo D s) _ (dat D s) _ (hist D s)); auto; [congruence|].
      destruct Hd as [Hd|Hd]; [now left|right].
      destruct (lk (pcs D s u) (holds (hist D s) u)) eqn:E'; auto.
      apply Ilk in Hd. apply Ilk in E'. congruence.
    - intros u. rewrite Hp. cmp u t; [exact Hcv|]. rewrite Hcv' by congruence. apply Icv.
    - intros a. rewrite Hcb, Hcv' by congruence. apply Icb.
    - intros u. rewrite Hp. cmp u t; [exact Hlk|]. rewrite Hlk' by auto. rewrite (ext_hd _ _ _ (Hext u E)). apply Ilk.
    - rewrite Htm. intros H. destruct (Itm H) as [u K]. eauto.
    - intros a u. rewrite Hcb. intros H. eauto.
    - intros u. rewrite Hp. cmp u t; [exact Htp|]. rewrite Hta by auto. auto.
    - intros a u. rewrite Hcb. intros H. destruct (Itc a u H). auto.
    - intros u H. assert (K : In (EAux u ATimeout) (hist D s)).
      { destruct Hh as [Hh|(e&Hh&K)]; rewrite Hh in H; auto. destruct H as [->|H]; auto. now destruct (Hno u). }
      destruct (Itt u K). auto.
  Qed.

  Lemma q_quiet : forall s s' t p',
    Inv s -> cvh (pcs D s t) = false -> cvh p' = false ->
    cvl D s' = cvl D s -> wq D s' = wq D s -> cline (hist D s') = cline (hist D s) -> mk D s' = mk D s -> cbs D s' = cbs D s ->
    pcs D s' = upd (pcs D s) t p' ->
    (forall pe, inline p' (mk D s t) pe <-> inline (pcs D s t) (mk D s t) pe) ->
    wq_ok s' /\ NoDup (cline (hist D s')) /\
    (forall u, In u (cline (hist D s')) <-> inline (pcs D s' u) (mk D s' u) (pend s' u)).
  Proof.
    intros s s' t p' HI Hc Hc' E1 E2 E3 E4 E5 E6 Hin.
    assert (Hno : cvl D s <> Some (Th t)) by (intros H; apply (i_cv s HI) in H; congruence).
    assert (Hpend : forall u, pend s' u = pend s u).
    { intros u. unfold pend. rewrite E1, E2, E5, E6. destruct (cvl D s) as [[v|a]|]; auto.
      rewrite upd_other by congruence. reflexivity. }
    split; [|split].
    - pose proof (i_wq s HI) as H. unfold wq_ok in *. rewrite E1, E2, E3, E6. destruct (cvl D s) as [[v|a]|]; auto.
      rewrite upd_other by congruence. exact H.
    - rewrite E3. apply (i_nd s HI).
    - intros u. rewrite E3, E4, Hpend, E6, (i_q s HI). cmp u t; [|tauto]. symmetry. apply Hin.
  Qed.

  Lemma cons_neq : forall A (e : A) h, h <> e :: h.
  Proof. intros A e h H. apply (f_equal (@length A)) in H. simpl in H. lia. Qed.

  (** The standard obligations of [inv_gen]. *)
  Ltac own T2 T3 :=
    let k := fresh "k" in let H := fresh "H" in let r := fresh "r" in
    split; auto; try discriminate;
    try solve [rewrite phase_lin by (auto using op_refl); reflexivity];
    try solve [rewrite phase_aux; exact T2];
    try solve [exact T2];
    try solve [erewrite phase_ret by (eauto using op_refl, res_refl); reflexivity];
    try solve [eexists; split; [exact T3|assumption]];
    try solve [simpl; rewrite ?Nat.eqb_refl, ?T3; simpl; eauto];
    try solve [simpl; rewrite ?Nat.eqb_refl; auto];
    try solve [intros k H; destruct H as [H|[[r H]|H]]; discriminate];
    try congruence.
  Ltac std HI :=
    try solve [simpl; first [apply (i_d _ HI)|apply (i_po _ HI)|apply (i_wf _ HI)|apply (i_fo _ HI)]];
    try solve [intros; discriminate]; try solve [intros; apply cons_neq];
    try solve [apply (i_nd _ HI)];
    try solve [intros; now rewrite upd_other];
    try solve [let K := fresh in intros K; first [apply (i_tp _ HI)|apply timed_mono; apply (i_tp _ HI)];
               match goal with E : pcs _ _ _ = _ |- _ => rewrite E end; simpl in *; tauto];
    try solve [intuition congruence];
    try solve [simpl; rewrite ?Nat.eqb_refl; simpl; intuition congruence].
  Ltac quiet s t HI :=
    match goal with |- Inv ?S =>
      match eval cbn in (pcs D S) with upd _ _ ?p' =>
        let Q := fresh "Q" in
        assert (Q := q_quiet s S t p' HI);
        match goal with E : pcs D s t = _ |- _ => rewrite E in Q end;
        specialize (Q eq_refl eq_refl eq_refl eq_refl eq_refl eq_refl eq_refl eq_refl);
        destruct Q as (?Q1&?Q2&?Q3); [intros; simpl; intuition congruence|]
      end
    end.

  Lemma inline_split : forall p m P, cvh p = false -> (inline p m P <-> inline p m False /\ ~ P).
  Proof. intros p m P H. destruct p; simpl in *; try discriminate; tauto. Qed.
  Lemma inline_mk : forall p P, cvh p = false -> inline p false P -> False.
  Proof. intros p P H. destruct p; simpl in *; try discriminate; try tauto. intros [K _]; discriminate. Qed.

  (** The queue part of a step made while holding the spin lock. *)
  Lemma held : forall s t, Inv s -> cvh (pcs D s t) = true ->
    cvl D s = Some (Th t) /\ (forall u, u <> t -> cvh (pcs D s u) = false).
  Proof.
    intros s t HI H. apply (i_cv s HI) in H. split; auto. intros u Hu.
    destruct (cvh (pcs D s u)) eqn:E; auto. apply (i_cv s HI) in E. congruence.
  Qed.
  Ltac qheld s t HI :=
    let Hc := fresh "Hc" in let Ho := fresh "Ho" in let Iqs := fresh "Iqs" in
    destruct (held s t HI) as [Hc Ho]; [match goal with E : pcs D s t = _ |- _ => rewrite E end; reflexivity|];
    pose proof (i_q s HI) as Iqs; unfold pend in Iqs; rewrite Hc in Iqs;
    unfold wq_ok in *; rewrite Hc in *;
    match goal with E : pcs D s t = _ |- _ => rewrite E in Iqs; rewrite ?E in * end.

  Lemma inv_run : forall s t s', Inv s -> cstep s (Run t) = Some s' -> Inv s'.
  Proof.
    intros s t s' HI Hs. simpl in Hs. unfold step_run, tas in Hs.
    pose proof (i_t s HI t) as Ht.
    pose proof (i_cv s HI t) as Icvt. pose proof (i_lk s HI t) as Ilkt. pose proof (i_q s HI t) as Iqt. pose proof (i_tp s HI t) as Itpt.
    pose proof (i_wq s HI) as Iwq.
    destruct (pcs D s t) as [|o|o|o|o|o|o|o|o|o|o|o|o| |v|l| |o|o r] eqn:Ep; try discriminate.
    all: destruct Ht as [T1 T2 (x&T3&T3') T4 T5 T6 T7 T8 T9]; simpl in T1, T2, T3', T4.
    - (* PDo *) destruct o; try discriminate; destruct x; try discriminate.
      + destruct (ulk D s) eqn:El; [discriminate|]. injection Hs as <-. quiet s t HI.
        eapply inv_gen with (t := t); proj; try reflexivity; eauto; std HI. own T2 T3.
      + injection Hs as <-. quiet s t HI. assert (El : ulk D s = Some t) by (apply Ilkt; reflexivity).
        eapply inv_gen with (t := t); proj; try reflexivity; eauto; std HI. own T2 T3.
      + injection Hs as <-. quiet s t HI.
        eapply inv_gen with (t := t); proj; try reflexivity; eauto; std HI.
        all: try (now own T2 T3). all: try (simpl; now rewrite (i_d s HI)).
    - (* PTim *) destruct x; try discriminate. injection Hs as <-. quiet s t HI. eapply inv_gen with (t := t); proj; try reflexivity; eauto; std HI.
      own T2 T3; destruct o; auto; discriminate.
    - (* W1 *) destruct (cvl D s) eqn:Ec; [discriminate|]. injection Hs as <-. pose proof (i_q s HI) as Iqs. unfold pend in Iqs. unfold wq_ok in *. rewrite Ec in *. eapply inv_gen with (t := t); proj; try reflexivity; eauto; std HI.
      + own T2 T3.
      + unfold wq_ok; proj. rewrite upd_same. exact Iwq.
      + intros u. unfold pend. proj. rewrite upd_same. rewrite Iqs. cmp u t; [rewrite Ep|]; tauto.
    - (* W2 *) injection Hs as <-. qheld s t HI. eapply inv_gen with (t := t); proj; try reflexivity; eauto; std HI.
      + own T2 T3.
      + unfold wq_ok; proj. rewrite Hc, upd_same, Iwq. reflexivity.
      + intros u. unfold pend. proj. rewrite Hc, upd_same. rewrite Iqs. cmp u t; [rewrite Ep|]; tauto.
    - (* W3 *) injection Hs as <-. qheld s t HI. assert (El : ulk D s = Some t) by (apply Ilkt; reflexivity).
      assert (Hnt : ~ In t (cline (hist D s))) by (rewrite Iqs, Ep; simpl; tauto).
      eapply inv_gen with (t := t); proj; try reflexivity; eauto; std HI.
      + own T2 T3. simpl. rewrite Nat.eqb_refl, T3. destruct x; try discriminate; eauto.
      + unfold wq_ok; proj. rewrite Hc, upd_same. simpl. exact Iwq.
      + simpl. apply NoDup_app_one; auto. apply (i_nd s HI).
      + intros u. unfold pend. proj. rewrite Hc, upd_same. simpl. rewrite in_app_iff, Iqs. simpl.
        cmp u t; [rewrite Ep; simpl; tauto|]. assert (t <> u) by congruence. tauto.
    - (* W4 *) injection Hs as <-. qheld s t HI. eapply inv_gen with (t := t); proj; try reflexivity; eauto; std HI.
      + intros u Hu. rewrite upd_other by auto. auto.
      + rewrite upd_same. own T2 T3. 
      + unfold wq_ok; proj. rewrite Hc, upd_same. exact Iwq.
      + intros u. unfold pend. proj. rewrite Hc, upd_same. rewrite Iqs. cmp u t; [rewrite Ep|]; simpl; tauto.
    - (* W5 *) injection Hs as <-. qheld s t HI. eapply inv_gen with (t := t); proj; try reflexivity; eauto; std HI.
      + own T2 T3.
      + intros u. unfold pend. proj. rewrite Iqs. cmp u t; [rewrite Ep|]; simpl; [|tauto]. specialize (T6 o eq_refl). tauto.
    - (* W6 *) destruct (mk D s t) eqn:Em; [discriminate|]. injection Hs as <-. quiet s t HI. eapply inv_gen with (t := t); proj; try reflexivity; eauto; std HI. own T2 T3.
    - (* W7 *) destruct (ulk D s) eqn:El; [discriminate|]. injection Hs as <-. quiet s t HI.
      assert (Hnt : ~ In t (cline (hist D s))) by (rewrite Iqt; simpl; tauto).
      destruct x; try discriminate.
      eapply inv_gen with (t := t); proj; try reflexivity; eauto; std HI.
      + own T2 T3.
      + simpl. split; auto. apply (i_wf s HI).
    - (* W8 *) injection Hs as <-. destruct (loops D pred s o) eqn:Elo; quiet s t HI; destruct x; try discriminate.
      + eapply inv_gen with (t := t); proj; try reflexivity; eauto; std HI. own T2 T3.
      + eapply inv_gen with (t := t); proj; try reflexivity; eauto; std HI. own T2 T3.
        * intros k H. destruct H as [H|[[r H]|H]]; try discriminate. injection H as ->. simpl in Elo. now destruct (pred k (dat D s)).
        * intros k H. injection H as ->. simpl in Elo. destruct (tmo D s); auto. destruct (pred k (dat D s)); auto.
    - (* W9 *) injection Hs as <-. destruct x; try discriminate.
      destruct o; try discriminate; quiet s t HI; eapply inv_gen with (t := t); proj; try reflexivity; eauto; std HI.
      all: try solve [rewrite upd_same; intros [K|K]; discriminate].
      all: own T2 T3; simpl result.
      + intros k0 H. destruct H as [H|[[r H]|H]]; try discriminate. injection H as -> _. apply (T7 k0). auto.
      + intros o H. injection H as _ H. now destruct (tmo D s).
      + intros k0 H. destruct H as [H|[[r H]|H]]; try discriminate. injection H as -> H.
        now apply andb_true_iff in H.
      + intros o H. injection H as _ H. destruct (tmo D s); auto. simpl in H.
        destruct (T8 k eq_refl); congruence.
    - (* N1 *) destruct (cvl D s) eqn:Ec; [discriminate|]. injection Hs as <-. 
      pose proof (i_q s HI) as Iqs. unfold pend in Iqs. unfold wq_ok in *. rewrite Ec in *. 
      assert (Hf : forall u, cvh (pcs D s u) = false).
      { intros u. destruct (cvh (pcs D s u)) eqn:E; auto. apply (i_cv s HI) in E. congruence. }
      pose proof (i_nd s HI) as Ind.
      destruct x; try discriminate. destruct o; try discriminate; eapply inv_gen with (t := t); proj; try reflexivity; eauto; std HI; try (now own T2 T3).
      + unfold wq_ok; proj. rewrite upd_same. simpl. now rewrite Iwq.
      + simpl. destruct (cline (hist D s)); simpl; auto. now inversion Ind.
      + intros u. unfold pend. proj. rewrite upd_same. simpl. cmp u t.
        { simpl. assert (K : ~ In t (cline (hist D s))) by (rewrite Iqs, Ep; simpl; tauto).
          destruct (cline (hist D s)); simpl in *; tauto. }
        rewrite inline_split by auto. rewrite <- Iqs, Iwq. destruct (cline (hist D s)) as [|y r]; simpl; [tauto|].
        inversion Ind; subst. assert (y = u \/ y <> u) as [-> | K] by (destruct (Nat.eq_dec y u); auto); [tauto|].
        assert (Some y <> Some u) by congruence. tauto.
      + unfold wq_ok; proj. rewrite upd_same. reflexivity.
      + simpl. constructor.
      + intros u. unfold pend. proj. rewrite upd_same. simpl. cmp u t; [simpl; tauto|].
        rewrite inline_split by auto. rewrite <- Iqs, Iwq. tauto.
    - (* N2 *) qheld s t HI. destruct (wq D s) as [|u r] eqn:Ew; injection Hs as <-.
      + eapply inv_gen with (t := t); proj; try reflexivity; eauto; std HI.
        * own T2 T3.
        * unfold wq_ok; proj. rewrite Hc, upd_same. simpl in Iwq. congruence.
        * intros u. unfold pend. proj. rewrite Hc, upd_same, Iqs. cmp u t; [rewrite Ep; simpl; tauto|].
          rewrite (inline_split _ _ (hd_error [] = Some u)) by auto. simpl. assert (None <> Some u) by congruence. tauto.
      + eapply inv_gen with (t := t); proj; try reflexivity; eauto; std HI.
        * own T2 T3.
        * unfold wq_ok; proj. rewrite Hc, upd_same. simpl in *. congruence.
        * intros v. unfold pend. proj. rewrite Hc, upd_same, Iqs. cmp v t; [rewrite Ep; simpl; tauto|].
          rewrite (inline_split _ _ (hd_error _ = Some v)) by auto. rewrite (inline_split _ _ (u = v)) by auto. simpl.
          assert (Some u = Some v <-> u = v) by (split; congruence). tauto.
    - (* N3 *) injection Hs as <-. qheld s t HI. eapply inv_gen with (t := t); proj; try reflexivity; eauto; std HI.
      + intros u Hu. unfold upd. destruct (Nat.eqb u v); split; auto; try discriminate.
        left. intros o K. specialize (Ho u Hu). rewrite K in Ho. discriminate.
      + own T2 T3. unfold upd. destruct (Nat.eqb t v); auto; discriminate.
      + unfold wq_ok; proj. rewrite Hc, upd_same. exact Iwq.
      + intros u. unfold pend. proj. rewrite Hc, upd_same, Iqs. cmp u t; [rewrite Ep; simpl; tauto|].
        rewrite (inline_split _ _ (v = u)) by auto. cmp u v.
        * split; [tauto|]. intros K. now apply inline_mk in K; auto.
        * assert (v <> u) by congruence. tauto.
    - (* A2 *) qheld s t HI. destruct l as [|v l]; injection Hs as <-.
      + eapply inv_gen with (t := t); proj; try reflexivity; eauto; std HI.
        * own T2 T3.
        * unfold wq_ok; proj. rewrite Hc, upd_same. exact Iwq.
        * intros u. unfold pend. proj. rewrite Hc, upd_same, Iqs. cmp u t; [rewrite Ep; simpl; tauto|]. simpl. tauto.
      + eapply inv_gen with (t := t); proj; try reflexivity; eauto; std HI.
        * intros u Hu. unfold upd. destruct (Nat.eqb u v); split; auto; try discriminate.
          left. intros o K. specialize (Ho u Hu). rewrite K in Ho. discriminate.
        * own T2 T3. unfold upd. destruct (Nat.eqb t v); auto; discriminate.
        * unfold wq_ok; proj. rewrite Hc, upd_same. exact Iwq.
        * intros u. unfold pend. proj. rewrite Hc, upd_same, Iqs. cmp u t; [rewrite Ep; simpl; tauto|].
          rewrite (inline_split _ _ (In u (v :: l))) by auto. rewrite (inline_split _ _ (In u l)) by auto. simpl. cmp u v.
          -- split; [tauto|]. intros [K _]. now apply inline_mk in K; auto.
          -- assert (v <> u) by congruence. tauto.
    - (* A3 *) injection Hs as <-. qheld s t HI. eapply inv_gen with (t := t); proj; try reflexivity; eauto; std HI.
      + own T2 T3.
      + unfold wq_ok; proj. rewrite Hc, upd_same. auto.
      + intros u. unfold pend. proj. rewrite Hc, upd_same, Iqs. cmp u t; [rewrite Ep|]; simpl; tauto.
    - (* N4 *) injection Hs as <-. qheld s t HI. destruct x; try discriminate. destruct o; try discriminate; eapply inv_gen with (t := t); proj; try reflexivity; eauto; std HI; try (now own T2 T3).
      all: intros u; unfold pend; proj; rewrite Iqs; cmp u t; [rewrite Ep|]; simpl; tauto.
    - (* PRet *) injection Hs as <-.
      assert (Hx : x = if is_wait o then WsBack else WsOut) by (destruct x, o; simpl in *; congruence).
      quiet s t HI. eapply inv_gen with (t := t); proj; try reflexivity; eauto; std HI.
      + split; auto; try discriminate.
        * erewrite phase_ret by (eauto using op_refl, res_refl); reflexivity.
        * simpl. rewrite Nat.eqb_refl, T3, Hx. destruct (is_wait o); simpl; eauto.
        * intros k H. destruct H as [H|[[r0 H]|H]]; discriminate.
      + rewrite Ilkt. simpl. rewrite Nat.eqb_refl. destruct o; simpl in *; rewrite ?T4; try tauto.
        all: destruct (holds (hist D s) t); simpl in *; intuition congruence.
      + destruct o; simpl; try apply (i_po s HI); [split; [|apply (i_po s HI)]; rewrite <- (i_d s HI); apply T7; eauto|].
        destruct r as [|[]]; try apply (i_po s HI). split; [|apply (i_po s HI)]. rewrite <- (i_d s HI). apply T7. auto.
      + destruct r as [|[]]; simpl; try apply (i_fo s HI). split; [|apply (i_fo s HI)]. apply (i_tm s HI). eapply T9. reflexivity.
  Qed.

  Lemma tinv_ext : forall s t tm' m' e, Inv s -> inert e t -> (tmo D s = true -> tm' = true) ->
    (m' = true -> mk D s t = true) -> ((forall o, pcs D s t <> W5 o) \/ m' = mk D s t) ->
    tinv (pcs D s t) m' tm' (dat D s) (e :: hist D s) t.
  Proof.
    intros s t tm' m' e HI He Ht Hm H5. apply (tinv_frame _ (mk D s t) _ (tmo D s) _ (dat D s) _ (hist D s)); auto.
    - apply (i_t s HI).
    - right. eauto.
  Qed.

  Lemma inv_fire : forall s t a s', Inv s -> cstep s (Fire t a) = Some s' -> Inv s'.
  Proof.
    intros s t a s' HI Hs. simpl in Hs. destruct (tarm D s t) eqn:Et; [|discriminate].
    destruct (cbs D s a) eqn:Ea; try discriminate. injection Hs as <-.
    assert (Hin : forall u, inert (EAux t ADeadline) u).
    { intros u. destruct (Nat.eq_dec t u) as [->|H]; [right; right; auto|left; auto]. }
    assert (Hna : cvl D s <> Some (Cb a)) by (intros H; apply (i_cb s HI) in H; rewrite Ea in H; discriminate).
    assert (Hcbs : forall b, cvl D s = Some (Cb b) -> upd (cbs D s) a (CReady t) b = cbs D s b).
    { intros b Hb. apply upd_other. congruence. }
    split; proj; simpl; try apply HI.
    - intros u. apply tinv_ext; auto.
    - intros b. cmp b a; [|apply (i_cb s HI)]. simpl. intuition congruence.
    - intros u. rewrite (i_q s HI). unfold pend. proj. destruct (cvl D s) as [[v|b]|]; try tauto. now rewrite Hcbs by auto.
    - intros H. destruct (i_tm s HI H) as [u K]. eauto.
    - intros b u H. right. cmp b a; [discriminate|]. eapply (i_cf s HI); eauto.
    - intros u H. apply timed_mono. apply (i_tp s HI). cmp u t; [|exact H]. right; exact Et.
    - intros b u H. cmp b a.
      + destruct H as [H|H]; [|discriminate]. injection H as <-. split; [|now left]. apply timed_mono. apply (i_tp s HI); auto.
      + destruct (i_tc s HI b u H). split; [now apply timed_mono|now right].
    - intros u [H|H]; [discriminate|]. destruct (i_tt s HI u H). split; [now apply timed_mono|now right].
  Qed.

  Lemma inv_cb : forall s a s', Inv s -> cstep s (CbRun a) = Some s' -> Inv s'.
  Proof.
    intros s a s' HI Hs. simpl in Hs. unfold step_cb, tas in Hs.
    pose proof (i_cb s HI a) as Icba. pose proof (i_wq s HI) as Iwq. pose proof (i_q s HI) as Iqs.
    pose proof (i_cf s HI) as Icf. pose proof (i_tc s HI) as Itc.
    destruct (cbs D s a) as [|t|t|t|t|] eqn:Ea; try discriminate.
    - destruct (cvl D s) eqn:Ec; [discriminate|]. injection Hs as <-.
      split; proj; simpl; try apply HI.
      + intros u. rewrite <- (i_cv s HI), Ec. intuition congruence.
      + intros b. cmp b a; [simpl; tauto|]. rewrite <- (i_cb s HI), Ec. intuition congruence.
      + unfold wq_ok in *. proj. rewrite Ec in Iwq. exact Iwq.
      + intros u. rewrite Iqs. unfold pend. proj. rewrite Ec, upd_same. tauto.
      + intros b u H. cmp b a; [discriminate|]. eauto.
      + intros b u H. cmp b a; [|eauto]. destruct H as [H|H]; [discriminate|]. injection H as <-. apply (Itc a). auto.
    - injection Hs as <-. assert (Hc : cvl D s = Some (Cb a)) by (apply Icba; reflexivity).
      assert (Hf : forall u, cvh (pcs D s u) = false).
      { intros u. destruct (cvh (pcs D s u)) eqn:E; auto. apply (i_cv s HI) in E. congruence. }
      assert (Hin : forall u, inert (EAux t ATimeout) u).
      { intros u. destruct (Nat.eq_dec t u) as [->|H]; [right; left; auto|left; auto]. }
      unfold pend in Iqs. unfold wq_ok in Iwq. rewrite Hc, Ea in Iqs. rewrite Hc in Iwq.
      split; proj; simpl; try apply HI.
      + intros u. apply tinv_ext; auto.
      + intros b. cmp b a; [simpl; tauto|]. apply (i_cb s HI).
      + unfold wq_ok. proj. rewrite Hc. simpl. now rewrite Iwq.
      + apply NoDup_filter. apply (i_nd s HI).
      + intros u. unfold pend. proj. rewrite Hc, upd_same. rewrite filter_In, Iqs. rewrite (inline_split _ _ (t = u)) by auto.
        rewrite negb_true_iff, Nat.eqb_neq. intuition congruence.
      + intros H. destruct (i_tm s HI H) as [u K]. eauto.
      + intros b u H. cmp b a; [injection H as <-; now left|]. right. eauto.
      + intros u H. apply timed_mono. now apply (i_tp s HI).
      + intros b u H. cmp b a; [destruct H; discriminate|]. destruct (Itc b u H). split; [now apply timed_mono|now right].
      + destruct (Itc a t) as [K1 K2]; [auto|].
        intros u [H|H]; [injection H as <-; split; [now apply timed_mono|now right]|].
        destruct (i_tt s HI u H). split; [now apply timed_mono|now right].
    - injection Hs as <-. assert (Hc : cvl D s = Some (Cb a)) by (apply Icba; reflexivity).
      unfold pend in Iqs. unfold wq_ok in Iwq. rewrite Hc, Ea in Iqs. rewrite Hc in Iwq.
      split; proj; simpl; try apply HI.
      + intros u. apply (tinv_frame _ (mk D s u) _ (tmo D s) _ (dat D s) _ (hist D s)); auto; [apply (i_t s HI)|now left].
      + intros b. cmp b a; [simpl; tauto|]. apply (i_cb s HI).
      + intros u. unfold pend. proj. rewrite Hc, upd_same. apply Iqs.
      + intros _. exists t. apply (Icf a t). auto.
      + intros b u H. cmp b a; [discriminate|]. eauto.
      + intros b u H. cmp b a; [destruct H; discriminate|]. eauto.
    - injection Hs as <-. assert (Hc : cvl D s = Some (Cb a)) by (apply Icba; reflexivity).
      assert (Hf : forall u, cvh (pcs D s u) = false).
      { intros u. destruct (cvh (pcs D s u)) eqn:E; auto. apply (i_cv s HI) in E. congruence. }
      unfold pend in Iqs. unfold wq_ok in Iwq. rewrite Hc, Ea in Iqs. rewrite Hc in Iwq.
      split; proj; simpl; try apply HI.
      + intros u. apply (tinv_frame _ (mk D s u) _ (tmo D s) _ (dat D s) _ (hist D s)); auto; [apply (i_t s HI)|now left| |].
        * unfold upd. destruct (Nat.eqb u t); auto; discriminate.
        * left. intros o K. specialize (Hf u). rewrite K in Hf. discriminate.
      + intros b. cmp b a; [simpl; tauto|]. apply (i_cb s HI).
      + intros u. unfold pend. proj. rewrite Hc, upd_same, Iqs. rewrite (inline_split _ _ (t = u)) by auto.
        cmp u t.
        * split; [tauto|]. intros K. now apply inline_mk in K; auto.
        * assert (t <> u) by congruence. tauto.
      + intros b u H. cmp b a; [discriminate|]. eauto.
      + intros b u H. cmp b a; [destruct H; discriminate|]. eauto.
    - injection Hs as <-. assert (Hc : cvl D s = Some (Cb a)) by (apply Icba; reflexivity).
      unfold pend in Iqs. unfold wq_ok in Iwq. rewrite Hc, Ea in Iqs. rewrite Hc in Iwq.
      split; proj; simpl; try apply HI.
      + intros u. rewrite <- (i_cv s HI), Hc. intuition congruence.
      + intros b. cmp b a; [simpl; intuition congruence|]. rewrite <- (i_cb s HI), Hc. intuition congruence.
      + unfold wq_ok. proj. exact Iwq.
      + intros u. unfold pend. proj. apply Iqs.
      + intros b u H. cmp b a; [discriminate|]. eauto.
      + intros b u H. cmp b a; [destruct H; discriminate|]. eauto.
  Qed.

  Lemma inv_step : forall s l s', Inv s -> cstep s l = Some s' -> Inv s'.
  Proof. intros s [t o|t|t a|a] s'; [apply inv_call|apply inv_run|apply inv_fire|apply inv_cb]. Qed.

  Lemma cv_inv : forall ls s, run cstep (cinit D d0) ls = Some s -> Inv s.
  Proof. intros ls s. apply run_inv; [apply inv_init|apply inv_step]. Qed.

  Lemma cv_excl : forall s t u, Inv s -> holds (hist D s) t = true -> holds (hist D s) u = true ->
    phase (hist D s) t = Some PIdle -> phase (hist D s) u = Some PIdle -> t = u.
  Proof.
    intros s t u HI Ht Hu Pt Pu.
    assert (K : forall v, phase (hist D s) v = Some PIdle -> pcs D s v = Out).
    { intros v Hv. destruct (i_t s HI v) as [_ T2 _ _ _ _ _ _ _]. rewrite T2 in Hv. destruct (pcs D s v); simpl in *; congruence. }
    assert (A : ulk D s = Some t) by (apply (i_lk s HI); rewrite K; auto).
    assert (B : ulk D s = Some u) by (apply (i_lk s HI); rewrite K; auto). congruence.
  Qed.

  (** Nothing inside can move. *)
  Definition quiet (s : cst) : Prop := (forall t, cstep s (Run t) = None) /\ (forall a, cstep s (CbRun a) = None).

  Lemma quiet_unlocked : forall s, Inv s -> quiet s -> cvl D s = None.
  Proof.
    intros s HI [Q1 Q2]. destruct (cvl D s) as [[t|a]|] eqn:Ec; auto; exfalso.
    - pose proof (proj1 (i_cv s HI t) Ec) as H. specialize (Q1 t). simpl in Q1. unfold step_run in Q1.
      destruct (pcs D s t) as [|o|o|o|o|o|o|o|o|o|o|o|o| |v|[|u l]| |o|o r]; try discriminate. destruct (wq D s); discriminate.
    - pose proof (proj1 (i_cb s HI a) Ec) as H. specialize (Q2 a). simpl in Q2. unfold step_cb in Q2.
      destruct (cbs D s a); discriminate.
  Qed.

  Lemma cv_quiet : forall s, Inv s -> quiet s -> forall t o, phase (hist D s) t = Some (PPending o) ->
    (is_wait o = true /\ stage (hist D s) t = Some WsEntered /\ In t (cline (hist D s))) \/
    ((o = OLock \/ is_wait o = true /\ stage (hist D s) t = Some WsEntered) /\
     exists u, phase (hist D s) u = Some PIdle /\ holds (hist D s) u = true).
  Proof.
    intros s HI HQ t o Hp. pose proof (quiet_unlocked s HI HQ) as Hc. destruct HQ as [Q1 Q2].
    assert (HL : forall u, ulk D s = Some u -> phase (hist D s) u = Some PIdle /\ holds (hist D s) u = true).
    { intros u Hu. pose proof (Q1 u) as Qu. simpl in Qu. unfold step_run, tas in Qu. rewrite Hc in Qu.
      destruct (i_t s HI u) as [U1 U2 _ _ _ _ _ _ _]. pose proof (proj1 (i_lk s HI u) Hu) as Hl.
      rewrite U2. destruct (pcs D s u) as [|o1|o1|o1|o1|o1|o1|o1|o1|o1|o1|o1|o1| |v|[|u1 l]| |o1|o1 r]; simpl in *; try discriminate; auto.
      - destruct o1; try discriminate.
      - destruct (wq D s); discriminate. }
    pose proof (Q1 t) as Qt. simpl in Qt. unfold step_run, tas in Qt. rewrite Hc in Qt.
    destruct (i_t s HI t) as [U1 U2 (x&U3&U4) _ _ _ _ _ _]. rewrite U2 in Hp.
    pose proof (i_q s HI t) as Iq. unfold pend in Iq. rewrite Hc in Iq.
    destruct (pcs D s t) as [|o1|o1|o1|o1|o1|o1|o1|o1|o1|o1|o1|o1| |v|[|u1 l]| |o1|o1 r]; simpl in *; try discriminate;
      injection Hp as ->.
    - destruct o; try discriminate. destruct (ulk D s) as [u|] eqn:El; [|discriminate]. right. split; auto. exists u. auto.
    - destruct x; try discriminate. destruct (mk D s t); [|discriminate]. left. rewrite Iq. auto.
    - destruct x; try discriminate. destruct (ulk D s) as [u|] eqn:El; [|discriminate]. right. split; [auto|]. exists u. auto.
  Qed.

  Lemma cv_quiet_done : forall s, Inv s -> quiet s -> forall t o r, phase (hist D s) t <> Some (PDone o r).
  Proof.
    intros s HI HQ t o r Hp. destruct HQ as [Q1 Q2]. pose proof (Q1 t) as Qt. simpl in Qt. unfold step_run, tas in Qt.
    destruct (i_t s HI t) as [U1 U2 _ _ _ _ _ _ _]. rewrite U2 in Hp.
    destruct (pcs D s t) as [|o1|o1|o1|o1|o1|o1|o1|o1|o1|o1|o1|o1| |v|[|u1 l]| |o1|o1 r1]; simpl in *; try discriminate.
    destruct (wq D s); discriminate.
  Qed.

  Lemma no_timed_no_call : forall h t, no_timed h -> ~ timed_by h t.
  Proof.
    intros h t Hn (o&Hi&Ho). induction h as [|e h IH]; [contradiction|].
    destruct Hi as [->|Hi]; simpl in *; [destruct Hn; congruence|].
    apply IH; auto. destruct e; simpl in *; tauto.
  Qed.

  Lemma cv_no_timeout : forall s, Inv s -> no_timed (hist D s) -> forall t, ~ In (EAux t ATimeout) (hist D s).
  Proof. intros s HI Hn t H. apply (no_timed_no_call (hist D s) t Hn). now apply (i_tt s HI). Qed.
End Proofs.
