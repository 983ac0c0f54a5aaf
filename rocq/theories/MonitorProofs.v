(** Generic facts about monitors, for every instance. *)
From Coq Require Import List Arith Bool Lia.
From Verif Require Import Base LinSpec LinLemmas Monitor.
Import ListNotations.
Set Implicit Arguments.

Section MP.
  Variables (D Op Res Aux Loc : Type).
  Variables (op_eqb : Op -> Op -> bool) (res_eqb : Res -> Res -> bool).
  Hypothesis op_refl : forall o, op_eqb o o = true.
  Hypothesis res_refl : forall r, res_eqb r r = true.
  Variable entry : Op -> Loc.
  Variable body : tid -> Loc -> bool -> D -> outcome D Res Aux Loc.

  Notation mst := (mst D Op Res Aux Loc).
  Notation step := (mstep entry body).

  Definition ph_of (x : tst Op Res Loc) : phase Op Res :=
    match x with
    | TOut => PIdle
    | TReady o _ | TWait _ o _ | TWoken _ o _ => PPending o
    | TDone o r => PDone o r
    end.

  Record WF (s : mst) : Prop := mkWF {
    w_nodup : forall c, NoDup (qs s c);
    w_q : forall t c, In t (qs s c) <-> exists o l, ths s t = TWait c o l;
    w_wnodup : forall c, NoDup (wk s c);
    w_wk : forall t c, In t (wk s c) <-> exists o l, ths s t = TWoken c o l;
    w_ph : forall t, phase_of op_eqb res_eqb (mhist s) t = Some (ph_of (ths s t))
  }.

  Lemma wf_init : forall d, WF (minit Op Res Aux Loc d).
  Proof.
    intros d. constructor; simpl; intros; try constructor; try reflexivity; try contradiction;
    intros (?&?&?); discriminate.
  Qed.

  Lemma NoDup_snoc : forall (A : Type) (l : list A) x, NoDup l -> ~ In x l -> NoDup (l ++ [x]).
  Proof.
    induction l as [|a l IH]; intros x Hn Hx; simpl.
    - constructor; [easy|constructor].
    - inversion Hn; subst. constructor.
      + rewrite in_app_iff. simpl. intros [H|[H|[]]]; [contradiction|subst; apply Hx; now left].
      + apply IH; [assumption|]. intro H; apply Hx; now right.
  Qed.

  Lemma wf_notify1 : forall s c, WF s -> WF (notify1 s c).
  Proof.
    intros s c HW. unfold notify1. destruct (qs s c) as [|t r] eqn:Eq; [exact HW|].
    destruct HW as [H1 H2 H3 H4 H5].
    assert (Ht : exists o l, ths s t = TWait c o l) by (apply H2; rewrite Eq; now left).
    destruct Ht as (o&l&Ht).
    assert (Hn := H1 c). rewrite Eq in Hn. inversion Hn as [|? ? Hnin Hnd]; subst.
    constructor; simpl.
    - intros c'. unfold upd at 1. destruct (Nat.eqb_spec c' c); auto.
    - intros u c'. destruct (Nat.eq_dec u t) as [->|Hu].
      + rewrite upd_same, Ht. simpl. split.
        * intros Hin. exfalso. unfold upd in Hin. destruct (Nat.eqb_spec c' c); [contradiction|].
          apply H2 in Hin. destruct Hin as (?&?&?). congruence.
        * intros (?&?&?). discriminate.
      + rewrite (upd_other (ths s)) by assumption. rewrite <- H2.
        unfold upd. destruct (Nat.eqb_spec c' c) as [->|]; [|tauto].
        rewrite Eq. simpl. split; [tauto|]. intros [?|?]; [congruence|assumption].
    - intros c'. unfold upd at 1. destruct (Nat.eqb_spec c' c); auto.
      apply NoDup_snoc; [apply H3|]. intro Hin. apply H4 in Hin. destruct Hin as (?&?&?). congruence.
    - intros u c'. destruct (Nat.eq_dec u t) as [->|Hu].
      + rewrite upd_same, Ht. simpl. unfold upd. destruct (Nat.eqb_spec c' c) as [->|Hc].
        * split; [intros _; eauto|intros _; apply in_or_app; right; now left].
        * rewrite H4, Ht. split; [intros (?&?&?); discriminate|].
          intros (?&?&E). injection E as <- _ _. congruence.
      + rewrite (upd_other (ths s)) by assumption. rewrite <- H4.
        unfold upd. destruct (Nat.eqb_spec c' c) as [->|]; [|tauto].
        rewrite in_app_iff. simpl. intuition congruence.
    - intros u. rewrite H5. destruct (Nat.eq_dec u t) as [->|Hu].
      + now rewrite upd_same, Ht.
      + now rewrite upd_other.
  Qed.

  Lemma wf_notify_n : forall n s c, WF s -> WF (notify_n n s c).
  Proof. induction n as [|n IH]; intros s c H; simpl; auto. apply IH, wf_notify1, H. Qed.

  Lemma wf_notify : forall g s, WF s -> WF (notify s g).
  Proof. intros [c|c] s H; simpl; auto using wf_notify1, wf_notify_n. Qed.

  Lemma wf_notifies : forall sg s, WF s -> WF (fold_left (@notify D Op Res Aux Loc) sg s).
  Proof. induction sg as [|g sg IH]; intros s H; simpl; auto. apply IH, wf_notify, H. Qed.

  Lemma phase_log_aux : forall xs t (h : list (ev Op Res Aux)) u,
    phase_of op_eqb res_eqb (log_aux t xs h) u = phase_of op_eqb res_eqb h u.
  Proof.
    induction xs as [|x xs IH]; intros t h u; simpl; auto. unfold log_aux in *. simpl.
    rewrite IH. apply phase_aux.
  Qed.

  (** Notifying does not change who is not waiting. *)
  Lemma notify1_ths : forall (s : mst) c t, WF s ->
    (forall c' o l, ths s t <> TWait c' o l) -> ths (notify1 s c) t = ths s t.
  Proof.
    intros s c t HW Hn. unfold notify1. destruct (qs s c) as [|u r] eqn:E; auto. simpl.
    destruct (Nat.eq_dec t u) as [->|Hne]; [|now rewrite upd_other].
    exfalso. assert (Hi : In u (qs s c)) by (rewrite E; now left).
    apply (w_q HW) in Hi. destruct Hi as (o&l&Hi). exact (Hn c o l Hi).
  Qed.

  Lemma notify_n_ths : forall n (s : mst) c t, WF s ->
    (forall c' o l, ths s t <> TWait c' o l) -> ths (notify_n n s c) t = ths s t.
  Proof.
    induction n as [|n IH]; intros s c t HW Hn; simpl; auto.
    rewrite IH; [now apply notify1_ths|now apply wf_notify1|].
    intros. rewrite notify1_ths; auto.
  Qed.

  Lemma notify_ths : forall g (s : mst) t, WF s ->
    (forall c' o l, ths s t <> TWait c' o l) -> ths (notify s g) t = ths s t.
  Proof. intros [c|c] s t HW Hn; simpl; auto using notify1_ths, notify_n_ths. Qed.

  Lemma notifies_ths : forall sg (s : mst) t, WF s ->
    (forall c' o l, ths s t <> TWait c' o l) -> ths (fold_left (@notify D Op Res Aux Loc) sg s) t = ths s t.
  Proof.
    induction sg as [|g sg IH]; intros s t HW Hn; simpl; auto.
    rewrite IH; [now apply notify_ths|now apply wf_notify|].
    intros. rewrite notify_ths; auto.
  Qed.

  (** Data and history are not changed by notifications. *)
  Lemma notify1_dat : forall (s : mst) c, dat (notify1 s c) = dat s.
  Proof. intros s c; unfold notify1; destruct (qs s c); reflexivity. Qed.
  Lemma notify1_hist : forall (s : mst) c, mhist (notify1 s c) = mhist s.
  Proof. intros s c; unfold notify1; destruct (qs s c); reflexivity. Qed.
  Lemma notify_n_dat : forall n (s : mst) c, dat (notify_n n s c) = dat s.
  Proof. induction n; intros; simpl; auto. now rewrite IHn, notify1_dat. Qed.
  Lemma notify_n_hist : forall n (s : mst) c, mhist (notify_n n s c) = mhist s.
  Proof. induction n; intros; simpl; auto. now rewrite IHn, notify1_hist. Qed.
  Lemma notify_dat : forall g (s : mst), dat (notify s g) = dat s.
  Proof. intros [c|c] s; simpl; auto using notify1_dat, notify_n_dat. Qed.
  Lemma notify_hist : forall g (s : mst), mhist (notify s g) = mhist s.
  Proof. intros [c|c] s; simpl; auto using notify1_hist, notify_n_hist. Qed.
  Lemma notifies_dat : forall sg (s : mst), dat (fold_left (@notify D Op Res Aux Loc) sg s) = dat s.
  Proof. induction sg as [|g sg IH]; intros; simpl; auto. now rewrite IH, notify_dat. Qed.
  Lemma notifies_hist : forall sg (s : mst), mhist (fold_left (@notify D Op Res Aux Loc) sg s) = mhist s.
  Proof. induction sg as [|g sg IH]; intros; simpl; auto. now rewrite IH, notify_hist. Qed.

  (** Effect of notifications on the queues. *)
  Lemma notify_n_qs_all : forall n (s : mst) c, n >= length (qs s c) ->
    qs (notify_n n s c) c = [].
  Proof.
    induction n as [|n IH]; intros s c Hn; simpl.
    - destruct (qs s c); [reflexivity|simpl in Hn; lia].
    - apply IH. unfold notify1. destruct (qs s c) as [|t r] eqn:E; simpl; [rewrite E; simpl; lia|].
      rewrite upd_same. simpl in Hn. lia.
  Qed.
  Lemma notify1_qs_other : forall (s : mst) c c', c' <> c -> qs (notify1 s c) c' = qs s c'.
  Proof. intros s c c' H. unfold notify1. destruct (qs s c); auto. simpl. now rewrite upd_other. Qed.
  Lemma notify1_wk_other : forall (s : mst) c c', c' <> c -> wk (notify1 s c) c' = wk s c'.
  Proof. intros s c c' H. unfold notify1. destruct (qs s c); auto. simpl. now rewrite upd_other. Qed.
  Lemma notify_n_qs_other : forall n (s : mst) c c', c' <> c -> qs (notify_n n s c) c' = qs s c'.
  Proof. induction n; intros; simpl; auto. now rewrite IHn, notify1_qs_other. Qed.
  Lemma notify_n_wk_other : forall n (s : mst) c c', c' <> c -> wk (notify_n n s c) c' = wk s c'.
  Proof. induction n; intros; simpl; auto. now rewrite IHn, notify1_wk_other. Qed.
  Lemma notify1_qs : forall (s : mst) c, qs (notify1 s c) c = tl (qs s c).
  Proof.
    intros s c. unfold notify1. destruct (qs s c) eqn:E; [exact E|]. simpl. now rewrite upd_same.
  Qed.
  Lemma notify1_wk : forall (s : mst) c, wk (notify1 s c) c = wk s c ++ firstn 1 (qs s c).
  Proof.
    intros s c. unfold notify1. destruct (qs s c) eqn:E; simpl; [now rewrite app_nil_r|].
    now rewrite upd_same.
  Qed.
  Lemma notify_n_wk : forall n (s : mst) c, wk (notify_n n s c) c = wk s c ++ firstn n (qs s c).
  Proof.
    induction n as [|n IH]; intros s c; simpl; [now rewrite app_nil_r|].
    rewrite IH, notify1_wk, notify1_qs. destruct (qs s c); simpl; [now rewrite firstn_nil, !app_nil_r|].
    now rewrite <- app_assoc.
  Qed.

  (** Removing a coroutine that runs from the ghost list. *)
  Definition unwake (s : mst) (t : tid) : mst :=
    match ths s t with
    | TWoken c o l => mkM (dat s) (ths s) (qs s)
                        (upd (wk s) c (filter (fun u => negb (Nat.eqb u t)) (wk s c))) (mhist s)
    | _ => s
    end.

  Lemma filter_notin : forall (l : list tid) t, ~ In t l ->
    filter (fun u => negb (Nat.eqb u t)) l = l.
  Proof.
    induction l as [|a l IH]; intros t H; simpl; auto.
    destruct (Nat.eqb_spec a t) as [->|]; [exfalso; apply H; now left|].
    simpl. f_equal. apply IH. intro; apply H; now right.
  Qed.

  Lemma filter_length_in : forall (l : list tid) t, NoDup l -> In t l ->
    length (filter (fun u => negb (Nat.eqb u t)) l) = length l - 1.
  Proof.
    induction l as [|a l IH]; intros t Hn Hi; simpl; [destruct Hi|].
    inversion Hn; subst. destruct (Nat.eqb_spec a t) as [->|Hne]; simpl.
    - rewrite filter_notin by assumption. symmetry. apply Nat.sub_0_r.
    - destruct Hi as [?|Hi]; [congruence|]. rewrite IH by assumption.
      destruct l; [destruct Hi|simpl; lia].
  Qed.

  (** The state in which a segment of [t] starts: [t] is neither queued nor counted as woken. *)
  Record WFt (s : mst) (t : tid) (o : Op) : Prop := mkWFt {
    v_nodup : forall c, NoDup (qs s c);
    v_q : forall u c, In u (qs s c) <-> exists o l, ths s u = TWait c o l;
    v_wnodup : forall c, NoDup (wk s c);
    v_wk : forall u c, In u (wk s c) <-> u <> t /\ exists o l, ths s u = TWoken c o l;
    v_ph : forall u, phase_of op_eqb res_eqb (mhist s) u = Some (ph_of (ths s u));
    v_t : (exists l, ths s t = TReady o l) \/ (exists c l, ths s t = TWoken c o l)
  }.

  Lemma wf_unwake : forall s t, WF s ->
    (exists o l, ths s t = TReady o l) \/ (exists c o l, ths s t = TWoken c o l) ->
    exists o, WFt (unwake s t) t o.
  Proof.
    intros s t [H1 H2 H3 H4 H5] Ht. unfold unwake.
    destruct Ht as [(o&l&Ht)|(c&o&l&Ht)]; rewrite Ht; exists o.
    - constructor; auto; [|left; eauto]. intros u c. rewrite H4. split.
      + intros (o'&l'&E). split; [congruence|eauto].
      + intros (_&?). assumption.
    - constructor; cbn [dat ths qs wk mhist]; auto; [| |right; eauto].
      + intros c'. unfold upd. destruct (Nat.eqb_spec c' c); auto. apply NoDup_filter, H3.
      + intros u c'. unfold upd. destruct (Nat.eqb_spec c' c) as [->|Hc].
        * rewrite filter_In, H4. destruct (Nat.eqb_spec u t); simpl.
          -- split; [intros [_ ?]; discriminate|intros [? _]; contradiction].
          -- split; intros [? ?]; split; auto.
        * rewrite H4. split.
          -- intros (o'&l'&E). split; [|eauto]. intros ->. rewrite Ht in E. injection E as <- _ _. congruence.
          -- intros (_&?). assumption.
  Qed.


  Definition not_waiting (x : tst Op Res Loc) : Prop :=
    match x with TWait _ _ _ | TWoken _ _ _ => False | _ => True end.

  (** The local effect of a segment, before its notifications. *)
  Lemma wf_local : forall s t o d x h,
    WFt s t o -> not_waiting x ->
    (forall u, u <> t -> phase_of op_eqb res_eqb h u = phase_of op_eqb res_eqb (mhist s) u) ->
    phase_of op_eqb res_eqb h t = Some (ph_of x) ->
    WF (mkM d (upd (ths s) t x) (qs s) (wk s) h).
  Proof.
    intros s t o d x h [H1 H2 H3 H4 H5 H6] Hx Hh Hht.
    constructor; cbn [dat ths qs wk mhist]; auto.
    - intros u c. destruct (Nat.eq_dec u t) as [->|Hu]; [|rewrite upd_other by assumption; apply H2].
      rewrite upd_same. rewrite H2. split.
      + intros (o'&l'&E). destruct H6 as [(l&E')|(c'&l&E')]; congruence.
      + intros (o'&l'&->). destruct Hx.
    - intros u c. destruct (Nat.eq_dec u t) as [->|Hu]; [|rewrite upd_other by assumption].
      + rewrite upd_same. rewrite H4. split; [tauto|]. intros (o'&l'&->). destruct Hx.
      + rewrite H4. tauto.
    - intros u. destruct (Nat.eq_dec u t) as [->|Hu].
      + now rewrite upd_same.
      + rewrite upd_other by assumption. rewrite Hh by assumption. apply H5.
  Qed.

  (** The effect of entering a waiter list. *)
  Lemma wf_enqueue : forall s t c o l,
    WF s -> (exists o' l', ths s t = TReady o' l') ->
    phase_of op_eqb res_eqb (mhist s) t = Some (PPending o) ->
    WF (mkM (dat s) (upd (ths s) t (TWait c o l)) (upd (qs s) c (qs s c ++ [t])) (wk s) (mhist s)).
  Proof.
    intros s t c o l [H1 H2 H3 H4 H5] (o'&l'&Ht) Hp.
    assert (Hnq : forall c', ~ In t (qs s c')).
    { intros c' Hi. apply H2 in Hi. destruct Hi as (?&?&?). congruence. }
    constructor; cbn [dat ths qs wk mhist]; auto.
    - intros c'. unfold upd. destruct (Nat.eqb_spec c' c) as [->|]; auto.
      apply NoDup_snoc; auto.
    - intros u c'. destruct (Nat.eq_dec u t) as [->|Hu].
      + rewrite upd_same. unfold upd. destruct (Nat.eqb_spec c' c) as [->|Hc].
        * split; [eauto|]. intros _. apply in_or_app; right; now left.
        * split; [intros Hi; exfalso; eapply Hnq; eauto|]. intros (?&?&E). injection E as <- _ _. congruence.
      + rewrite (upd_other (ths s)) by assumption. rewrite <- H2. unfold upd.
        destruct (Nat.eqb_spec c' c) as [->|]; [|tauto]. rewrite in_app_iff. simpl. intuition congruence.
    - intros u c'. destruct (Nat.eq_dec u t) as [->|Hu].
      + rewrite upd_same. rewrite H4, Ht. split; intros (?&?&?); discriminate.
      + rewrite (upd_other (ths s)) by assumption. apply H4.
    - intros u. destruct (Nat.eq_dec u t) as [->|Hu].
      + now rewrite upd_same.
      + rewrite upd_other by assumption. apply H5.
  Qed.

  Lemma wft_phase : forall s t o, WFt s t o ->
    phase_of op_eqb res_eqb (mhist s) t = Some (PPending o).
  Proof.
    intros s t o H. rewrite (v_ph H t).
    destruct (v_t H) as [(l&E)|(c&l&E)]; rewrite E; reflexivity.
  Qed.

  Lemma wf_run_body : forall s t o l b, WFt s t o -> WF (run_body body s t o l b).
  Proof.
    intros s t o l b HV. unfold run_body. assert (Hp := wft_phase HV).
    destruct (body t l b (dat s)) as [d xs sg r|d xs sg c l'|d xs sg l'].
    - apply wf_notifies. eapply wf_local; eauto; [exact I| |].
      + intros u Hu. rewrite phase_other by (simpl; congruence). apply phase_log_aux.
      + apply phase_lin; [exact op_refl|]. now rewrite phase_log_aux.
    - assert (HW : WF (mkM d (upd (ths s) t (TReady o l')) (qs s) (wk s) (log_aux t xs (mhist s)))).
      { eapply wf_local; eauto; [exact I| |]; intros; rewrite phase_log_aux; auto. }
      apply wf_enqueue.
      + apply wf_notifies, HW.
      + exists o, l'. rewrite notifies_ths; auto; simpl; [now rewrite upd_same|].
        intros. rewrite upd_same. discriminate.
      + rewrite notifies_hist. simpl. now rewrite phase_log_aux.
    - apply wf_notifies. eapply wf_local; eauto; [exact I| |]; intros; rewrite phase_log_aux; auto.
  Qed.

  Lemma run_unwake : forall s t b s', step s (MRun t b) = Some s' ->
    exists o l, s' = run_body body (unwake s t) t o l b /\
      (ths s t = TReady o l \/ exists c, ths s t = TWoken c o l).
  Proof.
    intros s t b s' H. simpl in H. unfold unwake.
    destruct (ths s t) eqn:E; try discriminate; injection H as <-; eauto 6.
  Qed.

  Lemma wf_step : forall s l s', WF s -> step s l = Some s' -> WF s'.
  Proof.
    intros s [t o|t b|t] s' HW H.
    - simpl in H. destruct (ths s t) eqn:E; try discriminate. injection H as <-.
      destruct HW as [H1 H2 H3 H4 H5]. constructor; cbn [dat ths qs wk mhist]; auto.
      + intros u c. destruct (Nat.eq_dec u t) as [->|Hu]; [|rewrite upd_other by assumption; apply H2].
        rewrite upd_same, H2, E. split; intros (?&?&?); discriminate.
      + intros u c. destruct (Nat.eq_dec u t) as [->|Hu]; [|rewrite upd_other by assumption; apply H4].
        rewrite upd_same, H4, E. split; intros (?&?&?); discriminate.
      + intros u. destruct (Nat.eq_dec u t) as [->|Hu].
        * rewrite upd_same. apply phase_call. rewrite H5, E. reflexivity.
        * rewrite upd_other by assumption. rewrite phase_other by (simpl; congruence). apply H5.
    - apply run_unwake in H. destruct H as (o&l&->&Ht).
      destruct (@wf_unwake s t HW) as (o'&HV).
      { destruct Ht as [Ht|(c&Ht)]; eauto 6. }
      assert (o' = o) as ->.
      { destruct (v_t HV) as [(l'&E)|(c'&l'&E)]; unfold unwake in E;
        destruct Ht as [Ht|(c&Ht)]; rewrite Ht in E; simpl in E; congruence. }
      apply wf_run_body, HV.
    - simpl in H. destruct (ths s t) eqn:E; try discriminate. injection H as <-.
      destruct HW as [H1 H2 H3 H4 H5]. constructor; cbn [dat ths qs wk mhist]; auto.
      + intros u c. destruct (Nat.eq_dec u t) as [->|Hu]; [|rewrite upd_other by assumption; apply H2].
        rewrite upd_same, H2, E. split; intros (?&?&?); discriminate.
      + intros u c. destruct (Nat.eq_dec u t) as [->|Hu]; [|rewrite upd_other by assumption; apply H4].
        rewrite upd_same, H4, E. split; intros (?&?&?); discriminate.
      + intros u. destruct (Nat.eq_dec u t) as [->|Hu].
        * rewrite upd_same. apply phase_ret with (1 := op_refl) (2 := res_refl). now rewrite H5, E.
        * rewrite upd_other by assumption. rewrite phase_other by (simpl; congruence). apply H5.
  Qed.

  (** A state in which no coroutine that is inside a method can move. *)
  Definition quiescent (s : mst) : Prop :=
    forall t, (forall b, step s (MRun t b) = None) /\ step s (MLeave t) = None.

  Lemma quiescent_ths : forall s t, quiescent s ->
    ths s t = TOut \/ exists c o l, ths s t = TWait c o l.
  Proof.
    intros s t H. destruct (H t) as [H1 H2]. specialize (H1 true). simpl in H1, H2.
    destruct (ths s t) eqn:E; try discriminate; eauto 6.
  Qed.

  Lemma quiescent_wk : forall s c, WF s -> quiescent s -> wk s c = [].
  Proof.
    intros s c HW H. destruct (wk s c) as [|t r] eqn:E; auto. exfalso.
    assert (Hi : In t (wk s c)) by (rewrite E; now left).
    apply (w_wk HW) in Hi. destruct Hi as (o&l&Hi).
    destruct (quiescent_ths t H) as [?|(?&?&?&?)]; congruence.
  Qed.

  (** A per-coroutine statement that does not distinguish waiting from woken survives notifications. *)
  Section Thr.
    Variable Q : tid -> tst Op Res Loc -> Prop.
    Hypothesis Qw : forall t x, Q t x -> Q t (woken x).
    Lemma thr_notify1 : forall (s : mst) c, (forall u, Q u (ths s u)) -> forall u, Q u (ths (notify1 s c) u).
    Proof.
      intros s c H u. unfold notify1. destruct (qs s c) as [|t r]; auto. cbn [ths].
      destruct (Nat.eq_dec u t) as [->|Hu]; [rewrite upd_same; auto|rewrite upd_other by assumption; auto].
    Qed.
    Lemma thr_notify_n : forall n (s : mst) c, (forall u, Q u (ths s u)) -> forall u, Q u (ths (notify_n n s c) u).
    Proof.
      induction n as [|n IH]; intros s c H u; cbn [notify_n]; auto. apply IH, thr_notify1, H.
    Qed.
    Lemma thr_notify : forall g (s : mst), (forall u, Q u (ths s u)) -> forall u, Q u (ths (notify s g) u).
    Proof. intros [c|c] s H u; cbn [notify]; [apply thr_notify1, H|apply thr_notify_n, H]. Qed.
    Lemma thr_notifies : forall sg (s : mst), (forall u, Q u (ths s u)) ->
      forall u, Q u (ths (fold_left (@notify D Op Res Aux Loc) sg s) u).
    Proof.
      induction sg as [|g sg IH]; intros s H u; cbn [fold_left]; auto. apply IH, thr_notify, H.
    Qed.
  End Thr.

  Lemma unwake_dat : forall s t, dat (unwake s t) = dat s.
  Proof. intros s t; unfold unwake; destruct (ths s t); reflexivity. Qed.
  Lemma unwake_ths : forall s t, ths (unwake s t) = ths s.
  Proof. intros s t; unfold unwake; destruct (ths s t); reflexivity. Qed.
  Lemma unwake_qs : forall s t, qs (unwake s t) = qs s.
  Proof. intros s t; unfold unwake; destruct (ths s t); reflexivity. Qed.
  Lemma unwake_hist : forall s t, mhist (unwake s t) = mhist s.
  Proof. intros s t; unfold unwake; destruct (ths s t); reflexivity. Qed.

  (** How the ghost list shrinks when [t] starts a segment. *)
  Lemma unwake_wk : forall s t c, WF s ->
    length (wk (unwake s t) c) =
      match ths s t with TWoken c' _ _ => if Nat.eqb c c' then length (wk s c) - 1 else length (wk s c)
                       | _ => length (wk s c) end.
  Proof.
    intros s t c HW. unfold unwake. destruct (ths s t) eqn:E; auto. simpl. unfold upd.
    destruct (Nat.eqb_spec c c0) as [->|]; auto.
    apply filter_length_in; [apply (w_wnodup HW)|]. apply (w_wk HW). eauto.
  Qed.

  (** Queue of cv [c] and woken list of cv [c] after notifications. *)
  Definition sig1 (c : nat) (p : list tid * list tid) (g : sig) : list tid * list tid :=
    match g with
    | SOne c' => if Nat.eqb c c' then (tl (fst p), snd p ++ firstn 1 (fst p)) else p
    | SAll c' => if Nat.eqb c c' then ([], snd p ++ fst p) else p
    end.
  Definition sigq (sg : list sig) (c : nat) (p : list tid * list tid) : list tid * list tid :=
    fold_left (sig1 c) sg p.

  Lemma notify_sig1 : forall g (s : mst) c,
    (qs (notify s g) c, wk (notify s g) c) = sig1 c (qs s c, wk s c) g.
  Proof.
    intros [c'|c'] s c; cbn [notify sig1 fst snd]; destruct (Nat.eqb_spec c c') as [->|Hne].
    - now rewrite notify1_qs, notify1_wk.
    - now rewrite notify1_qs_other, notify1_wk_other.
    - rewrite notify_n_qs_all by lia. now rewrite notify_n_wk, firstn_all.
    - now rewrite notify_n_qs_other, notify_n_wk_other.
  Qed.
  Lemma notifies_sigq : forall sg (s : mst) c,
    (qs (fold_left (@notify D Op Res Aux Loc) sg s) c, wk (fold_left (@notify D Op Res Aux Loc) sg s) c)
    = sigq sg c (qs s c, wk s c).
  Proof.
    induction sg as [|g sg IH]; intros s c; cbn [fold_left]; [reflexivity|].
    rewrite IH. unfold sigq. cbn [fold_left]. f_equal. apply notify_sig1.
  Qed.

  Definition thr_post (s s' : mst) (t : tid) (x : tst Op Res Loc) : Prop :=
    forall Q : tid -> tst Op Res Loc -> Prop,
      (forall u y, Q u y -> Q u (woken y)) ->
      (forall u, u <> t -> Q u (ths s u)) -> Q t x -> forall u, Q u (ths s' u).

  (** Everything an instance needs to know about one segment. *)
  Lemma run_post : forall s t b s', WF s -> step s (MRun t b) = Some s' ->
    exists o l,
      (ths s t = TReady o l \/ exists c, ths s t = TWoken c o l) /\
      match body t l b (dat s) with
      | ORet d xs sg r =>
          dat s' = d /\ mhist s' = ELin t o r :: log_aux t xs (mhist s) /\
          thr_post s s' t (TDone o r) /\
          (forall c, (qs s' c, wk s' c) = sigq sg c (qs s c, wk (unwake s t) c))
      | OWait d xs sg c0 l' =>
          dat s' = d /\ mhist s' = log_aux t xs (mhist s) /\
          thr_post s s' t (TWait c0 o l') /\
          (forall c, (qs s' c, wk s' c) =
             let p := sigq sg c (qs s c, wk (unwake s t) c) in
             (if Nat.eqb c c0 then fst p ++ [t] else fst p, snd p))
      | OAgain d xs sg l' =>
          dat s' = d /\ mhist s' = log_aux t xs (mhist s) /\
          thr_post s s' t (TReady o l') /\
          (forall c, (qs s' c, wk s' c) = sigq sg c (qs s c, wk (unwake s t) c))
      end.
  Proof.
    intros s t b s' HW H. apply run_unwake in H. destruct H as (o&l&->&Ht).
    exists o, l. split; [exact Ht|].
    unfold run_body. rewrite unwake_dat, unwake_hist, unwake_ths, unwake_qs.
    assert (Hthr : forall Q x, (forall u, u <> t -> Q u (ths s u)) -> Q t x ->
                     forall u, Q u (upd (ths s) t x u)).
    { intros Q x Ho Hx u. destruct (Nat.eq_dec u t) as [->|Hu]; [now rewrite upd_same|].
      rewrite upd_other by assumption. auto. }
    destruct (body t l b (dat s)) as [d xs sg r|d xs sg c0 l'|d xs sg l'].
    - rewrite notifies_dat, notifies_hist. split; [reflexivity|]. split; [reflexivity|]. split.
      + intros Q Qw Ho Hx. apply thr_notifies; [exact Qw|]. cbn [ths]. apply (Hthr Q); assumption.
      + intros c. rewrite notifies_sigq. reflexivity.
    - cbn [dat mhist qs wk]. rewrite notifies_dat, notifies_hist. split; [reflexivity|]. split; [reflexivity|]. split.
      + intros Q Qw Ho Hx u. cbn [ths]. destruct (Nat.eq_dec u t) as [->|Hu]; [now rewrite upd_same|].
        rewrite upd_other by assumption.
        assert (G : (fun v y => v <> t -> Q v y) u
                    (ths (fold_left (@notify D Op Res Aux Loc) sg
                       (mkM d (upd (ths s) t (TReady o l')) (qs s) (wk (unwake s t)) (log_aux t xs (mhist s)))) u)).
        { apply (thr_notifies (fun v y => v <> t -> Q v y)); [auto|]. cbn [ths].
          intros v Hv. rewrite upd_other by assumption. auto. }
        exact (G Hu).
      + intros c.
        pose proof (notifies_sigq sg (mkM d (upd (ths s) t (TReady o l')) (qs s) (wk (unwake s t)) (log_aux t xs (mhist s))) c) as E.
        cbn [qs wk] in E. rewrite <- E. cbn [fst snd]. f_equal.
        unfold upd at 1. destruct (Nat.eqb_spec c c0) as [->|]; reflexivity.
    - rewrite notifies_dat, notifies_hist. split; [reflexivity|]. split; [reflexivity|]. split.
      + intros Q Qw Ho Hx. apply thr_notifies; [exact Qw|]. cbn [ths]. apply (Hthr Q); assumption.
      + intros c. rewrite notifies_sigq. reflexivity.
  Qed.

  Lemma call_post : forall s t o s', step s (MCall t o) = Some s' ->
    ths s t = TOut /\ dat s' = dat s /\ qs s' = qs s /\ wk s' = wk s /\
    mhist s' = ECall t o :: mhist s /\ thr_post s s' t (TReady o (entry o)).
  Proof.
    intros s t o s' H. simpl in H. destruct (ths s t) eqn:E; try discriminate. injection H as <-.
    repeat split; auto. intros Q Qw Ho Hx u. cbn [ths].
    destruct (Nat.eq_dec u t) as [->|Hu]; [now rewrite upd_same|]. rewrite upd_other by assumption. auto.
  Qed.

  Lemma leave_post : forall s t s', step s (MLeave t) = Some s' ->
    exists o r, ths s t = TDone o r /\ dat s' = dat s /\ qs s' = qs s /\ wk s' = wk s /\
    mhist s' = ERet t o r :: mhist s /\ thr_post s s' t TOut.
  Proof.
    intros s t s' H. simpl in H. destruct (ths s t) eqn:E; try discriminate. injection H as <-.
    exists o, r.
    repeat split; auto. intros Q Qw Ho Hx u. cbn [ths].
    destruct (Nat.eq_dec u t) as [->|Hu]; [now rewrite upd_same|]. rewrite upd_other by assumption. auto.
  Qed.

  Lemma log_aux_app : forall xs t (h : list (ev Op Res Aux)),
    log_aux t xs h = rev (map (fun x => EAux t x) xs) ++ h.
  Proof.
    induction xs as [|x xs IH]; intros t h; [reflexivity|].
    unfold log_aux in *. cbn [fold_left map rev]. rewrite IH, <- app_assoc. reflexivity.
  Qed.

  (** Histories only grow, and only [MCall] records calls. *)
  Lemma step_hist : forall s l s', WF s -> step s l = Some s' ->
    exists newer, mhist s' = newer ++ mhist s /\
      forall t o, In (ECall t o) newer -> l = MCall t o.
  Proof.
    intros s [t o|t b|t] s' HW H.
    - apply call_post in H. destruct H as (_&_&_&_&->&_). exists [ECall t o]. split; auto.
      intros u p [E|[]]. congruence.
    - apply run_post with (1 := HW) in H. destruct H as (o&l&_&H).
      assert (Hx : forall xs u p, ~ In (ECall u p) (rev (map (fun x : Aux => @EAux Op Res Aux t x) xs))).
      { intros xs u p Hi. rewrite <- in_rev in Hi. apply in_map_iff in Hi. destruct Hi as (?&?&_). discriminate. }
      destruct (body t l b (dat s)) as [d xs sg r|d xs sg c0 l'|d xs sg l'];
        destruct H as (_&->&_&_); rewrite log_aux_app.
      + exists (ELin t o r :: rev (map (fun x => EAux t x) xs)). split; [reflexivity|].
        intros u p [E|Hi]; [discriminate|]. exfalso. eapply Hx; eauto.
      + eexists. split; [reflexivity|]. intros u p Hi. exfalso. eapply Hx; eauto.
      + eexists. split; [reflexivity|]. intros u p Hi. exfalso. eapply Hx; eauto.
    - apply leave_post in H. destruct H as (o&r&_&_&_&_&->&_). exists [ERet t o r]. split; auto.
      intros u p [E|[]]. congruence.
  Qed.

  (** Invariants that hold as long as the history obeys a usage rule. *)
  Lemma run_rule_inv : forall (I : mst -> Prop) (rule : list (ev Op Res Aux) -> Prop) s0,
    (forall newer older, rule (newer ++ older) -> rule older) ->
    WF s0 -> I s0 ->
    (forall s l s', I s -> step s l = Some s' -> rule (mhist s') -> I s') ->
    forall ls s, run step s0 ls = Some s -> rule (mhist s) -> I s.
  Proof.
    intros I rule s0 Hmono HW0 HI0 Hstep ls s Hr.
    assert (G : WF s /\ (rule (mhist s) -> I s)).
    { revert Hr. apply (run_inv step (fun s => WF s /\ (rule (mhist s) -> I s))); [auto|].
      intros s1 l s2 [HW HI] Hs. split; [eapply wf_step; eauto|].
      intros Hru. destruct (@step_hist s1 l s2 HW Hs) as (newer&E&_).
      apply (Hstep s1 l s2); [|exact Hs|exact Hru]. apply HI. rewrite E in Hru. eauto. }
    exact (proj2 G).
  Qed.

  Definition out_sigs (x : outcome D Res Aux Loc) : list sig :=
    match x with ORet _ _ sg _ | OWait _ _ sg _ _ | OAgain _ _ sg _ => sg end.

  (** A segment without notifications leaves the other coroutines where they are. *)
  Lemma run_nosig : forall s t b s' o l, step s (MRun t b) = Some s' ->
    (ths s t = TReady o l \/ exists c, ths s t = TWoken c o l) ->
    out_sigs (body t l b (dat s)) = [] -> forall u, u <> t -> ths s' u = ths s u.
  Proof.
    intros s t b s' o l H Ht Hs u Hu. apply run_unwake in H. destruct H as (o'&l'&->&Ht').
    assert (l' = l) as ->.
    { destruct Ht as [Ht|(c&Ht)], Ht' as [Ht'|(c'&Ht')]; congruence. }
    unfold run_body. rewrite unwake_dat.
    destruct (body t l b (dat s)) as [d xs sg r|d xs sg c0 l'|d xs sg l']; simpl in Hs; subst sg;
      cbn [fold_left ths]; rewrite unwake_ths; repeat (rewrite upd_other by assumption); reflexivity.
  Qed.

  Lemma call_ths : forall s t o s', step s (MCall t o) = Some s' ->
    ths s' t = TReady o (entry o) /\ forall u, u <> t -> ths s' u = ths s u.
  Proof.
    intros s t o s' H. simpl in H. destruct (ths s t) eqn:E; try discriminate. injection H as <-.
    cbn [ths]. split; [apply upd_same|]. intros u Hu. now rewrite upd_other.
  Qed.
  Lemma leave_ths : forall s t s', step s (MLeave t) = Some s' ->
    ths s' t = TOut /\ forall u, u <> t -> ths s' u = ths s u.
  Proof.
    intros s t s' H. simpl in H. destruct (ths s t) eqn:E; try discriminate. injection H as <-.
    cbn [ths]. split; [apply upd_same|]. intros u Hu. now rewrite upd_other.
  Qed.
  Lemma run_self : forall s t b s' o l, step s (MRun t b) = Some s' ->
    (ths s t = TReady o l \/ exists c, ths s t = TWoken c o l) ->
    ths s' t = match body t l b (dat s) with
               | ORet _ _ _ r => TDone o r
               | OWait _ _ _ c l' => TWait c o l'
               | OAgain _ _ _ l' => TReady o l'
               end.
  Proof.
    intros s t b s' o l H Ht. apply run_unwake in H. destruct H as (o'&l'&->&Ht').
    assert (o' = o /\ l' = l) as [-> ->].
    { destruct Ht as [Ht|(c&Ht)], Ht' as [Ht'|(c'&Ht')]; split; congruence. }
    unfold run_body. rewrite unwake_dat.
    assert (G : forall x, woken x = x -> forall sg s1, ths s1 t = x ->
                  ths (fold_left (@notify D Op Res Aux Loc) sg s1) t = x).
    { intros x Hx sg s1 Hs1.
      refine (thr_notifies (fun u y => (u = t -> y = x)) _ sg _ _ t eq_refl).
      - intros u y Hy Hu. now rewrite (Hy Hu).
      - intros u ->. exact Hs1. }
    destruct (body t l b (dat s)) as [d xs sg r|d xs sg c0 l'|d xs sg l'].
    - apply G; [reflexivity|]. cbn [ths]. apply upd_same.
    - cbn [ths]. apply upd_same.
    - apply G; [reflexivity|]. cbn [ths]. apply upd_same.
  Qed.
End MP.

(** Names for the two parts of a segment that instances reason about. *)
Arguments WF {D Op Res Aux Loc}.
