(** Property C100: is co_condition_variable free of data races? *)
From Coq Require Import List Arith Bool Lia.
From Verif Require Import Base RaceSpec RaceLemmas RaceCheck Guarded LinSpec CvSpec CvModel CvProofs CvRaceModel.
Import ListNotations.

Section P.
  Variables (D : Type) (d0 : D) (modf : nat -> D -> D) (pred : nat -> D -> bool).
  Notation cst := (cst D).
  Notation vst := (vst D).
  Notation cstep := (cstep D modf pred).
  Notation vstep := (vstep D modf pred).

  (** What a step adds to the trace. *)
  Definition vnews (s : vst) (l : vlbl) : list vev :=
    match l with
    | VL (Call _ _) => []
    | VL (Run t) => map (mkEv (v_client t)) (veffects D s t)
    | VL (Fire t _) => let k := tmr D s t in
        map (mkEv v_timer) ([KAcq VQueue; KAcq (VTim k); KRel (VTim k); KRel (VStart (nxt D s)); KAcq (VTim k); KRel (VTim k); KRel VQueue])
    | VL (CbRun a) => map (mkEv (v_callback (nam D s a))) (cb_effects D s a)
    | VFail t => [mkEv (v_client t) (KUpd VCv)]
    | VFailCb a => [mkEv (v_callback (nam D s a)) (KUpd VCv)]
    end.
  Lemma vstep_trc : forall s l s', vstep s l = Some s' -> trc D s' = trc D s ++ vnews s l.
  Proof.
    intros s [[t o|t|t a|a]|t|a] s' H; unfold CvRaceModel.vstep in H.
    - destruct (cstep (cv D s) (Call t o)); [|discriminate]. injection H as <-. simpl. now rewrite app_nil_r.
    - destruct (stop_waits D s t); [discriminate|]. destruct (cstep (cv D s) (Run t)); [|discriminate]. injection H as <-. now destruct (pcs D (cv D s) t).
    - destruct (cstep (cv D s) (Fire t a)); [|discriminate]. now injection H as <-.
    - destruct (cstep (cv D s) (CbRun a)); [|discriminate]. now injection H as <-.
    - destruct (wants _ && _); [|discriminate]. now injection H as <-.
    - destruct (cb_wants _ && _); [|discriminate]. now injection H as <-.
  Qed.
  Lemma vstep_cv : forall s l s', vstep s l = Some s' ->
    match l with VL l => cstep (cv D s) l = Some (cv D s') | _ => cv D s' = cv D s /\ exists x, cvl D (cv D s) = Some x end.
  Proof.
    intros s [[t o|t|t a|a]|t|a] s' H; unfold CvRaceModel.vstep in H.
    - destruct (cstep (cv D s) (Call t o)); [|discriminate]. now injection H as <-.
    - destruct (stop_waits D s t); [discriminate|]. destruct (cstep (cv D s) (Run t)); [|discriminate]. injection H as <-. now destruct (pcs D (cv D s) t).
    - destruct (cstep (cv D s) (Fire t a)); [|discriminate]. now injection H as <-.
    - destruct (cstep (cv D s) (CbRun a)); [|discriminate]. now injection H as <-.
    - unfold taken in H. destruct (cvl D (cv D s)); rewrite ?andb_false_r in H; [|discriminate]. destruct (wants _); [|discriminate]. injection H as <-. simpl. eauto.
    - unfold taken in H. destruct (cvl D (cv D s)); rewrite ?andb_false_r in H; [|discriminate]. destruct (cb_wants _); [|discriminate]. injection H as <-. simpl. eauto.
  Qed.
  Lemma vstep_nam : forall s l s' a, vstep s l = Some s' -> cbs D (cv D s) a <> CNone -> nam D s' a = nam D s a.
  Proof.
    intros s [[t o|t|t b|b]|t|b] s' a H N; unfold CvRaceModel.vstep in H.
    - destruct (cstep (cv D s) (Call t o)); [|discriminate]. now injection H as <-.
    - destruct (stop_waits D s t); [discriminate|]. destruct (cstep (cv D s) (Run t)); [|discriminate]. injection H as <-. now destruct (pcs D (cv D s) t).
    - destruct (cstep (cv D s) (Fire t b)) eqn:E; [|discriminate]. injection H as <-. simpl. rewrite upd_other; auto. intros <-.
      simpl in E. destruct (tarm D (cv D s) t); [|discriminate]. destruct (cbs D (cv D s) a); congruence.
    - destruct (cstep (cv D s) (CbRun b)); [|discriminate]. now injection H as <-.
    - destruct (wants _ && _); [|discriminate]. now injection H as <-.
    - destruct (cb_wants _ && _); [|discriminate]. now injection H as <-.
  Qed.
  Lemma cv_proj : forall ls s, run vstep (vinit D d0) ls = Some s -> exists ls', run cstep (cinit D d0) ls' = Some (cv D s).
  Proof.
    intros ls s. apply (run_inv vstep (fun s => exists ls', run cstep (cinit D d0) ls' = Some (cv D s))); [now exists []|].
    clear. intros s l s' (ls&R) H. pose proof (vstep_cv s l s' H) as G. destruct l as [l|t|a]; [|destruct G as (->&_); eauto|destruct G as (->&_); eauto].
    exists (ls ++ [l]). rewrite run_app, R. simpl. now rewrite G.
  Qed.

  Definition thr_of (s : vst) (x : agent) : nat := match x with Th t => v_client t | Cb a => v_callback (nam D s a) end.
  Definition cv_holder (s : vst) : option nat := option_map (thr_of s) (cvl D (cv D s)).
  Definition user_holder (s : vst) : option nat := option_map v_client (ulk D (cv D s)).
  (** Done under cv_lock__; done under the lock of the user. *)
  Definition cv_acc (e : vev) : Prop := touches e VWaiters \/ act e = KWr VTimeout.
  Definition user_acc (e : vev) : Prop := touches e VData \/ act e = KRd VTimeout.

  Ltac no_acc := let X := fresh in unfold cv_acc, user_acc, touches; simpl; intros X; decompose [or] X; discriminate.
  Ltac no_rel := let X := fresh in intros [X|X]; discriminate.
  Ltac one := apply gs_other; [no_acc|no_rel].
  Ltac own := eapply gc; [match goal with |- gstep _ _ (Some ?n) ?e _ => change n with (thr e) end; apply gs_in; no_rel|].

  (** What a step of a client does to the two locks. *)
  Lemma run_cvl : forall s t s', step_run D modf pred s t = Some s' ->
    cvl D s' = match pcs D s t with W1 _ | N1 _ => Some (Th t) | W5 _ | N4 _ => None | _ => cvl D s end /\
    (wants (pcs D s t) = true -> cvl D s = None).
  Proof.
    intros s t s' H. unfold step_run, tas in H.
    destruct (pcs D s t) as [|o|o|o|o|o|o|o|o|o|o|o|o| |u|l| |o|o r]; try discriminate.
    - destruct o; try discriminate; [destruct (ulk D s); [discriminate|]| |]; injection H as <-; split; auto; discriminate.
    - injection H as <-. split; auto; discriminate.
    - destruct (cvl D s); [discriminate|]. injection H as <-. auto.
    - injection H as <-. split; auto; discriminate.
    - injection H as <-. split; auto; discriminate.
    - injection H as <-. split; auto; discriminate.
    - injection H as <-. split; auto; discriminate.
    - destruct (mk D s t); [discriminate|]. injection H as <-. split; auto; discriminate.
    - destruct (ulk D s); [discriminate|]. injection H as <-. split; auto; discriminate.
    - injection H as <-. split; auto; discriminate.
    - injection H as <-. split; auto; discriminate.
    - destruct (cvl D s); [discriminate|]. injection H as <-. auto.
    - destruct (wq D s); injection H as <-; split; auto; discriminate.
    - injection H as <-. split; auto; discriminate.
    - destruct l; injection H as <-; split; auto; discriminate.
    - injection H as <-. split; auto; discriminate.
    - injection H as <-. split; auto; discriminate.
    - injection H as <-. split; auto; discriminate.
  Qed.
  Lemma run_ulk : forall s t s', step_run D modf pred s t = Some s' ->
    ulk D s' = match pcs D s t with PDo OLock | W7 _ => Some t | PDo OUnlock | W3 _ => None | _ => ulk D s end /\
    (match pcs D s t with PDo OLock | W7 _ => true | _ => false end = true -> ulk D s = None).
  Proof.
    intros s t s' H. unfold step_run, tas in H.
    destruct (pcs D s t) as [|o|o|o|o|o|o|o|o|o|o|o|o| |u|l| |o|o r]; try discriminate.
    - destruct o; try discriminate; [destruct (ulk D s); [discriminate|]| |]; injection H as <-; split; auto; discriminate.
    - injection H as <-. split; auto; discriminate.
    - destruct (cvl D s); [discriminate|]. injection H as <-. split; auto; discriminate.
    - injection H as <-. split; auto; discriminate.
    - injection H as <-. split; auto; discriminate.
    - injection H as <-. split; auto; discriminate.
    - injection H as <-. split; auto; discriminate.
    - destruct (mk D s t); [discriminate|]. injection H as <-. split; auto; discriminate.
    - destruct (ulk D s); [discriminate|]. injection H as <-. auto.
    - injection H as <-. split; auto; discriminate.
    - injection H as <-. split; auto; discriminate.
    - destruct (cvl D s); [discriminate|]. injection H as <-. split; auto; discriminate.
    - destruct (wq D s); injection H as <-; split; auto; discriminate.
    - injection H as <-. split; auto; discriminate.
    - destruct l; injection H as <-; split; auto; discriminate.
    - injection H as <-. split; auto; discriminate.
    - injection H as <-. split; auto; discriminate.
    - injection H as <-. split; auto; discriminate.
  Qed.
  Lemma cb_cvl : forall s a s', step_cb D s a = Some s' ->
    cvl D s' = match cbs D s a with CReady _ => Some (Cb a) | CRel => None | _ => cvl D s end /\ (cb_wants (cbs D s a) = true -> cvl D s = None) /\ ulk D s' = ulk D s.
  Proof.
    intros s a s' H. unfold step_cb, tas in H. destruct (cbs D s a) as [|u|u|u|u|]; try discriminate.
    - destruct (cvl D s); [discriminate|]. injection H as <-. auto.
    - injection H as <-. repeat split; auto; discriminate.
    - injection H as <-. repeat split; auto; discriminate.
    - injection H as <-. repeat split; auto; discriminate.
    - injection H as <-. repeat split; auto; discriminate.
  Qed.
  Lemma quiet_locks : forall s l s', cstep s l = Some s' -> match l with Call _ _ | Fire _ _ => true | _ => false end = true -> cvl D s' = cvl D s /\ ulk D s' = ulk D s.
  Proof.
    intros s [t o|t|t a|a] s' H C; try discriminate; simpl in H.
    - destruct (pcs D s t); try discriminate. destruct (allowed _ _ _); [|discriminate]. now injection H as <-.
    - destruct (tarm D s t); [|discriminate]. destruct (cbs D s a); try discriminate. now injection H as <-.
  Qed.

  Lemma cv_guard : forall s l s', Inv D d0 modf pred (cv D s) -> vstep s l = Some s' -> gsteps VCv cv_acc (cv_holder s) (vnews s l) (cv_holder s').
  Proof.
    intros s l s' HI H. pose proof (vstep_cv s l s' H) as G.
    assert (HN : forall a, cbs D (cv D s) a <> CNone -> nam D s' a = nam D s a) by (intros; eapply vstep_nam; eauto).
    assert (Same : cvl D (cv D s') = cvl D (cv D s) -> cv_holder s' = cv_holder s).
    { intros E. unfold cv_holder. rewrite E. destruct (cvl D (cv D s)) as [[t|a]|] eqn:Ec; auto. simpl. rewrite HN; auto.
      apply (i_cb _ _ _ _ _ HI) in Ec. destruct (cbs D (cv D s) a); discriminate. }
    destruct l as [[t o|t|t a|a]|t|a].
    - rewrite Same by (eapply quiet_locks; eauto). constructor.
    - pose proof (proj2 (i_cv _ _ _ _ _ HI t)) as Hc. apply run_cvl in G as (G1&G2).
      assert (Ho : cvh (pcs D (cv D s) t) = true -> cv_holder s = Some (v_client t)) by (intros X; unfold cv_holder; now rewrite (Hc X)).
      unfold vnews, veffects in *. destruct (pcs D (cv D s) t) as [|o|o|o|o|o|o|o|o|o|o|o|o| |u|l| |o|o r] eqn:E;
        try (rewrite (Same G1); try destruct o; try destruct (tmo D (cv D s)); try destruct (tarm D (cv D s) t); repeat (apply gc with (cv_holder s); [one|]); constructor; fail).
      + unfold cv_holder. rewrite G1, (G2 eq_refl). simpl. eapply gc; [|constructor]. apply (gs_acq VCv cv_acc (mkEv (v_client t) (KUpd VCv))); [no_acc|now right].
      + rewrite (Same G1), (Ho eq_refl). own. own. constructor.
      + rewrite (Ho eq_refl). unfold cv_holder. rewrite G1. simpl. eapply gc; [|constructor]. apply (gs_rel VCv cv_acc (mkEv (v_client t) (KRel VCv))); [no_acc|now left].
      + unfold cv_holder. rewrite G1, (G2 eq_refl). simpl. eapply gc; [|constructor]. apply (gs_acq VCv cv_acc (mkEv (v_client t) (KUpd VCv))); [no_acc|now right].
      + rewrite (Same G1), (Ho eq_refl). destruct (wq D (cv D s)); simpl; repeat own; constructor.
      + rewrite (Same G1), (Ho eq_refl). destruct l; simpl; repeat own; constructor.
      + rewrite (Same G1), (Ho eq_refl). own. constructor.
      + rewrite (Ho eq_refl). unfold cv_holder. rewrite G1. simpl. eapply gc; [|constructor]. apply (gs_rel VCv cv_acc (mkEv (v_client t) (KRel VCv))); [no_acc|now left].
    - rewrite Same by (eapply quiet_locks; eauto). repeat (eapply gc; [one|]). constructor.
    - pose proof (proj2 (i_cb _ _ _ _ _ HI a)) as Hc. apply cb_cvl in G as (G1&G2&_).
      assert (Ho : cbh (cbs D (cv D s) a) = true -> cv_holder s = Some (v_callback (nam D s a))) by (intros X; unfold cv_holder; now rewrite (Hc X)).
      unfold vnews, cb_effects in *. pose proof (HN a) as Hn. destruct (cbs D (cv D s) a) as [|u|u|u|u|] eqn:E.
      + rewrite (Same G1). constructor.
      + unfold cv_holder. rewrite G1, (G2 eq_refl). simpl. rewrite Hn by discriminate. eapply gc; [one|]. eapply gc; [one|]. eapply gc; [|constructor].
        apply (gs_acq VCv cv_acc (mkEv (v_callback (nam D s a)) (KUpd VCv))); [no_acc|now right].
      + rewrite (Same G1), (Ho eq_refl). simpl. repeat own. constructor.
      + rewrite (Same G1), (Ho eq_refl). simpl. repeat own. constructor.
      + rewrite (Same G1), (Ho eq_refl). simpl. repeat own. constructor.
      + rewrite (Ho eq_refl). unfold cv_holder. rewrite G1. simpl. eapply gc; [|eapply gc; [one|constructor]].
        apply (gs_rel VCv cv_acc (mkEv (v_callback (nam D s a)) (KRel VCv))); [no_acc|now left].
    - destruct G as (G&x&Ex). rewrite Same by now rewrite G. unfold cv_holder. rewrite Ex. simpl. eapply gc; [|constructor]. apply gs_fail. no_acc.
    - destruct G as (G&x&Ex). rewrite Same by now rewrite G. unfold cv_holder. rewrite Ex. simpl. eapply gc; [|constructor]. apply gs_fail. no_acc.
  Qed.
  Lemma user_guard : forall s l s', Inv D d0 modf pred (cv D s) -> vstep s l = Some s' -> gsteps VUser user_acc (user_holder s) (vnews s l) (user_holder s').
  Proof.
    intros s l s' HI H. pose proof (vstep_cv s l s' H) as G.
    assert (Same : ulk D (cv D s') = ulk D (cv D s) -> user_holder s' = user_holder s) by (intros E; unfold user_holder; now rewrite E).
    destruct l as [[t o|t|t a|a]|t|a].
    - rewrite Same by (eapply quiet_locks; eauto). constructor.
    - pose proof (proj2 (i_lk _ _ _ _ _ HI t)) as Hc. apply run_ulk in G as (G1&G2).
      assert (Ho : lk (pcs D (cv D s) t) (holds (hist D (cv D s)) t) = true -> user_holder s = Some (v_client t)) by (intros X; unfold user_holder; now rewrite (Hc X)).
      unfold vnews, veffects in *. destruct (pcs D (cv D s) t) as [|o|o|o|o|o|o|o|o|o|o|o|o| |u|l| |o|o r] eqn:E;
        try (rewrite (Same G1); try destruct o; try destruct l; try destruct (wq D (cv D s)); repeat (apply gc with (user_holder s); [one|]); constructor; fail).
      + destruct o; try (rewrite (Same G1); constructor; fail).
        * unfold user_holder. rewrite G1, (G2 eq_refl). simpl. eapply gc; [|constructor]. apply (gs_acq VUser user_acc (mkEv (v_client t) (KAcq VUser))); [no_acc|now left].
        * rewrite (Ho eq_refl). unfold user_holder. rewrite G1. simpl. eapply gc; [|constructor]. apply (gs_rel VUser user_acc (mkEv (v_client t) (KRel VUser))); [no_acc|now left].
        * rewrite (Same G1), (Ho eq_refl). simpl. repeat own. constructor.
      + rewrite (Ho eq_refl). unfold user_holder. rewrite G1. simpl. eapply gc; [|constructor]. apply (gs_rel VUser user_acc (mkEv (v_client t) (KRel VUser))); [no_acc|now left].
      + unfold user_holder. rewrite G1, (G2 eq_refl). simpl. eapply gc; [|constructor]. apply (gs_acq VUser user_acc (mkEv (v_client t) (KAcq VUser))); [no_acc|now left].
      + rewrite (Same G1), (Ho eq_refl). destruct o; simpl; repeat own; try constructor. destruct (tmo D (cv D s)); simpl; repeat own; constructor.
      + rewrite (Same G1), (Ho eq_refl). destruct o; simpl; repeat own; try constructor;
          (destruct (tarm D (cv D s) t); simpl; repeat own; try constructor; destruct (tmo D (cv D s)); simpl; repeat own; constructor).
    - rewrite Same by (eapply quiet_locks; eauto). repeat (eapply gc; [one|]). constructor.
    - apply cb_cvl in G as (_&_&G). rewrite (Same G). unfold vnews, cb_effects. destruct (cbs D (cv D s) a); simpl; repeat (apply gc with (user_holder s); [one|]); constructor.
    - destruct G as (G&_). rewrite Same by now rewrite G. eapply gc; [one|constructor].
    - destruct G as (G&_). rewrite Same by now rewrite G. eapply gc; [one|constructor].
  Qed.

  Definition VI (s : vst) : Prop := guard VCv cv_acc (trc D s) (cv_holder s) /\ guard VUser user_acc (trc D s) (user_holder s).
  Lemma vi_run : forall ls s, run vstep (vinit D d0) ls = Some s -> VI s.
  Proof.
    intros ls s Hr.
    assert (Q : VI s /\ Inv D d0 modf pred (cv D s)); [|tauto]. revert Hr.
    apply (run_inv vstep (fun s => VI s /\ Inv D d0 modf pred (cv D s))).
    - split; [split; apply guard_nil|]. apply (cv_inv D d0 modf pred []). reflexivity.
    - clear. intros s l s' ((A&B)&HI) H. split.
      + rewrite <- (vstep_trc s l s' H) || idtac. split; rewrite (vstep_trc s l s' H); eapply guard_app; eauto using cv_guard, user_guard.
      + pose proof (vstep_cv s l s' H) as G. destruct l as [l|t|a]; [|destruct G as (->&_); auto|destruct G as (->&_); auto].
        eapply inv_step; eauto.
  Qed.

  (** Who accesses timeout__. *)
  Definition timed_caller (h : list cvev) (t : tid) : Prop := exists o, In (ECall t o) h /\ is_timed o = true.
  Record TA (s : vst) : Prop := mkTA {
    ta_w : forall i e, nth_error (trc D s) i = Some e -> act e = KWr VTimeout -> exists k, thr e = v_callback k;
    ta_r : forall i e, nth_error (trc D s) i = Some e -> act e = KRd VTimeout -> exists t, thr e = v_client t /\ timed_caller (hist D (cv D s)) t
  }.
  Lemma hist_grows : forall s l s', cstep s l = Some s' -> exists es, hist D s' = es ++ hist D s.
  Proof.
    intros s l s' H. assert (K : forall h, hist D s = h -> exists es, h = es ++ hist D s) by (intros h <-; now exists []).
    destruct l as [t o|t|t a|a]; simpl in H.
    - destruct (pcs D s t); try discriminate. destruct (allowed _ _ _); [|discriminate]. injection H as <-. now eexists [_].
    - unfold step_run, tas in H. destruct (pcs D s t) as [|o|o|o|o|o|o|o|o|o|o|o|o| |u|l| |o|o r]; try discriminate.
      + destruct o; try discriminate; [destruct (ulk D s); [discriminate|]| |]; injection H as <-; now eexists [_].
      + injection H as <-. now exists [].
      + destruct (cvl D s); [discriminate|]. injection H as <-. now exists [].
      + injection H as <-. now exists [].
      + injection H as <-. now eexists [_].
      + injection H as <-. now exists [].
      + injection H as <-. now exists [].
      + destruct (mk D s t); [discriminate|]. injection H as <-. now exists [].
      + destruct (ulk D s); [discriminate|]. injection H as <-. now eexists [_].
      + injection H as <-. now exists [].
      + injection H as <-. now eexists [_].
      + destruct (cvl D s); [discriminate|]. injection H as <-. now eexists [_].
      + destruct (wq D s); injection H as <-; now exists [].
      + injection H as <-. now exists [].
      + destruct l; injection H as <-; now exists [].
      + injection H as <-. now exists [].
      + injection H as <-. now exists [].
      + injection H as <-. now eexists [_].
    - destruct (tarm D s t); [|discriminate]. destruct (cbs D s a); try discriminate. injection H as <-. now eexists [_].
    - unfold step_cb, tas in H. destruct (cbs D s a) as [|u|u|u|u|]; try discriminate.
      + destruct (cvl D s); [discriminate|]. injection H as <-. now exists [].
      + injection H as <-. now eexists [_].
      + injection H as <-. now exists [].
      + injection H as <-. now exists [].
      + injection H as <-. now exists [].
  Qed.
  Lemma ta_run : forall ls s, run vstep (vinit D d0) ls = Some s -> TA s.
  Proof.
    intros ls s Hr. assert (Q : TA s /\ Inv D d0 modf pred (cv D s)); [|tauto]. revert Hr.
    apply (run_inv vstep (fun s => TA s /\ Inv D d0 modf pred (cv D s))).
    { split; [|apply (cv_inv D d0 modf pred []); reflexivity]. split; intros [|i] e H; discriminate. }
    clear. intros s l s' ((A&B)&HI) H. pose proof (vstep_cv s l s' H) as G. pose proof (vstep_trc s l s' H) as T.
    assert (HI' : Inv D d0 modf pred (cv D s')).
    { destruct l as [l|t|a]; [|destruct G as (->&_); auto|destruct G as (->&_); auto]. eapply inv_step; eauto. }
    split; auto.
    assert (Gr : exists es, hist D (cv D s') = es ++ hist D (cv D s)).
    { destruct l as [l|t|a]; [eapply hist_grows; eauto|exists []; now destruct G as (->&_)|exists []; now destruct G as (->&_)]. }
    destruct Gr as (es&Gr).
    assert (W : forall e, In e (vnews s l) -> act e = KWr VTimeout -> exists k, thr e = v_callback k).
    { intros e He. destruct l as [[t o|t|t a|a]|t|a]; simpl in He.
      - contradiction.
      - apply in_map_iff in He as (k&<-&Hk). intros X. simpl in X. subst k. exfalso. unfold veffects in Hk.
        destruct (pcs D (cv D s) t) as [|o|o|o|o|o|o|o|o|o|o|o|o| |u|l| |o|o r]; try destruct o; try destruct (tmo D (cv D s));
          try destruct (tarm D (cv D s) t); try destruct (wq D (cv D s)); try destruct l; simpl in Hk; decompose [or] Hk; discriminate || contradiction.
      - decompose [or] He; subst; simpl; try discriminate; contradiction.
      - apply in_map_iff in He as (k&<-&Hk). simpl. eauto.
      - destruct He as [<-|[]]. discriminate.
      - destruct He as [<-|[]]. discriminate. }
    assert (R : forall e, In e (vnews s l) -> act e = KRd VTimeout -> exists t, thr e = v_client t /\ timed_caller (hist D (cv D s)) t).
    { intros e He. destruct l as [[t o|t|t a|a]|t|a]; simpl in He.
      - contradiction.
      - apply in_map_iff in He as (k&<-&Hk). intros X. simpl in X. subst k. exists t. split; auto. apply (i_tp _ _ _ _ _ HI). left. unfold veffects in Hk.
        destruct (pcs D (cv D s) t) as [|o|o|o|o|o|o|o|o|o|o|o|o| |u|l| |o|o r]; try destruct o; try destruct (tmo D (cv D s));
          try destruct (tarm D (cv D s) t); try destruct (wq D (cv D s)); try destruct l; simpl in Hk; decompose [or] Hk; try discriminate; try contradiction; reflexivity.
      - decompose [or] He; subst; simpl; try discriminate; contradiction.
      - apply in_map_iff in He as (k&<-&Hk). simpl. intros ->. exfalso. unfold cb_effects in Hk. destruct (cbs D (cv D s) a); simpl in Hk; decompose [or] Hk; discriminate || contradiction.
      - destruct He as [<-|[]]. discriminate.
      - destruct He as [<-|[]]. discriminate. }
    assert (X : forall t, timed_caller (hist D (cv D s)) t -> timed_caller (hist D (cv D s')) t).
    { intros t (o&I&O). exists o. split; auto. rewrite Gr. apply in_or_app. now right. }
    split; intros i e N K; rewrite T in N; (destruct (Nat.lt_ge_cases i (length (trc D s))) as [L|L];
      [rewrite nth_error_app1 in N by auto|rewrite nth_error_app2 in N by auto; apply nth_error_In in N]).
    - eauto.
    - eauto.
    - destruct (B i e N K) as (t&Y1&Y2). eauto.
    - destruct (R e N K) as (t&Y1&Y2). eauto.
  Qed.
End P.

(** Every data race is one on timeout__ between the callback of a timer and a timed wait; waiters__ and the data that the user's lock protects
    are free of races, and two callbacks do not race. *)
Theorem cv_no_race_partial : forall D d0 modf pred ls s x i j a b, run (vstep D modf pred) (vinit D d0) ls = Some s ->
  i < j -> nth_error (trc D s) i = Some a -> nth_error (trc D s) j = Some b -> conflict a b x -> ~ RaceSpec.hb (trc D s) i j ->
  x = VTimeout /\ exists k t, timed_caller (hist D (cv D s)) t /\
    ((a = mkEv (v_callback k) (KWr VTimeout) /\ b = mkEv (v_client t) (KRd VTimeout)) \/
     (b = mkEv (v_callback k) (KWr VTimeout) /\ a = mkEv (v_client t) (KRd VTimeout))).
Proof.
  intros D d0 modf pred ls s x i j a b Hr L A B (Ne&Ta&Tb&W) N.
  destruct (vi_run D d0 modf pred ls s Hr) as ([_ G1]&[_ G2]). destruct (ta_run D d0 modf pred ls s Hr) as [TW TR].
  assert (NC : ~ (cv_acc a /\ cv_acc b)) by (intros (?&?); apply N; eapply G1; eauto).
  assert (NU : ~ (user_acc a /\ user_acc b)) by (intros (?&?); apply N; eapply G2; eauto).
  destruct x.
  - exfalso. apply NC. split; now left.
  - split; auto. unfold cv_acc, user_acc in *. destruct a as [ta ka], b as [tb kb]. unfold touches in *. simpl in *.
    destruct Ta as [-> | ->], Tb as [-> | ->].
    + exfalso. apply NU. split; now right.
    + destruct (TR i _ A eq_refl) as (t&E1&C). destruct (TW j _ B eq_refl) as (k&E2). simpl in *. subst. exists k, t. split; auto.
    + destruct (TR j _ B eq_refl) as (t&E1&C). destruct (TW i _ A eq_refl) as (k&E2). simpl in *. subst. exists k, t. split; auto.
    + exfalso. apply NC. split; now right.
  - exfalso. apply NU. split; now left.
Qed.
Print Assumptions cv_no_race_partial.

(** Without timed waits there is no race at all. *)
Theorem cv_no_race_untimed : forall D d0 modf pred ls s x, run (vstep D modf pred) (vinit D d0) ls = Some s ->
  no_timed (hist D (cv D s)) -> ~ race (trc D s) x.
Proof.
  intros D d0 modf pred ls s x Hr Nt (i&j&a&b&L&A&B&C&N).
  destruct (cv_no_race_partial D d0 modf pred ls s x i j a b Hr L A B C N) as (_&k&t&(o&I&O)&_).
  clear - Nt I O. induction (hist D (cv D s)) as [|e h IH]; [contradiction|]. destruct I as [-> |I].
  - simpl in Nt. destruct Nt. congruence.
  - apply IH; auto. destruct e; simpl in Nt; tauto.
Qed.
Print Assumptions cv_no_race_untimed.

(** Instance for the cases: the data is a number, modification m adds m, predicate k is "at least k". *)
Definition vx_step := vstep nat Nat.add Nat.leb.
Definition vx_init := vinit nat 0.
Definition vr (t : tid) (n : nat) : list vlbl := repeat (VL (Run t)) n.
Definition vc (t : tid) (o : cvop) (n : nat) : list vlbl := VL (Call t o) :: vr t n.
Definition vsync_eq (a b : vsync) : {a = b} + {a <> b}. Proof. decide equality; apply Nat.eq_dec. Defined.
Definition vleq (a b : vloc) : bool := match a, b with VWaiters, VWaiters | VTimeout, VTimeout | VData, VData => true | _, _ => false end.
Lemma vleq_eq : forall y x, vleq y x = true -> y = x.
Proof. now intros [] []. Qed.
(** Positions of the accesses to timeout__. *)
Definition touchb (e : vev) (x : vloc) : bool := match act e with KRd y | KWr y => vleq y x | _ => false end.
Fixpoint where_ (n : nat) (x : vloc) (tr : list vev) : list nat :=
  match tr with [] => [] | e :: r => (if touchb e x then [n] else []) ++ where_ (S n) x r end.

(** 1 and 2 wait, 2 with a deadline far away; 3 notifies both; 2 has the lock again and is about to look at timeout__; the deadline of 1 had
    passed, and its callback, which comes too late, sets timeout__; 2 reads it. *)
Definition run_two : list vlbl :=
  vc 1 OLock 2 ++ vc 1 OWaitU 6 ++ vc 2 OLock 2 ++ vc 2 OWaitU 6 ++ [VL (Fire 1 0)] ++ vc 3 ONotifyAll 7 ++ vr 2 3 ++
  [VL (CbRun 0); VL (CbRun 0); VL (CbRun 0)] ++ vr 2 1.
(** One wait only, notified just before its deadline: its own callback races with its own look at timeout__. *)
Definition run_own : list vlbl :=
  vc 1 OLock 2 ++ vc 1 OWaitU 6 ++ [VL (Fire 1 0)] ++ vc 3 ONotify1 5 ++ vr 1 4 ++ [VL (CbRun 0); VL (CbRun 0); VL (CbRun 0)].

(** REFUTED: the callback of one waiter races with another waiter. *)
Theorem cv_no_race_refuted : exists ls s, run vx_step vx_init ls = Some s /\ race (trc nat s) VTimeout /\
  nth_error (trc nat s) 44 = Some (mkEv (v_callback 2) (KWr VTimeout)) /\ nth_error (trc nat s) 49 = Some (mkEv (v_client 2) (KRd VTimeout)).
Proof.
  exists run_two. eexists. split; [vm_compute; reflexivity|]. split; [|split; vm_compute; reflexivity].
  apply (raceb_race vsync_eq vleq vleq_eq _ 44 49). vm_compute. reflexivity.
Qed.
Print Assumptions cv_no_race_refuted.
(** REFUTED also if the condition variable is used for a single timed wait in its whole life, and every call returns. *)
Theorem cv_no_race_single_refuted : exists ls s, run vx_step vx_init ls = Some s /\ race (trc nat s) VTimeout /\
  timed_calls (hist nat (cv nat s)) = 1 /\ In (ERet 1 OWaitU (RB true)) (hist nat (cv nat s)).
Proof.
  exists (run_own ++ vr 1 1). eexists. split; [vm_compute; reflexivity|]. split.
  - apply (raceb_race vsync_eq vleq vleq_eq _ 27 33). vm_compute. reflexivity.
  - vm_compute. auto 10.
Qed.
Print Assumptions cv_no_race_single_refuted.

(** A case with conflicting accesses to waiters__, timeout__ and the data, by clients and a callback. *)
Definition run_mix : list vlbl :=
  vc 1 OLock 2 ++ vc 1 (OWaitUP 9) 6 ++ vc 3 OLock 2 ++ vc 3 (OMod 7) 2 ++ vc 3 OUnlock 2 ++ [VL (Call 3 ONotify1)] ++ [VL (Fire 1 0); VL (CbRun 0); VFail 3; VL (CbRun 0);
  VL (CbRun 0); VL (CbRun 0); VL (CbRun 0)] ++ vr 3 4 ++ vr 1 5.
Definition accs (x : vloc) (s : vst nat) : list vev := filter (fun e => touchb e x) (trc nat s).
Example cv_no_race_partial_case : exists s, run vx_step vx_init run_mix = Some s /\
  hd_error (hist nat (cv nat s)) = Some (ERet 1 (OWaitUP 9) (RB false)) /\
  accs VWaiters s = [mkEv (v_client 1) (KRd VWaiters); mkEv (v_client 1) (KWr VWaiters); mkEv (v_callback 1) (KRd VWaiters); mkEv (v_callback 1) (KWr VWaiters); mkEv (v_client 3) (KRd VWaiters)] /\
  accs VTimeout s = [mkEv (v_callback 1) (KWr VTimeout); mkEv (v_client 1) (KRd VTimeout); mkEv (v_client 1) (KRd VTimeout)] /\
  accs VData s = [mkEv (v_client 3) (KRd VData); mkEv (v_client 3) (KWr VData)].
Proof. eexists. split; [vm_compute; reflexivity|]. vm_compute. auto. Qed.
(** The hypotheses of [cv_no_race_partial] are met by [cv_no_race_refuted]. A case without timed waits: *)
Example cv_no_race_untimed_case : exists s,
  run vx_step vx_init (vc 1 OLock 2 ++ vc 1 (OWaitP 5) 5 ++ vc 3 OLock 2 ++ vc 3 (OMod 7) 2 ++ vc 3 ONotify1 5 ++ vc 3 OUnlock 2 ++ vr 1 5) = Some s /\
  no_timed (hist nat (cv nat s)) /\
  accs VWaiters s = [mkEv (v_client 1) (KRd VWaiters); mkEv (v_client 1) (KWr VWaiters); mkEv (v_client 3) (KRd VWaiters); mkEv (v_client 3) (KWr VWaiters)] /\
  accs VData s = [mkEv (v_client 3) (KRd VData); mkEv (v_client 3) (KWr VData); mkEv (v_client 1) (KRd VData)].
Proof. eexists. split; [vm_compute; reflexivity|]. vm_compute. tauto. Qed.
