(** Proofs about the latch model. *)
From Coq Require Import List ZArith Bool Lia.
From Verif Require Import Base LinSpec LinLemmas HistSpec Monitor MonitorProofs LatchSpec LatchModel.
Import ListNotations.
Open Scope Z_scope.

Lemma lop_refl : forall o, lop_eqb o o = true.
Proof. destruct o; simpl; auto using Z.eqb_refl. Qed.
Lemma lres_refl : forall r, lres_eqb r r = true.
Proof. now destruct r. Qed.

Section P.
  Variable init : Z.
  Hypothesis Hinit : 0 <= init.
  Notation st := (mst Z lop lres laux lloc).

  Definition opl (h : list lev) (t : tid) (o : lop) (l : lloc) : Prop :=
    match o, l with
    | OCount n, LCount m => m = n /\ 0 <= n
    | OTryWait, LTryWait | OWaitL, LWait => True
    | OArrive n, LArrive m => m = n /\ 0 <= n /\ own_downs h t = []
    | OArrive n, LWait => own_downs h t = [n]
    | _, _ => False
    end.
  Definition thr (h : list lev) (t : tid) (x : tst lop lres lloc) : Prop :=
    match x with
    | TReady o l => opl h t o l
    | TWait c o l | TWoken c o l => opl h t o l /\ l = LWait /\ c = COND
    | _ => True
    end.
  Lemma thr_woken : forall h t x, thr h t x -> thr h t (woken x).
  Proof. intros h t [| | | |]; simpl; auto. Qed.

  Record LInv (s : st) : Prop := mkLInv {
    l_wf : WF lop_eqb lres_eqb s;
    l_dat : dat s = init - downs (mhist s);
    l_rng : 0 <= dat s <= init;
    l_ok : always_at (latch_event_ok init) (mhist s);
    l_nn : always_at (fun e _ => 0 <= down e) (mhist s);
    l_thr : forall t, thr (mhist s) t (ths s t);
    l_q : qs s COND <> [] -> 0 < dat s
  }.

  Lemma linv_init : LInv (latch_init init).
  Proof.
    constructor; simpl; auto; try congruence; try apply always_at_nil; try lia.
    - apply wf_init.
    - unfold downs; simpl; lia.
  Qed.

  Lemma opl_other : forall e h t o l, ev_tid e <> t -> opl h t o l -> opl (e :: h) t o l.
  Proof.
    intros e h t o l Hne H. apply Nat.eqb_neq in Hne.
    assert (E : own_downs (e :: h) t = own_downs h t).
    { destruct e as [u o'|u o' r|u o' r|u []]; simpl in *; rewrite ?Hne; reflexivity. }
    unfold opl in *. rewrite E. exact H.
  Qed.
  Lemma thr_other : forall e h t x, ev_tid e <> t -> thr h t x -> thr (e :: h) t x.
  Proof. intros e h t x Hne H. destruct x; simpl in *; intuition auto using opl_other. Qed.

  Lemma downs_cons : forall e h, downs (e :: h) = down e + downs h.
  Proof. reflexivity. Qed.

  Lemma linv_step : forall s l s', LInv s -> latch_step s l = Some s' ->
    amounts_ok (mhist s') -> LInv s'.
  Proof.
    intros s lb s' HI H Ham. unfold latch_step in H.
    assert (HW' : WF lop_eqb lres_eqb s')
      by (eapply wf_step; eauto using lop_refl, lres_refl, l_wf).
    destruct HI as [HW Hd Hr Hok Hnn Hth Hq].
    destruct lb as [t o|t b|t].
    - apply call_post in H. destruct H as (Ht&Hd'&Hq'&Hw'&Hh'&Hp).
      constructor; rewrite ?Hd', ?Hh', ?Hq', ?Hw'; auto;
        try (apply always_at_cons; split; [simpl; try exact I; lia|assumption]);
        try (rewrite downs_cons; cbn [down]; lia).
      apply Hp; [apply thr_woken| |].
      + intros u Hu. apply thr_other; [simpl; congruence|apply Hth].
      + assert (Ho := Ham t o). rewrite Hh' in Ho. specialize (Ho (or_introl eq_refl)).
        simpl. unfold opl. simpl. rewrite Nat.eqb_refl. destruct o; simpl; auto.
    - apply run_post with (1 := HW) in H. destruct H as (o&l&Ht&H).
      assert (Hl : opl (mhist s) t o l).
      { specialize (Hth t). destruct Ht as [Ht|(c&Ht)]; rewrite Ht in Hth; simpl in Hth; tauto. }
      clear Ht.
      Ltac seg :=
        match goal with H : _ /\ _ /\ thr_post _ _ _ _ /\ _ |- _ =>
          let Hq0 := fresh "Hq0" in
          destruct H as (Hd'&Hh'&Hp&Hqw);
          pose proof (Hqw COND) as Hq0; clear Hqw;
          cbn in Hq0; injection Hq0 as Hqe Hwe end.
      Ltac fin :=
        match goal with Hd' : dat ?s' = _, Hh' : mhist ?s' = _ |- _ =>
          unfold COND in *; cbn in Hd', Hh'; constructor; unfold COND in *; rewrite ?Hd', ?Hh';
          [ assumption
          | rewrite ?downs_cons; cbn [down]; lia
          | lia
          | repeat (apply always_at_cons; split); try assumption; cbn [latch_event_ok];
            rewrite ?downs_cons; cbn [down]; try exact I;
            try match goal with |- context [if ?a =? ?b then RTrue else RFalse] =>
              destruct (Z.eqb_spec a b); try reflexivity; exfalso; lia end;
            solve [lia | left; repeat split; auto; lia | right; repeat split; auto; lia | repeat split; auto; lia]
          | repeat (apply always_at_cons; split); try assumption; cbn [down]; lia
          | match goal with Hp : thr_post _ _ _ _ |- _ => apply Hp end;
            [ apply thr_woken
            | intros u Hu; repeat (apply thr_other; [simpl; congruence|]); auto
            | cbn [thr opl own_downs]; rewrite ?Nat.eqb_refl; try exact I ]
          | ] end.
      destruct l as [n| | |n]; destruct o as [m| | |m]; simpl in Hl; try contradiction; cbn [latch_body] in H.
      + destruct Hl as [-> Hm]. destruct (Z.ltb_spec (dat s) m).
        * seg; fin. rewrite Hqe. auto.
        * destruct (Z.eqb_spec (dat s - m) 0); seg; fin; rewrite Hqe; auto; try congruence.
          intros Hx. specialize (Hq Hx). lia.
      + destruct (Z.eqb_spec (dat s) 0); seg; fin; rewrite Hqe; auto.
      + destruct (Z.ltb_spec 0 (dat s)); seg; fin; try (rewrite Hqe; auto).
        auto.
      + destruct (Z.ltb_spec 0 (dat s)); seg; fin; try (rewrite Hqe; auto).
        auto.
      + destruct Hl as (->&Hm&Ho). destruct (Z.ltb_spec (dat s) m).
        * seg; fin. rewrite Hqe. auto.
        * destruct (Z.eqb_spec (dat s - m) 0); seg; fin; try (rewrite Ho; reflexivity); rewrite Hqe; auto; try congruence.
          intros Hx. specialize (Hq Hx). lia.
    - apply leave_post in H. destruct H as (o&r&Ht&Hd'&Hq'&Hw'&Hh'&Hp).
      constructor; rewrite ?Hd', ?Hh', ?Hq', ?Hw'; auto;
        try (apply always_at_cons; split; [simpl; try exact I; lia|assumption]);
        try (rewrite downs_cons; cbn [down]; lia).
      apply Hp; [apply thr_woken| |exact I].
      intros u Hu. apply thr_other; [simpl; congruence|apply Hth].
  Qed.

  Theorem linv_run : forall ls s, run latch_step (latch_init init) ls = Some s ->
    amounts_ok (mhist s) -> LInv s.
  Proof.
    intros ls s Hr.
    refine (run_rule_inv lop_refl lres_refl latch_entry latch_body LInv amounts_ok _ _ _ _ ls Hr).
    - intros newer older H t o Hin. apply (H t o), in_or_app. now right.
    - apply wf_init.
    - apply linv_init.
    - apply linv_step.
  Qed.

  Lemma latch_quiescent : forall s t o, LInv s -> quiescent latch_entry latch_body s ->
    phase_of lop_eqb lres_eqb (mhist s) t = Some (PPending o) ->
    downs (mhist s) < init /\ (o = OWaitL \/ exists n, o = OArrive n).
  Proof.
    intros s t o [HW Hd Hr Hok Hnn Hth Hq] HQ Hp.
    rewrite (w_ph HW t) in Hp. specialize (Hth t).
    destruct (quiescent_ths t HQ) as [E|(c&o'&l&E)]; rewrite E in *; simpl in Hp; [discriminate|].
    injection Hp as ->. simpl in Hth. destruct Hth as (Hl&->&->).
    assert (Hin : In t (qs s COND)) by (apply (w_q HW); eauto).
    split.
    - destruct (qs s COND); [contradiction|]. specialize (Hq ltac:(discriminate)). lia.
    - destruct o; simpl in Hl; try contradiction; eauto.
  Qed.

  Lemma total_nonneg : forall h, always_at (fun e (_ : list lev) => 0 <= down e) h -> 0 <= downs h.
  Proof.
    induction h as [|e h IH]; intros H; [unfold downs; simpl; lia|].
    apply always_at_cons in H. destruct H as [H1 H2]. rewrite downs_cons. specialize (IH H2). lia.
  Qed.

  Lemma latch_open_for_ever : forall s newer older, LInv s -> mhist s = newer ++ older ->
    downs older = init -> downs (mhist s) = init.
  Proof.
    intros s newer older HI E Ho. pose proof (l_dat _ HI) as Hd. pose proof (l_rng _ HI) as Hr.
    pose proof (l_nn _ HI) as Hnn. rewrite E in *.
    assert (Hn : 0 <= downs newer).
    { apply total_nonneg. intros a e b Heq. apply (Hnn a e (b ++ older)). rewrite Heq, <- app_assoc. reflexivity. }
    unfold downs in *. rewrite total_app in *. lia.
  Qed.
End P.
