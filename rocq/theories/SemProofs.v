(** Proofs about the semaphore model. *)
From Coq Require Import List ZArith Bool Lia.
From Verif Require Import Base LinSpec LinLemmas HistSpec Monitor MonitorProofs SemSpec SemModel.
Import ListNotations.
Open Scope Z_scope.

Lemma sop_refl : forall o, sop_eqb o o = true.
Proof. destruct o; simpl; auto using Z.eqb_refl. Qed.
Lemma sres_refl : forall r, sres_eqb r r = true.
Proof. now destruct r. Qed.

Section P.
  Variables init max : Z.
  Hypothesis Hinit : 0 <= init <= max.
  Notation step := (sem_step max).
  Notation st := (mst Z sop sres saux sloc).

  Definition opl (h : list sev) (t : tid) (o : sop) (l : sloc) : Prop :=
    match o, l with
    | OAcquire, LAcq | OTryAcq, LTry | OTryUntil, LUntil => units_since_call h t = 0
    | ORelease n, LRel k => units_since_call h t + Z.of_nat k = Z.max 0 n
    | _, _ => False
    end.
  Definition cv_of (l : sloc) : option nat :=
    match l with LAcq => Some EMPTY | LRel (S _) => Some FULL | _ => None end.
  Definition thr (h : list sev) (t : tid) (x : tst sop sres sloc) : Prop :=
    match x with
    | TReady o l => opl h t o l
    | TWait c o l | TWoken c o l => opl h t o l /\ cv_of l = Some c
    | _ => True
    end.
  Lemma thr_woken : forall h t x, thr h t x -> thr h t (woken x).
  Proof. intros h t [| | | |]; simpl; auto. Qed.

  Record SInv (s : st) : Prop := mkSInv {
    s_wf : WF sop_eqb sres_eqb s;
    s_dat : dat s = permits init (mhist s);
    s_rng : 0 <= dat s <= max;
    s_ok : always_at (sem_event_ok init max) (mhist s);
    s_units : always_at units_ok (mhist s);
    s_thr : forall t, thr (mhist s) t (ths s t);
    s_e : qs s EMPTY <> [] -> dat s <= Z.of_nat (length (wk s EMPTY));
    s_f : qs s FULL <> [] -> max - dat s <= Z.of_nat (length (wk s FULL))
  }.

  Lemma sinv_init : SInv (sem_init init).
  Proof.
    constructor; simpl; auto; try congruence.
    - apply wf_init.
    - unfold permits; simpl; lia.
    - apply always_at_nil.
    - apply always_at_nil.
  Qed.

  Lemma opl_other : forall e h t o l, ev_tid e <> t -> opl h t o l -> opl (e :: h) t o l.
  Proof.
    intros e h t o l Hne H. apply Nat.eqb_neq in Hne.
    assert (E : units_since_call (e :: h) t = units_since_call h t).
    { destruct e as [u o'|u o' r|u o' r|u []]; simpl in *; rewrite ?Hne; reflexivity. }
    unfold opl in *. rewrite E. exact H.
  Qed.
  Lemma thr_other : forall e h t x, ev_tid e <> t -> thr h t x -> thr (e :: h) t x.
  Proof. intros e h t x Hne H. destruct x; simpl in *; intuition auto using opl_other. Qed.


  Lemma permits_cons : forall e h, permits init (e :: h) = permit e + permits init h.
  Proof. intros; unfold permits; simpl; lia. Qed.

  Lemma sinv_step : forall s l s', SInv s -> step s l = Some s' -> SInv s'.
  Proof.
    intros s lb s' HI H. unfold sem_step in H.
    assert (HW' : WF sop_eqb sres_eqb s')
      by (eapply wf_step; eauto using sop_refl, sres_refl, s_wf).
    destruct HI as [HW Hd Hr Hok Hun Hth He Hf].
    destruct lb as [t o|t b|t].
    - apply call_post in H. destruct H as (Ht&Hd'&Hq'&Hw'&Hh'&Hp).
      constructor; rewrite ?Hd', ?Hh', ?Hq', ?Hw'; auto; try (apply always_at_cons; split; [exact I|assumption]);
        try (rewrite permits_cons; cbn [permit]; lia).
      apply Hp; [apply thr_woken| |].
      + intros u Hu. apply thr_other; [simpl; congruence|apply Hth].
      + simpl. unfold opl. simpl. rewrite Nat.eqb_refl. destruct o; simpl; auto. lia.
    - apply run_post with (1 := HW) in H. destruct H as (o&l&Ht&H).
      assert (Hl : opl (mhist s) t o l).
      { specialize (Hth t). destruct Ht as [Ht|(c&Ht)]; rewrite Ht in Hth; simpl in Hth; tauto. }
      assert (Hwk : forall c, (length (wk s c) <= length (wk (unwake s t) c) + (match cv_of l with Some c' => if Nat.eqb c c' then 1 else 0 | None => 0 end))%nat).
      { intros c. rewrite unwake_wk with (1 := HW).
        specialize (Hth t). destruct Ht as [Ht|(c'&Ht)]; rewrite Ht in *; simpl in Hth.
        - lia.
        - destruct Hth as [_ ->]. destruct (Nat.eqb c c'); lia. }
      assert (HE := Hwk EMPTY). assert (HF := Hwk FULL). clear Hwk Ht.
      unfold opl in Hl.
      Ltac seg Hq Hw' :=
        match goal with H : _ /\ _ |- _ =>
          let Hq0 := fresh "Hq0" in let Hq1 := fresh "Hq1" in
          destruct H as (Hd'&Hh'&Hp&Hqw);
          pose proof (Hqw EMPTY) as Hq0; pose proof (Hqw FULL) as Hq1; clear Hqw;
          cbn in Hq0, Hq1; injection Hq0 as Hqe Hwe; injection Hq1 as Hqf Hwf end.
      Ltac fin :=
        match goal with Hd' : dat ?s' = _, Hh' : mhist ?s' = _ |- _ =>
          unfold EMPTY, FULL in *; cbn in Hd', Hh'; constructor; rewrite ?Hd', ?Hh';
          [ assumption
          | rewrite ?permits_cons; cbn [permit]; lia
          | lia
          | repeat (apply always_at_cons; split); try assumption; cbn [sem_event_ok];
            rewrite ?permits_cons; cbn [permit]; try exact I;
            try match goal with |- context [0 <? ?p] => destruct (Z.ltb_spec 0 p) end;
            solve [lia | intuition (auto; lia)]
          | repeat (apply always_at_cons; split); try assumption; cbn [units_ok units_since_call];
            rewrite ?Nat.eqb_refl; try exact I; lia
          | match goal with Hp : thr_post _ _ _ _ |- _ => apply Hp end;
            [ apply thr_woken
            | intros u Hu; repeat (apply thr_other; [simpl; congruence|]); auto
            | cbn [thr opl units_since_call]; rewrite ?Nat.eqb_refl; try exact I; try (split; [|reflexivity]); lia ]
          | | ] end.
      Ltac qq s :=
        cbn [cv_of] in *; unfold EMPTY, FULL in *; intros Hne;
        repeat match goal with Hx : qs ?s' _ = _ |- _ => rewrite Hx in *; clear Hx
                             | Hx : wk ?s' _ = _ |- _ => rewrite Hx in *; clear Hx end;
        rewrite ?app_length in *; cbn [Nat.eqb cv_of] in *;
        try (destruct (qs s 0%nat) eqn:?; cbn [tl firstn length] in *; try congruence);
        try (destruct (qs s 1%nat) eqn:?; cbn [tl firstn length] in *; try congruence);
        repeat match goal with H : _ :: _ <> [] -> _ |- _ => specialize (H ltac:(discriminate)) end;
        lia.
      destruct l as [|[|k]| |]; destruct o as [| | |n]; try contradiction; cbn [sem_body] in H.
      + destruct (Z.eqb_spec (dat s) 0) as [Ez|Ez]; seg Hq Hw; fin; qq s.
      + seg Hq Hw; fin; qq s.
      + destruct (Z.eqb_spec (dat s) max) as [Ez|Ez]; [seg Hq Hw; fin; qq s|].
        destruct k as [|k]; seg Hq Hw; fin; qq s.
      + destruct (Z.eqb_spec (dat s) 0) as [Ez|Ez]; seg Hq Hw; fin; qq s.
      + destruct (Z.eqb_spec (dat s) 0) as [Ez|Ez]; [destruct b|]; seg Hq Hw; fin; qq s.
    - apply leave_post in H. destruct H as (o&r&Ht&Hd'&Hq'&Hw'&Hh'&Hp).
      constructor; rewrite ?Hd', ?Hh', ?Hq', ?Hw'; auto; try (apply always_at_cons; split; [exact I|assumption]);
        try (rewrite permits_cons; cbn [permit]; lia).
      apply Hp; [apply thr_woken| |exact I].
      intros u Hu. apply thr_other; [simpl; congruence|apply Hth].
  Qed.

  Theorem sinv_run : forall ls s, run step (sem_init init) ls = Some s -> SInv s.
  Proof. intros ls s. apply run_inv; [apply sinv_init|apply sinv_step]. Qed.

  Theorem sem_always_bounds : forall s, SInv s ->
    always (fun h => 0 <= permits init h <= max) (mhist s).
  Proof.
    intros s HI. pose proof (s_ok _ HI) as Hok. revert Hok. generalize (mhist s) as h.
    induction h as [|e h IH]; intros Hok.
    - apply always_nil. unfold permits; simpl; lia.
    - apply always_at_cons in Hok. destruct Hok as [He Hok]. specialize (IH Hok).
      apply always_cons. split; [|exact IH].
      specialize (IH [] h eq_refl). simpl in IH. rewrite permits_cons.
      destruct e as [t o|t [] []|t o r|t []]; cbn [permit]; simpl in He; try lia;
      try (destruct (Z.ltb_spec 0 (permits init h)); try discriminate; lia); intuition (try discriminate; lia).
  Qed.

  Lemma sem_quiescent : forall s t o, SInv s -> quiescent sem_entry (sem_body max) s ->
    phase_of sop_eqb sres_eqb (mhist s) t = Some (PPending o) ->
    match o with
    | OAcquire => permits init (mhist s) = 0
    | ORelease n => permits init (mhist s) = max
    | _ => False
    end.
  Proof.
    intros s t o [HW Hd Hr Hok Hun Hth He Hf] HQ Hp.
    rewrite (w_ph HW t) in Hp. specialize (Hth t).
    rewrite (quiescent_wk EMPTY HW HQ) in He. rewrite (quiescent_wk FULL HW HQ) in Hf. simpl in He, Hf.
    destruct (quiescent_ths t HQ) as [E|(c&o'&l&E)]; rewrite E in *; simpl in Hp; [discriminate|].
    injection Hp as ->. simpl in Hth. destruct Hth as [Hl Hc].
    assert (Hin : In t (qs s c)) by (apply (w_q HW); eauto).
    rewrite <- Hd. unfold opl in Hl.
    destruct o, l as [|[|k]| |]; try contradiction; simpl in Hc; try discriminate; injection Hc as <-.
    - destruct (qs s EMPTY); [contradiction|]. specialize (He ltac:(discriminate)). lia.
    - destruct (qs s FULL); [contradiction|]. specialize (Hf ltac:(discriminate)). lia.
  Qed.
End P.
