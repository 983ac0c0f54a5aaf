(** Proofs about the channel model. *)
From Coq Require Import List Arith Bool ZArith Lia.
From Verif Require Import Base LinSpec LinLemmas HistSpec Monitor MonitorProofs ChanSpec ChanModel.
Import ListNotations.

Lemma cop_refl : forall o, cop_eqb o o = true.
Proof. destruct o; simpl; auto using Nat.eqb_refl. Qed.
Lemma cres_refl : forall r, cres_eqb r r = true.
Proof. destruct r; simpl; auto using Nat.eqb_refl. Qed.

Lemma put_index_lt : forall h t, own_puts h t <> [] -> put_index h t < length (accepted h).
Proof.
  induction h as [|e h IH]; intros t H; [now destruct H|].
  destruct e as [u o|u o r|u o r|u [v]]; simpl in *.
  - destruct (Nat.eqb u t); [now destruct H|auto].
  - auto.
  - auto.
  - rewrite app_length. simpl. destruct (Nat.eqb u t); [lia|]. specialize (IH t H). lia.
Qed.

Lemma put_index_val : forall h t v, own_puts h t = [v] ->
  nth_error (accepted h) (put_index h t) = Some v.
Proof.
  induction h as [|e h IH]; intros t v H; [discriminate|].
  destruct e as [u o|u o r|u o r|u [w]]; simpl in *; auto.
  - destruct (Nat.eqb u t); [discriminate|auto].
  - destruct (Nat.eqb u t).
    + injection H as -> _. now rewrite nth_error_app2, Nat.sub_diag by lia.
    + rewrite nth_error_app1; auto. apply put_index_lt. rewrite H. discriminate.
Qed.

Lemma nth_error_mid : forall (a b : list val) v, nth_error (a ++ v :: b) (length a) = Some v.
Proof. intros. rewrite nth_error_app2, Nat.sub_diag by lia. reflexivity. Qed.

Section P.
  Variable kd : kind.
  Notation step := (chan_step kd).
  Notation st := (mst cdat cop cres caux cloc).

  Definition opl (h : list cev) (t : tid) (o : cop) (l : cloc) : Prop :=
    match o, l with
    | OPush v, LPush w => w = v /\ own_puts h t = []
    | OPush v, LPushW w => w = v /\ own_puts h t = [] /\ kd <> KUnl
    | OPush v, LSyncW w => w = v /\ own_puts h t = [v] /\ kd = KSync
    | OPop, LPop | OPop, LPopW | OClose, LClose | OIsClosed, LClosed | OIsEmpty, LEmpty => True
    | _, _ => False
    end.
  Definition cv_of (l : cloc) : option nat :=
    match l with LPushW _ | LSyncW _ => Some FULL | LPopW => Some EMPTY | _ => None end.
  Definition thr (h : list cev) (t : tid) (x : tst cop cres cloc) : Prop :=
    match x with
    | TReady o l => opl h t o l
    | TWait c o l | TWoken c o l => opl h t o l /\ cv_of l = Some c
    | _ => True
    end.
  Lemma thr_woken : forall h t x, thr h t x -> thr h t (woken x).
  Proof. intros h t [| | | |]; simpl; auto. Qed.

  Definition room (n : nat) : Prop :=
    match kd with KUnl => True | KSync => n <= 1 | KFix m => n <= m end.

  Record CInv (s : st) : Prop := mkCInv {
    c_wf : WF cop_eqb cres_eqb s;
    c_buf : accepted (mhist s) = delivered (mhist s) ++ cbuf (dat s);
    c_closed : is_closed (mhist s) = cclosed (dat s);
    c_room : room (length (cbuf (dat s)));
    c_ok : always_at (chan_event_ok kd) (mhist s);
    c_thr : forall t, thr (mhist s) t (ths s t);
    c_e : qs s EMPTY <> [] -> cclosed (dat s) = false /\ length (cbuf (dat s)) <= length (wk s EMPTY);
    c_f : qs s FULL <> [] -> cclosed (dat s) = false /\
          match kd with KFix n => n <= length (cbuf (dat s)) + length (wk s FULL) | _ => True end
  }.

  Lemma cinv_init : (forall n, kd = KFix n -> 0 < n) -> CInv chan_init.
  Proof.
    intros Hk. constructor; simpl; auto; try congruence.
    - apply wf_init.
    - unfold room. destruct kd as [| |n]; auto. specialize (Hk n eq_refl). lia.
    - apply always_at_nil.
  Qed.

  Lemma opl_other : forall e h t o l, ev_tid e <> t -> opl h t o l -> opl (e :: h) t o l.
  Proof.
    intros e h t o l Hne H. apply Nat.eqb_neq in Hne.
    assert (E : own_puts (e :: h) t = own_puts h t).
    { destruct e as [u o'|u o' r|u o' r|u []]; simpl in *; rewrite ?Hne; reflexivity. }
    unfold opl in *. rewrite E. exact H.
  Qed.
  Lemma thr_other : forall e h t x, ev_tid e <> t -> thr h t x -> thr (e :: h) t x.
  Proof. intros e h t x Hne H. destruct x; simpl in *; intuition auto using opl_other. Qed.

End P.

  Lemma cinv_step : forall kd s l s', CInv kd s -> chan_step kd s l = Some s' -> CInv kd s'.
  Proof.
    intros kd s lb s' HI H. unfold chan_step in H.
    assert (HW' : WF cop_eqb cres_eqb s')
      by (eapply wf_step; eauto using cop_refl, cres_refl, c_wf).
    destruct HI as [HW Hb Hc Hr Hok Hth He Hf].
    destruct lb as [t o|t b|t].
    - apply call_post in H. destruct H as (Ht&Hd'&Hq'&Hw'&Hh'&Hp).
      constructor; rewrite ?Hd', ?Hh', ?Hq', ?Hw'; auto; try (apply always_at_cons; split; [exact I|assumption]).
      apply Hp; [apply thr_woken| |].
      + intros u Hu. apply thr_other; [simpl; congruence|apply Hth].
      + simpl. unfold opl. simpl. rewrite Nat.eqb_refl. destruct o; simpl; auto.
    - apply run_post with (1 := HW) in H. destruct H as (o&l&Ht&H).
      assert (Hl : opl kd (mhist s) t o l).
      { specialize (Hth t). destruct Ht as [Ht|(c&Ht)]; rewrite Ht in Hth; simpl in Hth; tauto. }
      assert (Hwk : forall c, (length (wk s c) <= length (wk (unwake s t) c) + (match cv_of l with Some c' => if Nat.eqb c c' then 1 else 0 | None => 0 end))%nat).
      { intros c. rewrite unwake_wk with (1 := HW).
        specialize (Hth t). destruct Ht as [Ht|(c'&Ht)]; rewrite Ht in *; simpl in Hth.
        - lia.
        - destruct Hth as [_ ->]. destruct (Nat.eqb c c'); lia. }
      assert (HE := Hwk EMPTY). assert (HF := Hwk FULL). clear Hwk Ht.
      assert (Hpi := put_index_lt (mhist s) t).
      assert (Hbu : buffered (mhist s) = length (cbuf (dat s))).
      { unfold buffered. rewrite Hb, app_length. lia. }
      assert (Hlen : length (accepted (mhist s)) = length (delivered (mhist s)) + length (cbuf (dat s)))
        by now rewrite Hb, app_length.
      destruct (dat s) as [bf cl]. cbn [cbuf cclosed] in *.
      unfold opl in Hl.
      Ltac seg :=
        match goal with H : _ /\ _ /\ _ /\ (forall c : nat, _) |- _ =>
          let Hq0 := fresh "Hq0" in let Hq1 := fresh "Hq1" in
          destruct H as (Hd'&Hh'&Hp&Hqw);
          pose proof (Hqw EMPTY) as Hq0; pose proof (Hqw FULL) as Hq1; clear Hqw;
          cbn in Hq0, Hq1; injection Hq0 as Hqe Hwe; injection Hq1 as Hqf Hwf end.
      Ltac fin :=
        match goal with Hd' : dat ?s' = _, Hh' : mhist ?s' = _ |- _ =>
          unfold EMPTY, FULL in *; cbn in Hd', Hh'; constructor; rewrite ?Hd', ?Hh'; cbn [cbuf cclosed];
          [ assumption
          | cbn [accepted delivered]; try match goal with Hb : accepted _ = _ |- _ => rewrite Hb end;
            rewrite <- ?app_assoc; reflexivity
          | cbn [is_closed]; assumption || reflexivity
          | unfold room in *; rewrite ?app_length in *; cbn [length] in *; try match goal with k : kind |- _ => destruct k end; try exact I; try lia
          | repeat (apply always_at_cons; split); try assumption; cbn [chan_event_ok own_puts put_index is_closed];
            rewrite ?Nat.eqb_refl; try exact I
          | match goal with Hp : thr_post _ _ _ _ |- _ => apply Hp end;
            [ apply thr_woken
            | intros u Hu; repeat (apply thr_other; [simpl; congruence|]); auto
            | cbn [thr opl own_puts]; rewrite ?Nat.eqb_refl; try exact I ]
          | | ] end.
      Ltac qq s :=
        cbn [cv_of] in *; unfold EMPTY, FULL in *; intros Hne;
        repeat match goal with Hx : qs ?s' _ = _ |- _ => rewrite Hx in *; clear Hx
                             | Hx : wk ?s' _ = _ |- _ => rewrite Hx in *; clear Hx end;
        rewrite ?app_length in *; cbn [Nat.eqb cv_of length] in *;
        try (destruct (qs s 0%nat) eqn:?; cbn [tl firstn length] in *; try congruence);
        try (destruct (qs s 1%nat) eqn:?; cbn [tl firstn length] in *; try congruence);
        repeat match goal with H : _ :: _ <> [] -> _ |- _ => specialize (H ltac:(discriminate)) end;
        first [ split; [intuition congruence|]; try match goal with k : kind |- _ => destruct k end; solve [exact I | intuition (try congruence; lia)]
              | exfalso; intuition congruence | idtac ].
      destruct o as [v| | | |]; destruct l as [w|w|w| | | | |]; try contradiction; cbn [chan_body cbuf cclosed] in H.
      + (* LPush *)
        destruct Hl as [-> Hl].
        destruct cl eqn:Ecl.
        * seg; fin; try (right; auto); try qq s.
        * destruct kd as [| |n] eqn:Ek.
          -- unfold do_push in H; cbn [cbuf cclosed] in H. seg; fin; try qq s.
             ++ left. rewrite Hl. repeat split; auto; intros; discriminate.
             ++ split; auto.
          -- destruct (Nat.eqb_spec (length bf) 1) as [E1|E1]; seg; fin; try qq s.
             ++ repeat split; auto; discriminate.
             ++ split; auto. unfold room in Hr. rewrite Hbu. lia.
             ++ rewrite Hl. auto.
          -- destruct (Nat.eqb_spec (length bf) n) as [E1|E1].
             ++ seg; fin; try qq s. repeat split; auto; discriminate.
             ++ unfold do_push in H; cbn [cbuf cclosed] in H. seg; fin; try qq s.
                ** left. rewrite Hl. repeat split; auto; intros; discriminate.
                ** split; auto. unfold room in Hr. rewrite Hbu. lia.
      + (* LPushW *)
        destruct Hl as (->&Hl&Hk).
        destruct kd as [| |n] eqn:Ek; [congruence| |].
        * destruct cl; seg; fin; try qq s; try (right; auto).
          repeat split; auto; discriminate.
        * destruct cl; cbn [orb] in H.
          -- seg; fin; try qq s; try (right; auto).
          -- destruct (Nat.ltb_spec (length bf) n) as [E1|E1].
             ++ unfold do_push in H; cbn [cbuf cclosed] in H. seg; fin; try qq s.
                ** left. rewrite Hl. repeat split; auto; intros; discriminate.
                ** split; auto. lia.
             ++ seg; fin; try qq s. repeat split; auto; discriminate.
      + (* LSyncW *)
        destruct Hl as (->&Hl&Hk). rewrite Hl in Hpi. specialize (Hpi ltac:(discriminate)).
        destruct cl; cbn [orb] in H.
        * seg; fin; try qq s; subst kd; cbn in *; try lia. left. auto.
        * destruct bf as [|x bf]; cbn [is_nil] in H.
          -- seg; fin; try qq s; subst kd; cbn in *; try lia.
             left. repeat split; auto. intros _. right. lia.
          -- seg; fin; try qq s; subst kd; cbn in *; try lia. repeat split; auto.
      + (* LPop *)
        destruct bf as [|x bf]; cbn [is_nil] in H; [destruct cl|unfold do_pop in H; cbn [cbuf cclosed] in H].
        * seg; fin; try qq s. right. rewrite app_nil_r in Hb. auto.
        * seg; fin; try qq s. auto.
        * seg; fin; try qq s. left. exists x. split; auto. rewrite Hb. apply nth_error_mid.
      + (* LPopW *)
        destruct bf as [|x bf]; cbn [is_nil] in H; [destruct cl; cbn in H|rewrite orb_true_r in H; unfold do_pop in H; cbn [cbuf cclosed] in H].
        * seg; fin; try qq s. right. rewrite app_nil_r in Hb. auto.
        * seg; fin; try qq s. auto.
        * seg; fin; try qq s. left. exists x. split; auto. rewrite Hb. apply nth_error_mid.
      + seg; fin; try reflexivity; try qq s.
      + seg; fin; try qq s. now rewrite Hc.
      + seg; fin; try qq s. rewrite Hbu. destruct bf; reflexivity.
    - apply leave_post in H. destruct H as (o&r&Ht&Hd'&Hq'&Hw'&Hh'&Hp).
      constructor; rewrite ?Hd', ?Hh', ?Hq', ?Hw'; auto; try (apply always_at_cons; split; [exact I|assumption]).
      apply Hp; [apply thr_woken| |exact I].
      intros u Hu. apply thr_other; [simpl; congruence|apply Hth].
  Qed.

Definition kind_ok (kd : kind) : Prop := forall n, kd = KFix n -> 0 < n.

Theorem cinv_run : forall kd ls s, kind_ok kd -> run (chan_step kd) chan_init ls = Some s -> CInv kd s.
Proof. intros kd ls s Hk. apply run_inv; [apply cinv_init, Hk|apply cinv_step]. Qed.

Lemma kind_of_size_ok : forall z, kind_ok (kind_of_size z).
Proof.
  intros z n. unfold kind_of_size. destruct (Z.ltb_spec z 0); [discriminate|].
  destruct (Z.eqb_spec z 0); [discriminate|]. intros E. injection E as <-. lia.
Qed.

(** ** Consequences of [chan_event_ok], independent of the model. *)
Lemma ok_prefix : forall kd h, always_at (chan_event_ok kd) h ->
  exists rest, accepted h = delivered h ++ rest.
Proof.
  intros kd h. induction h as [|e h IH]; intros Hok; [exists []; reflexivity|].
  apply always_at_cons in Hok. destruct Hok as [He Hok]. destruct (IH Hok) as (rest&E).
  destruct e as [t o|t o r|t o r|t [v]].
  - exists rest. exact E.
  - destruct o as [v| | | |]; try (exists rest; exact E).
    simpl in He. destruct He as [(v&->&Hv)|(->&_)]; [|exists rest; exact E].
    simpl. rewrite E in *. rewrite nth_error_app2, Nat.sub_diag in Hv by lia.
    destruct rest as [|w rest]; [discriminate|]. injection Hv as ->.
    exists rest. now rewrite <- app_assoc.
  - exists rest. exact E.
  - exists (rest ++ [v]). simpl. now rewrite E, app_assoc.
Qed.

Definition cap_ok (kd : kind) (n : nat) : Prop :=
  match kd with KUnl => True | KSync => n <= 1 | KFix m => n <= m end.

Lemma ok_cap : forall kd h, always_at (chan_event_ok kd) h -> cap_ok kd (buffered h).
Proof.
  intros kd h. induction h as [|e h IH]; intros Hok; [destruct kd; unfold buffered; simpl; lia|].
  apply always_at_cons in Hok. destruct Hok as [He Hok]. specialize (IH Hok).
  unfold buffered in *.
  destruct e as [t o|t o r|t o r|t [v]]; try exact IH.
  - destruct o as [v| | | |]; try exact IH. destruct r; try exact IH.
    simpl. rewrite app_length. simpl. destruct kd; simpl in *; lia.
  - simpl in *. rewrite app_length. simpl. destruct He as [_ He].
    destruct kd; simpl in *; unfold buffered in He; lia.
Qed.

Lemma always_intro : forall kd (Q : list cev -> Prop) h,
  (forall h', always_at (chan_event_ok kd) h' -> Q h') -> always_at (chan_event_ok kd) h -> always Q h.
Proof.
  intros kd Q h HQ Hok newer older E. apply HQ. intros n e o E2. apply (Hok (newer ++ n)).
  now rewrite E, E2, app_assoc.
Qed.

Lemma closed_mono : forall (h : list cev), always_at (fun e older => is_closed older = true -> is_closed (e :: older) = true) h.
Proof.
  intros h newer e older _ H. destruct e as [t o|t o r|t o r|t []]; simpl; auto. destruct o; auto.
Qed.

Lemma inv_buffered : forall kd s, CInv kd s -> buffered (mhist s) = length (cbuf (dat s)).
Proof. intros kd s H. unfold buffered. rewrite (c_buf _ _ H), app_length. lia. Qed.

Lemma chan_quiescent : forall kd s t o, CInv kd s -> quiescent chan_entry (chan_body kd) s ->
  phase_of cop_eqb cres_eqb (mhist s) t = Some (PPending o) ->
  match o with
  | OPop => is_closed (mhist s) = false /\ buffered (mhist s) = 0
  | OPush v => is_closed (mhist s) = false /\
      match kd with KUnl => False | KFix n => buffered (mhist s) = n | KSync => True end
  | _ => False
  end.
Proof.
  intros kd s t o HI HQ Hp. assert (Hb := inv_buffered _ _ HI).
  destruct HI as [HW Hbf Hc Hr Hok Hth He Hf].
  rewrite (w_ph HW t) in Hp. specialize (Hth t).
  rewrite (quiescent_wk EMPTY HW HQ) in He. rewrite (quiescent_wk FULL HW HQ) in Hf. simpl in He, Hf.
  destruct (quiescent_ths t HQ) as [E|(c&o'&l&E)]; rewrite E in *; simpl in Hp; [discriminate|].
  injection Hp as ->. simpl in Hth. destruct Hth as [Hl Hcv].
  assert (Hin : In t (qs s c)) by (apply (w_q HW); eauto).
  rewrite Hb, Hc. unfold opl in Hl.
  destruct o, l; try contradiction; simpl in Hcv; try discriminate; injection Hcv as <-.
  - destruct (qs s FULL); [contradiction|]. specialize (Hf ltac:(discriminate)). destruct Hl as (_&_&Hk).
    destruct Hf as [Hf1 Hf2]. split; auto. destruct kd as [| |n]; auto. simpl in Hr. lia.
  - destruct (qs s FULL); [contradiction|]. specialize (Hf ltac:(discriminate)). destruct Hl as (_&_&->).
    destruct Hf as [Hf1 Hf2]. split; auto.
  - destruct (qs s EMPTY); [contradiction|]. specialize (He ltac:(discriminate)). destruct He. split; auto. lia.
Qed.

(** A pending push on an unlimited channel finishes with its next step. *)
Lemma unl_push : forall s t v, CInv KUnl s ->
  phase_of cop_eqb cres_eqb (mhist s) t = Some (PPending (OPush v)) ->
  exists s' r, chan_step KUnl s (MRun t false) = Some s' /\
    phase_of cop_eqb cres_eqb (mhist s') t = Some (PDone (OPush v) r).
Proof.
  intros s t v HI Hp. assert (HW := c_wf _ _ HI). assert (Hth := c_thr _ _ HI t).
  rewrite (w_ph HW t) in Hp.
  assert (Ht : ths s t = TReady (OPush v) (LPush v)).
  { destruct (ths s t) as [|o l|c o l|c o l|o r] eqn:E; simpl in Hp; try discriminate; injection Hp as ->;
      simpl in Hth; unfold opl in Hth; destruct l; simpl in Hth; try tauto; try (intuition discriminate).
    destruct Hth as [-> _]. reflexivity. }
  assert (Hs : exists s', chan_step KUnl s (MRun t false) = Some s').
  { unfold chan_step. simpl. rewrite Ht. eauto. }
  destruct Hs as (s'&Hs).
  assert (HW' : WF cop_eqb cres_eqb s') by (eapply wf_step; [exact cop_refl|exact cres_refl|exact HW|exact Hs]).
  pose proof (run_self _ _ _ _ _ Hs (or_introl Ht)) as E.
  exists s'. rewrite (w_ph HW' t), E. cbn [chan_body].
  destruct (cclosed (dat s)); simpl; eauto.
Qed.

(** ** One producer on an unbuffered channel. *)
Section Single.
  Variable p : tid.
  Notation st := (mst cdat cop cres caux cloc).

  Definition only_p (t : tid) (x : tst cop cres cloc) : Prop :=
    match x with
    | TReady (OPush _) l | TWait _ (OPush _) l | TWoken _ (OPush _) l =>
        t = p /\ match l with LPushW _ => False | _ => True end
    | _ => True
    end.
  Definition at_sync (x : tst cop cres cloc) : Prop :=
    match x with
    | TWait _ (OPush _) (LSyncW _) | TWoken _ (OPush _) (LSyncW _) => True
    | _ => False
    end.
  Record SP (s : st) : Prop := mkSP {
    p_inv : CInv KSync s;
    p_only : forall t, only_p t (ths s t);
    p_at : cbuf (dat s) <> [] -> cclosed (dat s) = false -> at_sync (ths s p);
    p_q : qs s FULL <> [] -> cbuf (dat s) <> [];
    p_puts : forall u v, In (EAux u (APut v)) (mhist s) -> u = p
  }.
  Lemma only_woken : forall t x, only_p t x -> only_p t (woken x).
  Proof. intros t [|o l|c o l|c o l|o r]; simpl; auto. Qed.

  Lemma puts_index : forall h, (forall u v, In (EAux u (APut v)) h -> u = p) ->
    put_index h p = length (accepted h) - 1.
  Proof.
    induction h as [|e h IH]; intros H; auto.
    destruct e as [u o|u o r|u o r|u [v]]; simpl; try (apply IH; intros u' v' Hi; apply (H u' v'); now right).
    rewrite (H u v) by now left. rewrite Nat.eqb_refl, app_length. simpl. lia.
  Qed.

  Lemma full_short : forall s, SP s -> length (qs s FULL) <= 1.
  Proof.
    intros s [HI Ho _ _ _]. destruct HI as [HW _ _ _ _ Hth _ _].
    assert (HA : forall t, In t (qs s FULL) -> t = p).
    { intros t Hi. apply (w_q HW) in Hi. destruct Hi as (o&l&E). specialize (Ho t). specialize (Hth t).
      rewrite E in *. simpl in *. destruct Hth as [Hl Hc]. unfold opl in Hl.
      destruct o, l; try contradiction; simpl in Hc; try discriminate; tauto. }
    pose proof (w_nodup HW FULL) as Hn. destruct (qs s FULL) as [|a [|b r]]; simpl; try lia.
    exfalso. inversion Hn; subst. apply H1. rewrite (HA a), (HA b); simpl; auto.
  Qed.

  Lemma sp_step : forall s l s', SP s -> chan_step KSync s l = Some s' ->
    single_producer p (mhist s') -> SP s'.
  Proof.
    intros s lb s' HS H Hrule. assert (Hsh := full_short _ HS).
    destruct HS as [HI Ho Ha Hq Hpu].
    assert (HI' := cinv_step _ _ _ _ HI H). unfold chan_step in H.
    assert (HW := c_wf _ _ HI).
    destruct lb as [t o|t b|t].
    - destruct (call_ths _ _ _ _ _ H) as [Hs1 Hs2].
      apply call_post in H. destruct H as (Ht&Hd'&Hq'&Hw'&Hh'&Hp).
      constructor; rewrite ?Hd', ?Hq'; auto; try (rewrite Hh'; intros u' v' [E|Hi]; [discriminate|exact (Hpu u' v' Hi)]).
      + apply Hp; auto using only_woken. destruct o as [v| | | |]; simpl; auto.
        split; auto. apply (Hrule t v). rewrite Hh'. now left.
      + intros B C. specialize (Ha B C). destruct (Nat.eq_dec p t) as [<-|Hne].
        * rewrite Ht in Ha. destruct Ha.
        * now rewrite Hs2.
    - assert (Hrun := H). apply run_post with (1 := HW) in H. destruct H as (o&l&Ht&H).
      assert (Hl : opl KSync (mhist s) t o l).
      { pose proof (c_thr _ _ HI t) as Hth. destruct Ht as [Ht|(c&Ht)]; rewrite Ht in Hth; simpl in Hth; tauto. }
      assert (Hol : only_p t (TReady o l)).
      { specialize (Ho t). destruct Ht as [Ht|(c&Ht)]; rewrite Ht in Ho; simpl in *; auto. }
      assert (Hself := run_self _ _ _ _ _ Hrun Ht).
      assert (Hr := c_room _ _ HI). unfold room in Hr.
      assert (Hnp : cbuf (dat s) <> [] -> cclosed (dat s) = false ->
                     t <> p \/ exists v, o = OPush v /\ l = LSyncW v).
      { intros B C. specialize (Ha B C). destruct (Nat.eq_dec t p) as [->|]; [right|now left].
        destruct Ht as [Ht|(c&Ht)]; rewrite Ht in Ha; simpl in Ha; [contradiction|].
        destruct o as [v| | | |], l; try contradiction. exists v. simpl in Hl. destruct Hl as [-> _]. auto. }
      assert (Hpost : forall x, thr_post s s' t x -> only_p t x ->
                (forall u, only_p u (ths s' u)) /\
                (t <> p -> at_sync (ths s p) -> at_sync (ths s' p))).
      { intros x Hx Hxo. split; [apply Hx; auto using only_woken|].
        intros Hne Has. apply (Hx (fun u y => u = p -> at_sync y)); [| | |reflexivity].
        - intros u [|o' l'|c o' l'|c o' l'|o' r'] G E; specialize (G E); simpl in *; auto.
        - intros u _ ->. exact Has.
        - intros E. congruence. }
      destruct (dat s) as [bf cl]. cbn [cbuf cclosed] in *.
      Ltac seg2 :=
        match goal with H : _ /\ _ /\ _ /\ (forall c : nat, _), Hpost : forall x, thr_post _ _ _ x -> _ |- _ =>
          let Hq1 := fresh "Hq1" in let Hd' := fresh "Hd'" in let Hh' := fresh "Hh'" in let Hp := fresh "Hp" in
          let Hqw := fresh "Hqw" in let Hqf := fresh "Hqf" in let Hon := fresh "Hon" in
          destruct H as (Hd'&Hh'&Hp&Hqw);
          pose proof (Hqw FULL) as Hq1; clear Hqw; cbn in Hq1; apply (f_equal fst) in Hq1; cbn [fst] in Hq1;
          destruct (Hpost _ Hp) as [Hon Hat]; [simpl; auto|];
          constructor; rewrite ?Hd'; cbn [cbuf cclosed]; auto; rewrite ?Hq1; auto;
          try (rewrite Hh'; cbn; let u := fresh "u'" in let v := fresh "v'" in let Hi := fresh "Hi" in intros u v Hi;
               repeat (destruct Hi as [Hi|Hi]; [congruence|]); solve [eauto]) end.
      destruct o as [v| | | |]; destruct l as [w|w|w| | | | |]; try contradiction; cbn [chan_body cbuf cclosed] in *;
        try (cbn in Hol; tauto).
      + destruct Hl as [-> Hl]. cbn in Hol. destruct Hol as [-> _].
        destruct cl; [seg2; intros; discriminate|].
        assert (E : bf = []).
        { destruct bf as [|x bf]; auto. exfalso. destruct Hnp as [?|(?&?&?)]; try discriminate; congruence. }
        subst bf. simpl in H. seg2; try discriminate.
        intros _ _. rewrite Hself. simpl. exact I.
      + destruct Hl as (->&Hl&_). cbn in Hol. destruct Hol as [-> _].
        destruct cl; cbn [orb] in H, Hself; [seg2; intros; discriminate|].
        destruct bf as [|x bf]; cbn [is_nil] in H, Hself; [seg2; intros; congruence|].
        seg2; try discriminate. intros _ _. rewrite Hself. simpl. exact I.
      + destruct bf as [|x bf]; cbn [is_nil] in H, Hself.
        * destruct cl; seg2; intros; congruence.
        * destruct bf; [|simpl in Hr; lia]. unfold do_pop in *. cbn [cbuf cclosed] in *.
          seg2; try congruence. destruct (qs s FULL) as [|a [|b' r]]; simpl in *; try congruence; lia.
      + destruct bf as [|x bf]; cbn [is_nil negb] in H, Hself.
        * rewrite orb_false_r in *. destruct cl; seg2; intros; congruence.
        * rewrite orb_true_r in *. destruct bf; [|simpl in Hr; lia]. unfold do_pop in *. cbn [cbuf cclosed] in *.
          seg2; try congruence. destruct (qs s FULL) as [|a [|b' r]]; simpl in *; try congruence; lia.
      + seg2; intros; congruence.
      + seg2. intros B C. destruct (Hnp B C) as [Hne|(?&?&?)]; [auto|discriminate].
      + seg2. intros B C. destruct (Hnp B C) as [Hne|(?&?&?)]; [auto|discriminate].
    - destruct (leave_ths _ _ _ _ H) as [Hs1 Hs2].
      apply leave_post in H. destruct H as (o&r&Ht&Hd'&Hq'&Hw'&Hh'&Hp).
      constructor; rewrite ?Hd', ?Hq'; auto; try (rewrite Hh'; intros u' v' [E|Hi]; [discriminate|exact (Hpu u' v' Hi)]).
      + apply Hp; simpl; auto using only_woken.
      + intros B C. specialize (Ha B C). destruct (Nat.eq_dec p t) as [<-|Hne].
        * rewrite Ht in Ha. destruct Ha.
        * now rewrite Hs2.
  Qed.

  Lemma sp_run : forall ls s, run (chan_step KSync) chan_init ls = Some s ->
    single_producer p (mhist s) -> SP s.
  Proof.
    intros ls s Hr.
    refine (run_rule_inv cop_refl cres_refl chan_entry (chan_body KSync) SP (single_producer p) _ _ _ _ ls Hr).
    - intros newer older H t v Hi. apply (H t v). apply in_or_app. now right.
    - apply wf_init.
    - constructor; simpl; auto; try congruence; try contradiction. apply cinv_init. discriminate.
    - exact sp_step.
  Qed.

  Lemma sp_quiescent : forall s t o, SP s -> quiescent chan_entry (chan_body KSync) s ->
    phase_of cop_eqb cres_eqb (mhist s) t = Some (PPending o) ->
    match o with
    | OPush v => is_closed (mhist s) = false /\ own_puts (mhist s) t = [v] /\
                 length (delivered (mhist s)) <= put_index (mhist s) t
    | OPop => is_closed (mhist s) = false /\ buffered (mhist s) = 0
    | _ => False
    end.
  Proof.
    intros s t o HS HQ Hp. pose proof (chan_quiescent _ s t o (p_inv _ HS) HQ Hp) as Hq.
    destruct o as [v| | | |]; auto. destruct Hq as [Hc _]. split; auto.
    destruct HS as [HI Ho Ha Hf Hpu]. assert (HW := c_wf _ _ HI).
    rewrite (w_ph HW t) in Hp. specialize (Ho t). pose proof (c_thr _ _ HI t) as Hth.
    destruct (quiescent_ths t HQ) as [E|(c&o'&l&E)]; rewrite E in *; simpl in Hp; [discriminate|].
    injection Hp as ->. simpl in Hth, Ho. destruct Hth as [Hl Hcv].
    assert (Hin : In t (qs s c)) by (apply (w_q HW); eauto).
    destruct l; try contradiction; simpl in Hl, Ho, Hcv; try tauto; try discriminate.
    injection Hcv as <-. destruct Hl as (->&Hl&_). split; auto.
    assert (Hne : cbuf (dat s) <> []).
    { apply Hf. intro E2. rewrite E2 in Hin. destruct Hin. }
    pose proof (c_room _ _ HI) as Hr. unfold room in Hr.
    assert (Hb := inv_buffered _ _ HI).
    pose proof (c_buf _ _ HI) as Hbuf. apply (f_equal (@length val)) in Hbuf. rewrite app_length in Hbuf.
    destruct Ho as [-> _]. rewrite puts_index by assumption.
    destruct (cbuf (dat s)); [congruence|]. simpl in Hbuf. lia.
  Qed.
End Single.
