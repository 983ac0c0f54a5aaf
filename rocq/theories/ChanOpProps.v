(** C122: the operators of a channel. *)
From Coq Require Import List Arith Bool ZArith Lia.
From Verif Require Import Base LinSpec LinLemmas HistSpec Monitor MonitorProofs ChanSpec ChanModel ChanProofs ChanProps ChanIterModel ChanIterProofs.
From Verif Require Import ChanOpModel.
Import ListNotations.

(** Values accepted from [c], oldest first. *)
Fixpoint puts_by (h : list cev) (c : tid) : list val :=
  match h with
  | [] => []
  | EAux t (APut v) :: h' => if Nat.eqb t c then puts_by h' c ++ [v] else puts_by h' c
  | _ :: h' => puts_by h' c
  end.
(** Values the coroutine received, and those it may believe it has sent, going by what it saw. *)
Fixpoint got (l : list obs) : list val :=
  match l with [] => [] | BGt (Some v) :: r | BShr v :: r => v :: got r | _ :: r => got r end.
Fixpoint believed (l : list obs) : list val :=
  match l with [] => [] | BLt v true :: r | BShl v :: r => v :: believed r | _ :: r => believed r end.
(** The values accepted are those sent with < that returned true and some of those sent with <<. *)
Inductive Sent : list obs -> list val -> Prop :=
| s_nil : Sent [] []
| s_true : forall l vs v, Sent l vs -> Sent (l ++ [BLt v true]) (vs ++ [v])
| s_false : forall l vs v, Sent l vs -> Sent (l ++ [BLt v false]) vs
| s_shl : forall l vs v, Sent l vs -> Sent (l ++ [BShl v]) (vs ++ [v])
| s_lost : forall l vs v, Sent l vs -> Sent (l ++ [BShl v]) vs
| s_gt : forall l vs r, Sent l vs -> Sent (l ++ [BGt r]) vs
| s_shr : forall l vs v, Sent l vs -> Sent (l ++ [BShr v]) vs
| s_throw : forall l vs, Sent l vs -> Sent (l ++ [BThrow]) vs.
(** A receive that failed; an operator that told of a failure. *)
Definition failed_rcv (o : obs) : Prop := o = BGt None \/ o = BThrow.
Definition failure (o : obs) : Prop := failed_rcv o \/ exists v, o = BLt v false.

Lemma got_app : forall a b, got (a ++ b) = got a ++ got b.
Proof. induction a as [|[? []|[]| | |] a IH]; intros b; simpl; rewrite ?IH; auto. Qed.
Lemma believed_app : forall a b, believed (a ++ b) = believed a ++ believed b.
Proof. induction a as [|[? []|[]| | |] a IH]; intros b; simpl; rewrite ?IH; auto. Qed.

Section P.
  Variable kd : kind.
  Variable c : tid.
  Variable x0 : val.
  Hypothesis Hkd : kind_ok kd.

  Lemma puts_other : forall e h, ev_tid e <> c -> puts_by (e :: h) c = puts_by h c.
  Proof. intros e h Hne. apply Nat.eqb_neq in Hne. destruct e as [t o|t o r|t o r|t [v]]; auto. simpl in *. now rewrite Hne. Qed.
  Lemma puts_aux : forall t xs (h : list cev), t <> c -> puts_by (log_aux t xs h) c = puts_by h c.
  Proof. intros t xs. induction xs as [|x xs IH]; intros h N; auto. unfold log_aux in *. cbn [fold_left]. rewrite IH; auto. now apply puts_other. Qed.
  Lemma open_body : forall t l b d, cclosed (odat (chan_body kd t l b d)) = false -> cclosed d = false.
  Proof.
    intros t l b [bf cl] H. destruct cl; auto. destruct l; simpl in *; auto; try destruct kd; try discriminate; auto;
      try (destruct bf; discriminate); destruct (_ =? _); discriminate.
  Qed.
  (** A step of somebody else. *)
  Lemma other2 : forall m l m', CInv kd m -> chan_step kd m l = Some m' -> lbl_tid l <> c ->
    puts_by (mhist m') c = puts_by (mhist m) c /\ (cclosed (dat m') = false -> cclosed (dat m) = false).
  Proof.
    intros m l m' HI H Hne. assert (HW := c_wf _ _ HI). unfold chan_step in H. destruct l as [t o|t b|t]; simpl in Hne.
    - apply call_post in H. destruct H as (_&->&_&_&->&_). split; auto.
    - apply run_post with (1 := HW) in H. destruct H as (o&l&Ht&H). assert (Hf := open_body t l b (dat m)).
      destruct (chan_body kd t l b (dat m)) as [d xs sg r|d xs sg c0 l'|d xs sg l']; simpl in Hf; destruct H as (->&->&_&_);
        (split; [|exact Hf]); rewrite ?puts_other by (simpl; congruence); now apply puts_aux.
    - apply leave_post in H. destruct H as (o&r&_&->&_&_&->&_). split; auto.
  Qed.

  (** What the log says, with the values [base] accepted before the call under way. *)
  Record B (log : list obs) (x : val) (base : list val) (d : cdat) : Prop := mkB {
    b_sent : Sent log base;
    b_open : cclosed d = false -> base = believed log /\ forall o, In o log -> ~ failure o;
    b_slot : x = last (got log) x0;
    b_end : forall o, In o log -> failed_rcv o -> fin d }.
  Lemma b_mono : forall log x base d d', B log x base d -> (cclosed d' = false -> cclosed d = false) -> (fin d -> fin d') -> B log x base d'.
  Proof. intros log x base d d' [A1 A2 A3 A4] H1 H2. constructor; eauto. Qed.

  Definition pend (l : cloc) (base : list val) : list val := match l with LSyncW v => base ++ [v] | _ => base end.
  Definition ok (s : ost) : Prop :=
    let h := mhist (och s) in let d := dat (och s) in
    exists base, B (olog s) (oslot s) base d /\
    match ocur s, ths (och s) c with
    | None, TOut => taken_by h c = got (olog s) /\ puts_by h c = base
    | Some x, (TReady o l | TWait _ o l | TWoken _ o l) => o = call_of x /\ taken_by h c = got (olog s) /\ puts_by h c = pend l base
    | Some x, TDone o r => o = call_of x /\
        match o, r with
        | OPush v, RTrue => taken_by h c = got (olog s) /\ puts_by h c = base ++ [v]
        | OPush v, RFalse => taken_by h c = got (olog s) /\ puts_by h c = base /\ cclosed d = true
        | OPop, RSome v => taken_by h c = got (olog s) ++ [v] /\ puts_by h c = base
        | OPop, RNone => taken_by h c = got (olog s) /\ puts_by h c = base /\ fin d
        | _, _ => False
        end
    | _, _ => False
    end.
  Record OInv (s : ost) : Prop := mkOInv { o_ch : CInv kd (och s); o_ok : ok s }.

  Lemma oinv_init : OInv (oinit x0).
  Proof. constructor; simpl; auto using cinv_init. exists []. split; [|now split]. constructor; simpl; auto using s_nil; contradiction. Qed.

  Lemma b_seen : forall log x base d op r,
    B log x base d ->
    match call_of op, r with
    | OPush v, RTrue => True
    | OPush v, RFalse => cclosed d = true
    | OPop, RSome v => True
    | OPop, RNone => fin d
    | _, _ => False
    end -> B (log ++ [seen op r]) (assign (seen op r) x) (match call_of op, r with OPush v, RTrue => base ++ [v] | _, _ => base end) d.
  Proof.
    intros log x base d op r [A1 A2 A3 A4] H.
    assert (K : Sent (log ++ [seen op r]) (match call_of op, r with OPush v, RTrue => base ++ [v] | _, _ => base end)).
    { destruct op as [v| |v|]; simpl in H; destruct r as [| | |w|]; try contradiction; simpl; constructor; exact A1. }
    constructor; [exact K| | |]; clear K.
    - intros C. destruct (A2 C) as [-> N]. rewrite believed_app.
      destruct op as [v| |v|]; simpl in H; destruct r as [| | |w|]; try contradiction; try (exfalso; congruence); try (exfalso; destruct H; congruence); simpl;
        rewrite ?app_nil_r; (split; [reflexivity|]);
        intros o I F; apply in_app_or in I; destruct I as [I|[<-|[]]]; try (now apply (N o)); destruct F as [[F|F]|[u F]]; discriminate F.
    - rewrite got_app. destruct op as [v| |v|]; simpl in H; destruct r as [| | |w|]; try contradiction; simpl; rewrite ?app_nil_r, ?last_last; auto.
    - intros o I F. apply in_app_or in I. destruct I as [I|[<-|[]]]; [now apply (A4 o)|].
      destruct op as [v| |v|]; simpl in H; destruct r as [| | |w|]; try contradiction; simpl in F; auto; destruct F as [F|F]; discriminate F.
  Qed.

  Lemma ok_other : forall m m' cur log x,
    ok (mkO m cur log x) -> taken_by (mhist m') c = taken_by (mhist m) c -> puts_by (mhist m') c = puts_by (mhist m) c ->
    (fin (dat m) -> fin (dat m')) -> (cclosed (dat m') = false -> cclosed (dat m) = false) ->
    (ths m' c = ths m c \/ ths m' c = woken (ths m c)) -> ok (mkO m' cur log x).
  Proof.
    intros m m' cur log x (base&HB&H) Ht Hp Hf Hc Hths. exists base. cbn [och ocur olog oslot] in *. split; [now apply b_mono with (dat m)|]. rewrite Ht, Hp.
    assert (cclosed (dat m) = true -> cclosed (dat m') = true) by (intros E; destruct (cclosed (dat m')); auto; now rewrite Hc in E).
    destruct cur as [x'|]; destruct (ths m c) as [| | | |[] []]; destruct Hths as [-> | ->]; simpl; intuition auto.
  Qed.

  Lemma oinv_step : forall s lb s', OInv s -> ostep kd c s lb = Some s' -> OInv s'.
  Proof.
    intros [m cur log x] lb s' [HI Hc] H. cbn [och] in *.
    destruct lb as [l|op]; cbn [ostep och ocur olog oslot] in H.
    - destruct (Nat.eqb_spec (who l) c) as [E|E].
      + destruct l as [t o|t b|t]; simpl in E; [discriminate| |].
        * subst t. destruct cur as [op|]; [|discriminate]. destruct (chan_step kd m (MRun c b)) as [m'|] eqn:Em; [|discriminate].
          injection H as <-. assert (HI' := cinv_step _ _ _ _ HI Em). constructor; [exact HI'|].
          assert (HW := c_wf _ _ HI). unfold chan_step in Em. assert (Em2 := Em).
          apply run_post with (1 := HW) in Em. destruct Em as (o&l&Ht&Em).
          assert (Hs := run_self _ _ _ _ _ Em2 Ht).
          assert (Hl : opl kd (mhist m) c o l).
          { pose proof (c_thr _ _ HI c) as Hth. destruct Ht as [Ht|(cc&Ht)]; rewrite Ht in Hth; simpl in Hth; tauto. }
          destruct Hc as (base&HB&Hc). cbn [och ocur olog oslot] in *.
          assert (Hc' : o = call_of op /\ taken_by (mhist m) c = got log /\ puts_by (mhist m) c = pend l base)
            by (destruct Ht as [Ht|(cc&Ht)]; rewrite Ht in Hc; exact Hc).
          destruct Hc' as (Ho&Hg&Hp). clear Hc Em2 HI'. exists base. cbn [och ocur olog oslot]. rewrite Hs. clear Hs Ht.
          destruct (dat m) as [bf cl].
          assert (HB' : cclosed (dat m') = cl -> (fin (mkC bf cl) -> fin (dat m')) -> B log x base (dat m')).
          { intros E1 E2. apply b_mono with (mkC bf cl); auto. simpl. congruence. }
          destruct o as [v| | | |]; try (destruct op; discriminate Ho).
          -- destruct l as [w|w|w| | | | |]; try contradiction; destruct Hl as (->&Hk); cbn [pend] in Hp;
               cbn [chan_body cbuf cclosed do_push] in *.
             ++ destruct cl; [|destruct kd as [| |n]; [|destruct (_ =? _)|destruct (_ =? _)]]; unfold do_push in *; cbn in Em; destruct Em as (Hd&Hh&_&_);
                  rewrite Hd in *; rewrite Hh; (split; [apply HB'; [reflexivity|intros [F1 F2]; try discriminate F1; split; auto]|]); cbn [taken_by puts_by log_aux fold_left];
                  rewrite ?Nat.eqb_refl, ?Hg, ?Hp; cbn; auto.
             ++ destruct kd as [| |n]; [now destruct Hk as [_ []]|destruct cl|destruct cl; [|destruct (_ <? _)]]; unfold do_push in *; cbn in Em; destruct Em as (Hd&Hh&_&_);
                  rewrite Hd in *; rewrite Hh; (split; [apply HB'; [reflexivity|intros [F1 F2]; try discriminate F1; split; auto]|]); cbn [taken_by puts_by log_aux fold_left];
                  rewrite ?Nat.eqb_refl, ?Hg, ?Hp; cbn; auto.
             ++ destruct (cl || is_nil bf); cbn in Em; destruct Em as (Hd&Hh&_&_);
                  rewrite Hd in *; rewrite Hh; (split; [apply HB'; auto|]); cbn [taken_by puts_by log_aux fold_left pend];
                  rewrite ?Hg, ?Hp; auto.
          -- destruct l; try contradiction; cbn [pend] in Hp; cbn [chan_body cbuf cclosed] in *; destruct bf as [|y bf]; cbn [is_nil negb] in *;
               rewrite ?orb_true_r, ?orb_false_r in *; unfold do_pop in *; cbn [cbuf cclosed] in *;
               try destruct cl; cbn in Em; destruct Em as (Hd&Hh&_&_); rewrite Hd in *; rewrite Hh;
               (split; [apply HB'; [reflexivity|intros [F1 F2]; try discriminate F1; try discriminate F2; split; auto]|]); cbn [taken_by puts_by]; rewrite ?Nat.eqb_refl, ?Hg, ?Hp;
               unfold fin; simpl; auto.
        * subst t. destruct cur as [op|]; [|discriminate]. destruct (ths m c) as [|o l|cc o l|cc o l|o r] eqn:Et; try discriminate.
          destruct (chan_step kd m (MLeave c)) as [m'|] eqn:Em; [|discriminate].
          injection H as <-. assert (HI' := cinv_step _ _ _ _ HI Em). constructor; [exact HI'|].
          unfold chan_step in Em. destruct (leave_ths _ _ _ _ Em) as [Hs1 _].
          apply leave_post in Em. destruct Em as (o'&r'&_&Hd&_&_&Hh&_).
          destruct Hc as (base&HB&Hc). cbn [och ocur olog oslot] in *. rewrite Et in Hc. destruct Hc as (->&Hc).
          assert (K := b_seen log x base (dat m) op r HB). unfold ok. cbn [och ocur olog oslot]. rewrite Hs1, Hd, Hh. cbn [taken_by puts_by].
          exists (match call_of op, r with OPush v, RTrue => base ++ [v] | _, _ => base end).
          split; [apply K; destruct op, r; simpl in *; tauto|]. rewrite got_app.
          destruct op as [v| |v|]; simpl in Hc |- *; destruct r; try contradiction; simpl; rewrite ?app_nil_r; tauto.
      + destruct (chan_step kd m l) as [m'|] eqn:Em; [|discriminate]. injection H as <-.
        destruct (other_step kd c Hkd m l m' HI Em E) as (H1&H2&H3). destruct (other2 m l m' HI Em E) as (H4&H5).
        constructor; cbn [och]; eauto using cinv_step. now apply ok_other with m.
    - destruct cur as [op'|]; [discriminate|]. destruct (chan_step kd m (MCall c (call_of op))) as [m'|] eqn:Em; [|discriminate]. injection H as <-.
      assert (HI' := cinv_step _ _ _ _ HI Em). constructor; [exact HI'|]. unfold chan_step in Em.
      destruct (call_ths _ _ _ _ _ Em) as [Hs1 _].
      apply call_post in Em. destruct Em as (Ht&Hd&_&_&Hh&_). destruct Hc as (base&HB&Hc).
      cbn [och ocur olog oslot] in *. exists base. cbn [och ocur olog oslot]. rewrite Hs1, Hd, Hh. cbn [taken_by puts_by]. rewrite Ht in Hc. split; [exact HB|].
      split; [reflexivity|]. destruct op; exact Hc.
  Qed.
  Theorem oinv_run : forall ls s, run (ostep kd c) (oinit x0) ls = Some s -> OInv s.
  Proof. intros ls s. apply run_inv; [apply oinv_init|apply oinv_step]. Qed.
End P.


Lemma closed_keeps : forall kd m l m', CInv kd m -> chan_step kd m l = Some m' -> is_closed (mhist m) = true ->
  is_closed (mhist m') = true /\ accepted (mhist m') = accepted (mhist m).
Proof.
  intros kd m l m' HI H C. assert (HI' := cinv_step _ _ _ _ HI H). assert (P : exists new, mhist m' = new ++ mhist m).
  { unfold chan_step in H. destruct l as [t o|t b|t].
    - apply call_post in H. destruct H as (_&_&_&_&->&_). now exists [ECall t o].
    - apply run_post with (1 := c_wf _ _ HI) in H. destruct H as (o&l&_&H). destruct (chan_body kd t l b (dat m)) as [d xs sg r|d xs sg c0 l'|d xs sg l'];
        destruct H as (_&->&_&_); rewrite log_aux_app; [now exists (ELin t o r :: rev (map (fun x => EAux t x) xs))|eauto|eauto].
    - apply leave_post in H. destruct H as (o&r&_&_&_&_&->&_). now exists [ERet t o r]. }
  destruct P as [new E]. assert (A := c_ok _ _ HI'). rewrite E in A |- *. clear H HI' E m'. induction new as [|e new IH]; [auto|].
  apply always_at_cons in A. destruct A as [A1 A2]. destruct (IH A2) as [I1 I2]. cbn [app]. destruct e as [t o|t o r|t o r|t [v]]; simpl; auto.
  - split; [now destruct o|auto].
  - simpl in A1. destruct A1 as [A1 _]. exfalso. apply eq_true_false_abs with (1 := I1). exact A1.
Qed.

(** C122 REFUTED for <<: the operator comes back though the value was not accepted, and never will be; what the coroutine has seen is the same as
    where it was accepted. *)
Definition shut : list olbl := [OL (MCall 1 OClose); OL (MRun 1 false); OL (MLeave 1)].
Definition shl (v : val) : list olbl := [OGo (XShl v); OL (MRun 9 false); OL (MLeave 9)].
Theorem shl_lost_refuted : exists s s',
  run (ostep (kind_of_size (-1)) 9) (oinit 0) (shut ++ shl 5) = Some s /\ run (ostep (kind_of_size (-1)) 9) (oinit 0) (shl 5) = Some s' /\
  olog s = [BShl 5] /\ olog s' = olog s /\ oslot s' = oslot s /\ ocur s = None /\ ocur s' = None /\ accepted (mhist (och s')) = [5] /\
  forall ls s2, run (ostep (kind_of_size (-1)) 9) s ls = Some s2 -> accepted (mhist (och s2)) = [].
Proof.
  destruct (run (ostep (kind_of_size (-1)) 9) (oinit 0) (shut ++ shl 5)) as [s|] eqn:E; [|vm_compute in E; discriminate E].
  assert (HI := oinv_run _ 9 0 (kind_of_size_ok (-1)) _ _ E).
  assert (F : olog s = [BShl 5] /\ oslot s = 0 /\ ocur s = None /\ is_closed (mhist (och s)) = true /\ accepted (mhist (och s)) = []) by (vm_compute in E; injection E as <-; repeat split).
  destruct F as (F1&F2&F3&F4&F5). exists s. eexists. split; [reflexivity|]. split; [vm_compute; reflexivity|]. rewrite F1, F2, F3.
  do 6 (split; [reflexivity|]). intros ls. clear E F1 F2 F3.
  revert s HI F4 F5. induction ls as [|lb ls IH]; intros s HI F4 F5 s2 R; [injection R as <-; exact F5|]. cbn [run] in R.
  destruct (ostep (kind_of_size (-1)) 9 s lb) as [s3|] eqn:E; [|discriminate R].
  assert (HI3 := oinv_step _ 9 0 (kind_of_size_ok (-1)) _ _ _ HI E).
  assert (X : exists l, chan_step (kind_of_size (-1)) (och s) l = Some (och s3)).
  { clear - E. unfold ostep in E. destruct lb as [l|x].
    - exists l. destruct (who l =? 9).
      + destruct l, (ocur s) as [y|]; try discriminate.
        * destruct (chan_step _ _ _) as [m'|]; [|discriminate]. now injection E as <-.
        * destruct (ths (och s) 9); try discriminate. destruct (chan_step _ _ _) as [m'|]; [|discriminate]. now injection E as <-.
      + destruct (chan_step _ _ _) as [m'|]; [|discriminate]. now injection E as <-.
    - exists (MCall 9 (call_of x)). destruct (ocur s); [discriminate|]. destruct (chan_step _ _ _) as [m'|]; [|discriminate]. now injection E as <-. }
  destruct X as [l X]. destruct (closed_keeps _ _ _ _ (o_ch _ _ _ _ HI) X F4) as [G1 G2]. apply (IH s3 HI3); congruence.
Qed.
Print Assumptions shl_lost_refuted.

(** What holds, whenever the coroutine is between operators: it has received, in order, exactly what was taken from the channel for it, and the
    variable holds the last of these (a failed receive changes nothing); of what it sent with < exactly the values for which it got true were
    accepted, of what it sent with << some; all of it, and without any failure, as long as the channel is open; and a receive failed only if the
    channel is closed and everything accepted was delivered. *)
Theorem op_partial : forall size c x0 ls s, run (ostep (kind_of_size size) c) (oinit x0) ls = Some s -> ocur s = None ->
  taken_by (mhist (och s)) c = got (olog s) /\ oslot s = last (got (olog s)) x0 /\ Sent (olog s) (puts_by (mhist (och s)) c) /\
  (is_closed (mhist (och s)) = false -> puts_by (mhist (och s)) c = believed (olog s) /\ forall o, In o (olog s) -> ~ failure o) /\
  (forall o, In o (olog s) -> failed_rcv o -> is_closed (mhist (och s)) = true /\ delivered (mhist (och s)) = accepted (mhist (och s))).
Proof.
  intros size c x0 ls s R N. destruct (oinv_run _ c x0 (kind_of_size_ok size) ls s R) as [HI (base&[A1 A2 A3 A4]&H)]. rewrite N in H.
  destruct (ths (och s) c); try contradiction. destruct H as [H1 H2]. rewrite H2, (c_closed _ _ HI), (c_buf _ _ HI).
  do 4 (split; [assumption|]). intros o I F. destruct (A4 o I F) as [-> ->]. now rewrite app_nil_r.
Qed.
Print Assumptions op_partial.
(** Who sends with < only knows exactly what was accepted. *)
Theorem lt_exact : forall size c x0 ls s, run (ostep (kind_of_size size) c) (oinit x0) ls = Some s -> ocur s = None -> (forall v, ~ In (BShl v) (olog s)) ->
  puts_by (mhist (och s)) c = believed (olog s).
Proof.
  intros size c x0 ls s R N F. destruct (op_partial _ _ _ _ _ R N) as (_&_&S1&_). revert F. induction S1; intros F; [reflexivity|..]; rewrite believed_app; cbn [believed];
    rewrite ?app_nil_r; try (f_equal; apply IHS1; intros u I; apply (F u), in_or_app; now left); try (apply IHS1; intros u I; apply (F u), in_or_app; now left).
  exfalso. apply (F v), in_or_app. right. now left.
Qed.
Print Assumptions lt_exact.

(** 9 sends 5 with << and 6 with <, receives 5 with >>; 1 closes; 9 receives 6 with >, then > fails, >> throws, < fails, << is lost. *)
Definition do9 (x : xop) : list olbl := [OGo x; OL (MRun 9 false); OL (MLeave 9)].
Example op_example : option_map (fun s => (olog s, oslot s, ocur s, puts_by (mhist (och s)) 9))
    (run (ostep (kind_of_size 3) 9) (oinit 77) (do9 (XShl 5) ++ do9 (XLt 6) ++ do9 XShr ++ shut ++ do9 XGt ++ do9 XGt ++ do9 XShr ++ do9 (XLt 7) ++ do9 (XShl 8))) =
  Some ([BShl 5; BLt 6 true; BShr 5; BGt (Some 6); BGt None; BThrow; BLt 7 false; BShl 8], 6, None, [5; 6]).
Proof. vm_compute. reflexivity. Qed.
