(** Proofs about the timed mutexes: generic part over any mutex model that obeys [laws], then the three instances. *)
From Coq Require Import List Arith Bool Lia.
From Verif Require Import Base SpinInv LinSpec TimedSpec TimedModel MutexSpec MutexModel RecMutexSpec SharedMutexSpec SpinObj
  SpinObjProofs RecMutexModel SharedMutexModel.
Import ListNotations.
Set Implicit Arguments.

Section Gen.
  Variables (U L Op Res Aux : Type).
  Variable F : face U L Op Res Aux.
  Variables (op_eqb : Op -> Op -> bool) (res_eqb : Res -> Res -> bool) (rt rf : Res).
  Variable I : U -> Prop.
  Notation event := (ev Op Res Aux).
  Notation phase := (@phase_of Op Res Aux op_eqb res_eqb).

  (** Laws of the underlying mutex model, in states satisfying [I]. *)
  Record laws : Prop := mkLaws {
    l_op : forall a b, op_eqb a b = true <-> a = b;
    l_res : forall a b, res_eqb a b = true <-> a = b;
    l_I : forall u l u', I u -> f_step F u l = Some u' -> I u';
    l_lbl : forall l, f_run F l = false -> exists o, l = f_call F (f_who F l) o;
    l_call_run : forall t o, f_run F (f_call F t o) = false;
    l_call_who : forall t o, f_who F (f_call F t o) = t;
    l_call_en : forall u t o, f_in F u t = None -> f_step F u (f_call F t o) <> None;
    l_call : forall u t o u', f_step F u (f_call F t o) = Some u' ->
      f_in F u t = None /\ f_hist F u' = ECall t o :: f_hist F u /\ f_in F u' t = Some o /\
      forall x, x <> t -> f_in F u' x = f_in F u x;
    l_run : forall u l u', I u -> f_run F l = true -> f_step F u l = Some u' ->
      exists o es, f_in F u (f_who F l) = Some o /\ f_hist F u' = es ++ f_hist F u /\
      (forall x o', ~ In (ECall x o') es) /\
      (forall x, x <> f_who F l -> f_in F u' x = f_in F u x) /\
      (forall x a, In (EAux x a) es -> x = f_who F l /\ f_try F o = false) /\
      match f_ret F u (f_who F l) with
      | Some r => es = [ERet (f_who F l) o r] /\ f_in F u' (f_who F l) = None
      | None => (forall x o' r, ~ In (ERet x o' r) es) /\ f_in F u' (f_who F l) = Some o
      end;
    l_ret : forall u t o r, I u -> f_in F u t = Some o -> f_try F o = true -> f_ret F u t = Some r ->
      r = if f_true F r then rt else rf
  }.
  Hypothesis LW : laws.

  Definition well (h : list event) : Prop := forall t, phase h t <> None.
  Lemma well_tail : forall e h, well (e :: h) -> well h.
  Proof. intros e h H t E. apply (H t). simpl. now rewrite E. Qed.
  Lemma well_app : forall es h, well (es ++ h) -> well h.
  Proof. induction es; intros h H; [exact H|]. apply IHes. eapply well_tail. exact H. Qed.

  Lemma own_app : forall t (a b : list event), own t (a ++ b) = own t a ++ own t b.
  Proof. intros; apply filter_app. Qed.

  Lemma phase_other : forall (e : event) h t, by_tid t e = false -> phase h t <> None -> phase (e :: h) t = phase h t.
  Proof.
    intros e h t He Hn. cbn [phase_of]. unfold phase_step. destruct (phase h t) as [p|] eqn:E; [|congruence].
    destruct e as [u o|u o r|u o r|u a]; cbn [by_tid] in *; try reflexivity;
      unfold by_tid in He; rewrite Nat.eqb_sym in He; now rewrite He.
  Qed.
  Lemma phase_lin : forall o r (h : list event) t, phase (ELin t o r :: h) t <> None ->
    phase h t = Some (PPending o) /\ phase (ELin t o r :: h) t = Some (PDone o r).
  Proof.
    intros o r h t. cbn [phase_of]. unfold phase_step. rewrite Nat.eqb_refl.
    destruct (phase h t) as [[|o'|o' r']|]; try congruence.
    destruct (op_eqb o o') eqn:Eo; [|congruence]. apply (l_op LW) in Eo. subst. auto.
  Qed.
  Lemma phase_aux : forall a (h : list event) u t, phase (EAux u a :: h) t = phase h t.
  Proof. intros. cbn [phase_of]. unfold phase_step. now destruct (phase h t). Qed.
  Lemma phase_call : forall o (h : list event) t, phase h t = Some PIdle -> phase (ECall t o :: h) t = Some (PPending o).
  Proof. intros o h t E. cbn [phase_of]. unfold phase_step. now rewrite E, Nat.eqb_refl. Qed.
  Lemma phase_ret : forall o r (h : list event) t, phase (ERet t o r :: h) t <> None ->
    phase h t = Some (PDone o r) /\ phase (ERet t o r :: h) t = Some PIdle.
  Proof.
    intros o r h t. cbn [phase_of]. unfold phase_step. rewrite Nat.eqb_refl.
    destruct (phase h t) as [[|o'|o' r']|]; try congruence.
    destruct (op_eqb o o') eqn:Eo; [|cbn; congruence]. destruct (res_eqb r r') eqn:Er; [|cbn; congruence].
    apply (l_op LW) in Eo. apply (l_res LW) in Er. subst. auto.
  Qed.
  Lemma own_other : forall t e (es : list event), by_tid t e = false -> own t (e :: es) = own t es.
  Proof. intros t e es H. unfold own. cbn [filter]. now rewrite H. Qed.
  Lemma own_same : forall t e (es : list event), by_tid t e = true -> own t (e :: es) = e :: own t es.
  Proof. intros t e es H. unfold own. cbn [filter]. now rewrite H. Qed.

  (** Events of a step of the mutex, seen from a coroutine that neither calls, returns nor parks in it. *)
  Lemma quiet_events : forall t es h, well (es ++ h) ->
    (forall o, ~ In (ECall t o) es) -> (forall o r, ~ In (ERet t o r) es) -> (forall a, ~ In (EAux t a) es) ->
    (own t es = [] /\ phase (es ++ h) t = phase h t) \/
    (exists o r, phase h t = Some (PPending o) /\ own t es = [ELin t o r] /\ phase (es ++ h) t = Some (PDone o r)).
  Proof.
    intros t es h. induction es as [|e es IH]; intros W HC HR HA; [left; auto|].
    assert (W' : well (es ++ h)) by (eapply well_tail; exact W).
    assert (IH' := IH W' (fun o X => HC o (or_intror X)) (fun o r X => HR o r (or_intror X)) (fun a X => HA a (or_intror X))).
    pose proof (W t) as Wt. cbn [app] in *. destruct (by_tid t e) eqn:Eb.
    - assert (exists o r, e = ELin t o r) as (o&r&->).
      { unfold by_tid in Eb. apply Nat.eqb_eq in Eb.
        destruct e as [u o|u o r|u o r|u a]; subst u; eauto; exfalso;
          [eapply HC|eapply HR|eapply HA]; left; reflexivity. }
      apply phase_lin in Wt. destruct Wt as [E1 E2]. right. exists o, r. rewrite own_same by exact Eb. rewrite E2.
      destruct IH' as [[A B]|(o'&r'&A&B&C)]; [|congruence]. rewrite A. repeat split; congruence.
    - rewrite phase_other by auto. rewrite own_other by exact Eb. exact IH'.
  Qed.

  (** What the position of [t] says about the history since its timed call began. *)
  Definition pos (s : tst U Op Res Aux) (t : tid) : Prop :=
    match tp s t with
    | TOut => True
    | TTry c => f_in F (mu s) t = None /\ f_try F (r_o c) = true /\ r_dl c = deadline (r_start c) (r_lim c) /\
        (forall x, In x (r_reads c) -> x < r_dl c) /\
        exists es, f_hist F (mu s) = es ++ r_h0 c /\ own t es = attempts t (r_o c) rf (length (r_reads c))
    | TIn c => f_in F (mu s) t = Some (r_o c) /\ f_try F (r_o c) = true /\ r_dl c = deadline (r_start c) (r_lim c) /\
        (forall x, In x (r_reads c) -> x < r_dl c) /\
        exists es, f_hist F (mu s) = es ++ r_h0 c /\
          ((phase (f_hist F (mu s)) t = Some (PPending (r_o c)) /\
            own t es = ECall t (r_o c) :: attempts t (r_o c) rf (length (r_reads c))) \/
           (exists r, phase (f_hist F (mu s)) t = Some (PDone (r_o c) r) /\
            own t es = ELin t (r_o c) r :: ECall t (r_o c) :: attempts t (r_o c) rf (length (r_reads c))))
    | TYield c | TTest c => f_in F (mu s) t = None /\ f_try F (r_o c) = true /\ r_dl c = deadline (r_start c) (r_lim c) /\
        (forall x, In x (r_reads c) -> x < r_dl c) /\
        exists es, f_hist F (mu s) = es ++ r_h0 c /\ own t es = attempts t (r_o c) rf (Datatypes.S (length (r_reads c)))
    | TRet c true => f_in F (mu s) t = None /\ f_try F (r_o c) = true /\ r_dl c = deadline (r_start c) (r_lim c) /\
        (forall x, In x (r_reads c) -> x < r_dl c) /\
        exists es, f_hist F (mu s) = es ++ r_h0 c /\
          own t es = attempt t (r_o c) rt ++ attempts t (r_o c) rf (length (r_reads c))
    | TRet c false => f_in F (mu s) t = None /\ f_try F (r_o c) = true /\ r_dl c = deadline (r_start c) (r_lim c) /\
        exists last before, r_reads c = last :: before /\ r_dl c <= last <= clk s /\
        (forall x, In x before -> x < r_dl c) /\
        exists es, f_hist F (mu s) = es ++ r_h0 c /\
          own t es = attempts t (r_o c) rf (length (r_reads c))
    end.

  (** Phases agree with positions. *)
  Definition agree (u : U) : Prop := forall t,
    match f_in F u t with
    | None => phase (f_hist F u) t = Some PIdle
    | Some o => phase (f_hist F u) t = Some (PPending o) \/ exists r, phase (f_hist F u) t = Some (PDone o r)
    end.

  Record TI (s : tst U Op Res Aux) : Prop := mkTI {
    ti_I : I (mu s);
    ti_agree : agree (mu s);
    ti_pos : forall t, pos s t;
    ti_fin : forall c, In c (fin s) -> tcall_ok rt rf c /\ f_try F (c_o c) = true
  }.

  (** The call of a method by [t]. *)
  Lemma call_agree : forall u t o u', agree u -> f_step F u (f_call F t o) = Some u' -> agree u'.
  Proof.
    intros u t o u' H Hs x. destruct (l_call LW _ _ _ Hs) as (Hi&Hh&Hi'&Ho). rewrite Hh.
    destruct (Nat.eq_dec x t) as [->|Hne].
    - rewrite Hi'. left. specialize (H t). rewrite Hi in H. now apply phase_call.
    - rewrite (Ho x Hne). pose proof (H x) as Hx. 
      assert (E : phase (ECall t o :: f_hist F u) x = phase (f_hist F u) x).
      { apply phase_other; [unfold by_tid; now apply Nat.eqb_neq|]. destruct (f_in F u x); [|congruence].
        destruct Hx as [Hx|[r Hx]]; congruence. }
      rewrite E. exact Hx.
  Qed.

  (** A step of a coroutine inside, seen from [x]. *)
  Lemma run_view : forall u l u' x, I u -> agree u -> f_run F l = true -> f_step F u l = Some u' -> well (f_hist F u') ->
    match f_in F u x with
    | None => f_in F u' x = None /\ exists es, f_hist F u' = es ++ f_hist F u /\ own x es = []
    | Some o => f_try F o = true ->
        (x = f_who F l /\ (exists r, f_ret F u x = Some r /\ f_in F u' x = None /\ f_hist F u' = ERet x o r :: f_hist F u /\
                                     phase (f_hist F u) x = Some (PDone o r))) \/
        ((x = f_who F l -> f_ret F u x = None) /\ f_in F u' x = Some o /\ exists es, f_hist F u' = es ++ f_hist F u /\
          ((own x es = [] /\ phase (f_hist F u') x = phase (f_hist F u) x) \/
           (exists r, phase (f_hist F u) x = Some (PPending o) /\ own x es = [ELin x o r] /\
                      phase (f_hist F u') x = Some (PDone o r))))
    end.
  Proof.
    intros u l u' x HI HA Hr Hs W. destruct (l_run LW _ HI Hr Hs) as (o&es&Hi&Hh&HC&Ho&HX&Hm).
    set (t := f_who F l) in *. rewrite Hh in W.
    destruct (Nat.eq_dec x t) as [->|Hne].
    - rewrite Hi. intros Htry. destruct (f_ret F u t) as [r|] eqn:Er.
      + left. split; [reflexivity|]. destruct Hm as [-> Hi']. exists r. cbn in Hh. repeat split; auto.
        apply phase_ret. exact (W t).
      + right. destruct Hm as [HR Hi']. split; [auto|]. split; [exact Hi'|]. exists es. split; [exact Hh|].
        destruct (quiet_events t es (f_hist F u)) as [[A B]|(o'&r&A&B&C)]; auto.
        * intros a Ha. apply HX in Ha. destruct Ha; congruence.
        * left. rewrite Hh. auto.
        * right. exists r. pose proof (HA t) as Ha. rewrite Hi, A in Ha.
          destruct Ha as [Ha|[? Ha]]; [|discriminate]. injection Ha as ->. rewrite Hh. auto.
    - rewrite (Ho x Hne).
      assert (HC' : forall o', ~ In (ECall x o') es) by (intros; apply HC).
      assert (HX' : forall a, ~ In (EAux x a) es) by (intros a Ha; apply HX in Ha; destruct Ha; congruence).
      assert (HR' : forall o' r, ~ In (ERet x o' r) es).
      { intros o' r. destruct (f_ret F u t) as [r0|]; [|destruct Hm as [Hm _]; apply Hm].
        destruct Hm as [-> _]. intros [E|[]]. congruence. }
      pose proof (@quiet_events x es (f_hist F u) W HC' HR' HX') as Q. pose proof (HA x) as Hx.
      destruct (f_in F u x) as [o'|].
      + intros Htry. right. split; [congruence|]. split; [reflexivity|]. exists es. split; [exact Hh|]. rewrite Hh.
        destruct Q as [[A B]|(o2&r&A&B&C)]; [left; auto|]. right. rewrite A in Hx.
        destruct Hx as [Hx|[? Hx]]; [|discriminate]. injection Hx as ->. exists r. auto.
      + split; [reflexivity|]. exists es. split; [exact Hh|]. destruct Q as [[A B]|(o2&r&A&B&C)]; [auto|congruence].
  Qed.

  Lemma run_agree : forall u l u', I u -> agree u -> f_run F l = true -> f_step F u l = Some u' -> well (f_hist F u') ->
    agree u'.
  Proof.
    intros u l u' HI HA Hr Hs W x. destruct (l_run LW _ HI Hr Hs) as (o&es&Hi&Hh&HC&Ho&HX&Hm).
    set (t := f_who F l) in *. pose proof (HA x) as Hx. pose proof (W x) as Wx.
    assert (Haux : forall y, phase (f_hist F u') y <> None).
    { intros y. apply W. }
    destruct (Nat.eq_dec x t) as [->|Hne].
    - rewrite Hi in Hx. destruct (f_ret F u t) as [r|].
      + destruct Hm as [-> ->]. rewrite Hh in *. apply phase_ret in Wx. apply Wx.
      + destruct Hm as [HR ->]. clear HX Hi Ho Hs. rewrite Hh in *. clear Hh.
        revert Wx Haux HC HR W. induction es as [|e es IH]; intros Wx Haux HC HR W; [exact Hx|].
        assert (W' : well (es ++ f_hist F u)) by (eapply well_tail; exact W).
        assert (IH' := IH (W' t) W' (fun y o' X => HC y o' (or_intror X)) (fun y o' r X => HR y o' r (or_intror X)) W').
        cbn [app] in *. destruct (by_tid t e) eqn:Eb; [|rewrite phase_other by auto; exact IH'].
        destruct e as [v o'|v o' r'|v o' r'|v a]; unfold by_tid in Eb; apply Nat.eqb_eq in Eb; subst v.
        * exfalso. eapply HC. left. reflexivity.
        * apply phase_lin in Wx. destruct Wx as [E1 E2]. rewrite E2. destruct IH' as [E|[r E]]; [|congruence].
          rewrite E in E1. injection E1 as ->. eauto.
        * exfalso. eapply HR. left. reflexivity.
        * rewrite phase_aux. exact IH'.
    - rewrite (Ho x Hne).
      assert (HC' : forall o', ~ In (ECall x o') es) by (intros; apply HC).
      assert (HX' : forall a, ~ In (EAux x a) es) by (intros a Ha; apply HX in Ha; destruct Ha; congruence).
      assert (HR' : forall o' r, ~ In (ERet x o' r) es).
      { intros o' r. destruct (f_ret F u t) as [r0|]; [|destruct Hm as [Hm _]; apply Hm].
        destruct Hm as [-> _]. intros [E|[]]. congruence. }
      rewrite Hh in *.
      destruct (@quiet_events x es (f_hist F u) W HC' HR' HX') as [[A B]|(o2&r&A&B&C)]; [now rewrite B|].
      rewrite A in Hx. rewrite C. destruct (f_in F u x); [|discriminate].
      destruct Hx as [Hx|[? Hx]]; [|discriminate]. injection Hx as ->. eauto.
  Qed.

  (** The position of [x] does not depend on what others do. *)
  Lemma pos_frame : forall s s' x es,
    pos s x -> tp s' x = tp s x -> clk s <= clk s' -> f_in F (mu s') x = f_in F (mu s) x ->
    f_hist F (mu s') = es ++ f_hist F (mu s) -> own x es = [] ->
    phase (f_hist F (mu s')) x = phase (f_hist F (mu s)) x -> pos s' x.
  Proof.
    intros s s' x es Hp Ht Hc Hi Hh Ho Hph. unfold pos in *. rewrite Ht, Hi, Hph, Hh.
    destruct (tp s x) as [|c|c|c|c|c [|]]; auto.
    - destruct Hp as (A&B&C&D&es0&E&G). repeat (split; auto). exists (es ++ es0). rewrite E, app_assoc, own_app, Ho. auto.
    - destruct Hp as (A&B&C&D&es0&E&G). repeat (split; auto). exists (es ++ es0). rewrite E, app_assoc, own_app, Ho. auto.
      split; [reflexivity|]. rewrite E in G. exact G.
    - destruct Hp as (A&B&C&D&es0&E&G). repeat (split; auto). exists (es ++ es0). rewrite E, app_assoc, own_app, Ho. auto.
    - destruct Hp as (A&B&C&D&es0&E&G). repeat (split; auto). exists (es ++ es0). rewrite E, app_assoc, own_app, Ho. auto.
    - destruct Hp as (A&B&C&D&es0&E&G). repeat (split; auto). exists (es ++ es0). rewrite E, app_assoc, own_app, Ho. auto.
    - destruct Hp as (A&B&C&la&be&E1&E2&E3&es0&E&G). repeat (split; auto). exists la, be. repeat (split; [solve [auto|lia]|]).
      exists (es ++ es0). rewrite E, app_assoc, own_app, Ho. auto.
  Qed.

  Lemma attempts_tail : forall t o r n, @attempts Op Res Aux t o r (Datatypes.S n) = attempt t o r ++ attempts t o r n.
  Proof. reflexivity. Qed.

  Lemma ti_step : forall s lb s', TI s -> tstep F s lb = Some s' -> well (f_hist F (mu s')) -> TI s'.
  Proof.
    intros s lb s' [HI HA HP HF] Hs W. destruct lb as [l|t o a|t|k]; cbn [tstep] in Hs.
    - destruct (f_run F l) eqn:Hr.
      + destruct (f_step F (mu s) l) as [u'|] eqn:Hu; [|discriminate]. injection Hs as <-. cbn in W.
        pose proof (@run_agree _ _ _ HI HA Hr Hu W) as HA'.
        constructor; cbn [mu tp clk fin]; auto; [eapply (l_I LW); eauto|].
        intros x. pose proof (@run_view _ _ _ x HI HA Hr Hu W) as V. pose proof (HP x) as Px.
        set (t := f_who F l) in *.
        assert (Other : x <> t -> after F s t x = tp s x).
        { intros Hne. unfold after. destruct (tp s t); auto. destruct (f_ret F (mu s) t); auto. now apply upd_other. }
        destruct (f_in F (mu s) x) as [o|] eqn:Hin.
        * (* inside a method *)
          unfold pos in Px. cbn [mu]. 
          destruct (tp s x) as [|c|c|c|c|c [|]] eqn:Etp; try (destruct Px; congruence).
          -- (* directly *)
             assert (E : after F s t x = TOut).
             { destruct (Nat.eq_dec x t) as [->|Hne]; [unfold after; now rewrite Etp|now rewrite Other]. }
             unfold pos. cbn [tp]. now rewrite E.
          -- destruct Px as (A&B&C&D&es0&E&G). assert (Eoo : o = r_o c) by congruence. subst o.
             destruct (V B) as [(->&r&Er&Ei&Eh&Ep)|(Hr0&Ei&es&Eh&Ecase)].
             ++ destruct G as [[G _]|(r1&G1&G2)]; [congruence|]. rewrite Ep in G1. injection G1 as <-.
                pose proof (l_ret LW _ HI Hin B Er) as Hrr.
                unfold pos. cbn [tp mu]. unfold after. rewrite Etp, Er, upd_same.
                destruct (f_true F r).
                ** repeat (split; auto). exists (ERet t (r_o c) r :: es0). rewrite Eh, E. split; [reflexivity|].
                   rewrite own_same by (unfold by_tid; apply Nat.eqb_refl). rewrite G2, Hrr. reflexivity.
                ** repeat (split; auto). exists (ERet t (r_o c) r :: es0). rewrite Eh, E. split; [reflexivity|].
                   rewrite own_same by (unfold by_tid; apply Nat.eqb_refl). rewrite G2, Hrr. reflexivity.
             ++ assert (E1 : after F s t x = TIn c).
                { destruct (Nat.eq_dec x t) as [->|Hne]; [unfold after; rewrite Etp, Hr0; auto|now rewrite Other]. }
                unfold pos. cbn [tp mu]. rewrite E1. repeat (split; auto).
                exists (es ++ es0). split; [now rewrite Eh, E, app_assoc|]. rewrite own_app.
                destruct Ecase as [[Eo Eq]|(r&Ea&Eb&Ec)].
                ** rewrite Eo, Eq. exact G.
                ** rewrite Eb, Ec. destruct G as [[_ G]|(r1&G&_)]; [|congruence]. rewrite G. right. exists r. auto.
        * destruct V as (Ei&es&Eh&Eo).
          assert (E : after F s t x = tp s x).
          { destruct (Nat.eq_dec x t) as [->|Hne]; [|now apply Other]. unfold after.
            destruct (l_run LW _ HI Hr Hu) as (o&?&Hi&_). fold t in Hi. congruence. }
          eapply pos_frame with (es := es); eauto; cbn [mu tp clk]; try congruence; try lia.
          pose proof (HA x) as A1. pose proof (HA' x) as A2. rewrite Hin in A1. rewrite Ei in A2. congruence.
      + destruct (tp s (f_who F l)) as [|c|c|c|c|c b] eqn:Etp; try discriminate.
        destruct (f_step F (mu s) l) as [u'|] eqn:Hu; [|discriminate]. injection Hs as <-.
        destruct (l_lbl LW l Hr) as [o El]. set (t := f_who F l) in *. rewrite El in Hu.
        pose proof (@call_agree _ _ _ _ HA Hu) as HA'. destruct (l_call LW _ _ _ Hu) as (Hi&Hh&Hi'&Ho).
        constructor; cbn [mu tp clk fin setmu]; auto; [eapply (l_I LW); eauto|].
        intros x. destruct (Nat.eq_dec x t) as [->|Hne].
        * unfold pos. cbn [tp setmu]. now rewrite Etp.
        * apply pos_frame with (s := s) (es := [ECall t o]); cbn [mu tp clk setmu]; auto.
          -- apply own_other. unfold by_tid. now apply Nat.eqb_neq.
          -- rewrite Hh. apply phase_other; [unfold by_tid; now apply Nat.eqb_neq|].
             pose proof (HA x) as Hx. destruct (f_in F (mu s) x); [|congruence].
             destruct Hx as [Hx|[r Hx]]; congruence.
    - destruct (tp s t) eqn:Etp; try discriminate. destruct (f_in F (mu s) t) eqn:Hin; [discriminate|].
      destruct (f_try F o) eqn:Htry; [|discriminate]. injection Hs as <-.
      constructor; cbn [mu tp clk fin settp]; auto. intros x. destruct (Nat.eq_dec x t) as [->|Hne].
      + unfold pos. cbn [tp settp mu]. rewrite upd_same. cbn [r_o r_dl r_start r_lim r_reads r_h0].
        repeat (split; auto); try contradiction. exists []. auto.
      + apply pos_frame with (s := s) (es := []); cbn [mu tp clk settp]; auto. now apply upd_other.
    - assert (Fr : forall p u' es, f_hist F u' = es ++ f_hist F (mu s) -> forall x, x <> t -> own x es = [] ->
        f_in F u' x = f_in F (mu s) x -> phase (f_hist F u') x = phase (f_hist F (mu s)) x ->
        forall ff, pos (mkTs u' (upd (tp s) t p) (clk s) ff) x).
      { intros p u' es E1 x Hne E2 E3 E4 ff. apply pos_frame with (s := s) (es := es); cbn [mu tp clk]; auto.
        now apply upd_other. }
      pose proof (HP t) as Pt. unfold pos in Pt.
      destruct (tp s t) as [|c|c|c|c|c b] eqn:Etp; try discriminate.
      + destruct (f_step F (mu s) (f_call F t (r_o c))) as [u'|] eqn:Hu; [|discriminate]. injection Hs as <-.
        pose proof (@call_agree _ _ _ _ HA Hu) as HA'. destruct (l_call LW _ _ _ Hu) as (Hi&Hh&Hi'&Ho).
        constructor; cbn [mu tp clk fin]; auto; [eapply (l_I LW); eauto|].
        intros x. destruct (Nat.eq_dec x t) as [->|Hne].
        * unfold pos. cbn [tp mu]. rewrite upd_same. destruct Pt as (A&B&C&D&es0&E&G). repeat (split; auto).
          exists (ECall t (r_o c) :: es0). rewrite Hh, E. split; [reflexivity|]. left.
          rewrite own_same by (unfold by_tid; apply Nat.eqb_refl). rewrite G. split; [|reflexivity].
          pose proof (HA t) as Ha. rewrite A in Ha. rewrite E in Ha. now apply phase_call.
        * apply Fr with (es := [ECall t (r_o c)]); auto.
          -- apply own_other. unfold by_tid. now apply Nat.eqb_neq.
          -- rewrite Hh. apply phase_other; [unfold by_tid; now apply Nat.eqb_neq|].
             pose proof (HA x) as Hx. destruct (f_in F (mu s) x); [|congruence].
             destruct Hx as [Hx|[r Hx]]; congruence.
      + destruct (f_mark F (mu s) t); [discriminate|]. injection Hs as <-.
        constructor; cbn [mu tp clk fin settp]; auto. intros x. destruct (Nat.eq_dec x t) as [->|Hne].
        * unfold pos. cbn [tp mu settp]. rewrite upd_same. exact Pt.
        * apply Fr with (es := []); auto.
      + injection Hs as <-.
        constructor; cbn [mu tp clk fin settp]; auto. intros x. destruct (Nat.eq_dec x t) as [->|Hne].
        * unfold pos. cbn [tp mu settp]. rewrite upd_same. destruct Pt as (A&B&C&D&es0&E&G).
          destruct (Nat.ltb_spec (clk s) (r_dl c)); cbn [r_o r_dl r_start r_lim r_reads r_h0 clk].
          -- repeat (split; auto). { intros x [<-|Hx]; auto. } exists es0. auto.
          -- repeat (split; auto). exists (clk s), (r_reads c). repeat (split; auto). exists es0. auto.
        * apply Fr with (es := []); auto.
      + injection Hs as <-.
        constructor; cbn [mu tp clk fin]; auto.
        * intros x. destruct (Nat.eq_dec x t) as [->|Hne].
          -- unfold pos. cbn [tp]. now rewrite upd_same.
          -- apply Fr with (es := []); auto.
        * intros c0 [<-|Hc]; auto. split; [|cbn [c_o]; destruct b; apply Pt]. unfold tcall_ok, c_dl. cbn [c_h1 c_h0 c_ans c_t c_o c_reads c_start c_lim c_end].
          destruct b.
          -- destruct Pt as (A&B&C&D&es0&E&G). exists es0. rewrite <- C. auto.
          -- destruct Pt as (A&B&C&la&be&E1&E2&E3&es0&E&G). exists es0. split; [exact E|]. exists la, be. rewrite <- C. auto.
    - injection Hs as <-. constructor; cbn [mu tp clk fin]; auto.
      intros x. apply pos_frame with (s := s) (es := []); cbn [mu tp clk]; auto. lia.
  Qed.

  Lemma tstep_hist : forall s lb s', I (mu s) -> tstep F s lb = Some s' ->
    I (mu s') /\ (mu s' = mu s \/ exists l, f_step F (mu s) l = Some (mu s')) /\ exists es, f_hist F (mu s') = es ++ f_hist F (mu s).
  Proof.
    intros s lb s' HI Hs.
    assert (Under : forall l u', f_step F (mu s) l = Some u' ->
      I u' /\ (exists l, f_step F (mu s) l = Some u') /\ exists es, f_hist F u' = es ++ f_hist F (mu s)).
    { intros l u' Hu. split; [eapply (l_I LW); eauto|]. split; [eauto|]. destruct (f_run F l) eqn:Hr.
      - destruct (l_run LW _ HI Hr Hu) as (o&es&_&Hh&_). eauto.
      - destruct (l_lbl LW l Hr) as [o El]. rewrite El in Hu. destruct (l_call LW _ _ _ Hu) as (_&Hh&_). exists [ECall (f_who F l) o]. exact Hh. }
    assert (Stay : forall s1 : tst U Op Res Aux, mu s1 = mu s -> I (mu s1) /\ (mu s1 = mu s \/ exists l, f_step F (mu s) l = Some (mu s1)) /\ exists es, f_hist F (mu s1) = es ++ f_hist F (mu s)).
    { intros s1 ->. split; auto. split; auto. now exists []. }
    destruct lb as [l|t o a|t|k]; cbn [tstep] in Hs.
    - destruct (f_run F l).
      + destruct (f_step F (mu s) l) as [u'|] eqn:Hu; [|discriminate]. injection Hs as <-. cbn [mu].
        destruct (Under _ _ Hu) as (A&B&C). auto.
      + destruct (tp s (f_who F l)); try discriminate.
        destruct (f_step F (mu s) l) as [u'|] eqn:Hu; [|discriminate]. injection Hs as <-. cbn [mu setmu].
        destruct (Under _ _ Hu) as (A&B&C). auto.
    - destruct (tp s t); try discriminate. destruct (f_in F (mu s) t); [discriminate|].
      destruct (f_try F o); [|discriminate]. injection Hs as <-. now apply Stay.
    - destruct (tp s t) as [|c|c|c|c|c b]; try discriminate.
      + destruct (f_step F (mu s) (f_call F t (r_o c))) as [u'|] eqn:Hu; [|discriminate]. injection Hs as <-. cbn [mu].
        destruct (Under _ _ Hu) as (A&B&C). auto.
      + destruct (f_mark F (mu s) t); [discriminate|]. injection Hs as <-. now apply Stay.
      + injection Hs as <-. now apply Stay.
      + injection Hs as <-. now apply Stay.
    - injection Hs as <-. now apply Stay.
  Qed.

  Variable u0 : U.
  Hypothesis I0 : I u0.
  Hypothesis H0 : f_hist F u0 = [].
  Hypothesis N0 : forall t, f_in F u0 t = None.

  Lemma ti_init : TI (tinit Op Res Aux u0).
  Proof.
    constructor; cbn [tinit mu tp fin]; auto; try contradiction.
    - intros t. rewrite N0, H0. reflexivity.
    - intros t. exact Logic.I.
  Qed.

  Lemma ti_reach : forall ls s, run (tstep F) (tinit Op Res Aux u0) ls = Some s -> well (f_hist F (mu s)) -> TI s.
  Proof.
    intros ls s Hr. revert Hr.
    assert (H : (fun s => I (mu s) /\ (well (f_hist F (mu s)) -> TI s)) s -> well (f_hist F (mu s)) -> TI s) by (intros [_ X]; exact X).
    intros Hr W. apply H; [|exact W]. clear H W. revert s Hr.
    refine (run_inv (tstep F) (fun s => I (mu s) /\ (well (f_hist F (mu s)) -> TI s)) _ _ _ ls).
    - split; [exact I0|]. intros _. exact ti_init.
    - intros s lb s' [HI HT] Hs. destruct (@tstep_hist _ _ _ HI Hs) as (A&_&es&B). split; [exact A|].
      intros W. eapply ti_step; eauto. apply HT. rewrite B in W. eapply well_app. exact W.
  Qed.

  (** Every execution of the timed mutex is one of the mutex. *)
  Lemma t_project : forall ls s, run (tstep F) (tinit Op Res Aux u0) ls = Some s -> exists ls', run (f_step F) u0 ls' = Some (mu s).
  Proof.
    intros ls s Hr.
    assert (H : I (mu s) /\ exists ls', run (f_step F) u0 ls' = Some (mu s)); [|apply H].
    revert s Hr. refine (run_inv (tstep F) (fun s => I (mu s) /\ exists ls', run (f_step F) u0 ls' = Some (mu s)) _ _ _ ls).
    - split; [exact I0|]. now exists [].
    - intros s lb s' [HI [ls' HT]] Hs. destruct (@tstep_hist _ _ _ HI Hs) as (A&B&_). split; [exact A|].
      destruct B as [->|[l B]]; [eauto|]. exists (ls' ++ [l]). rewrite run_app, HT. cbn. now rewrite B.
  Qed.
End Gen.

(** Own steps after the deadline. *)
Section Soon.
  Variables (U L Op Res Aux : Type).
  Variable F : face U L Op Res Aux.
  Variables (op_eqb : Op -> Op -> bool) (res_eqb : Res -> Res -> bool) (rt rf : Res).
  Variable I : U -> Prop.
  Hypothesis LW : laws F op_eqb res_eqb rt rf I.
  Variable left : U -> tid -> nat.

  Record laws2 : Prop := mkLaws2 {
    k_call : forall u t o u', f_try F o = true -> f_step F u (f_call F t o) = Some u' -> left u' t <= 3;
    k_other : forall u l u' x, f_step F u l = Some u' -> x <> f_who F l -> left u' x = left u x;
    k_own : forall u l u', I u -> f_step F u l = Some u' -> f_run F l = true ->
      forall o, f_in F u (f_who F l) = Some o -> f_try F o = true -> f_ret F u (f_who F l) = None ->
      left u' (f_who F l) < left u (f_who F l);
    k_pos : forall u t o, I u -> f_in F u t = Some o -> f_try F o = true -> 1 <= left u t
  }.
  Hypothesis K : laws2.

  Definition budget (s : tst U Op Res Aux) (t : tid) : nat :=
    match tp s t with
    | TOut => 0 | TTry _ => 7 | TIn _ => left (mu s) t + 3 | TYield _ => 3 | TTest _ => 2 | TRet _ _ => 1
    end.
  Definition inx (u : U) (t : tid) (p : tpc Op Res Aux) : Prop :=
    match p with
    | TOut => True
    | TIn c => f_in F u t = Some (r_o c) /\ f_try F (r_o c) = true /\ left u t <= 3
    | TTry c | TYield c | TTest c => f_in F u t = None /\ f_try F (r_o c) = true
    | TRet c b => f_in F u t = None
    end.
  Definition ins (s : tst U Op Res Aux) : Prop := I (mu s) /\ forall t, inx (mu s) t (tp s t).

  Lemma inx_other : forall u l u' x p, I u -> f_step F u l = Some u' -> x <> f_who F l -> inx u x p -> inx u' x p.
  Proof.
    intros u l u' x p HI Hu E H.
    assert (A : f_in F u' x = f_in F u x).
    { destruct (f_run F l) eqn:Hr.
      - destruct (@l_run _ _ _ _ _ _ _ _ _ _ _ LW _ _ _ HI Hr Hu) as (o&es&_&_&_&A&_). now apply A.
      - destruct (l_lbl LW _ Hr) as [o El]. set (w := f_who F l) in *. rewrite El in Hu.
        destruct (@l_call _ _ _ _ _ _ _ _ _ _ _ LW _ _ _ _ Hu) as (_&_&_&A). now apply A. }
    assert (B : left u' x = left u x) by (eapply (k_other K); eauto).
    destruct p; cbn [inx] in *; rewrite ?A, ?B; exact H.
  Qed.

  Lemma ins_step : forall s lb s', ins s -> tstep F s lb = Some s' -> ins s'.
  Proof.
    intros s lb s' [HI H] Hs. destruct lb as [l|t o a|t|k]; cbn [tstep] in Hs.
    - destruct (f_run F l) eqn:Hr.
      + destruct (f_step F (mu s) l) as [u'|] eqn:Hu; [|discriminate]. injection Hs as <-.
        split; [eapply (l_I LW); eauto|]. intros x. cbn [mu tp]. pose proof (H x) as Hx.
        destruct (@l_run _ _ _ _ _ _ _ _ _ _ _ LW _ _ _ HI Hr Hu) as (o&es&Hi&_&_&_&_&Hm). unfold after.
        destruct (Nat.eq_dec x (f_who F l)) as [->|E].
        * destruct (tp s (f_who F l)) as [|c|c|c|c|c b] eqn:Et; rewrite ?Et; cbn [inx] in *; auto;
            try (exfalso; destruct Hx; congruence); try (exfalso; congruence).
          destruct Hx as (A&B&C). assert (o = r_o c) by congruence. subst o.
          destruct (f_ret F (mu s) (f_who F l)) as [r|] eqn:Er.
          -- rewrite upd_same. destruct Hm as [_ Hm]. destruct (f_true F r); cbn [inx]; auto.
          -- rewrite Et. destruct Hm as [_ Hm]. cbn [inx]. repeat split; auto.
             pose proof (@k_own K _ _ _ HI Hu Hr _ A B Er). lia.
        * destruct (tp s (f_who F l)) as [|c|c|c|c|c b]; [| |destruct (f_ret F (mu s) (f_who F l)) as [r|]|..];
            rewrite ?upd_other by exact E; eapply inx_other; eauto.
      + destruct (tp s (f_who F l)) eqn:Et; try discriminate.
        destruct (f_step F (mu s) l) as [u'|] eqn:Hu; [|discriminate]. injection Hs as <-.
        split; [eapply (l_I LW); eauto|]. intros x. cbn [mu tp setmu].
        destruct (Nat.eq_dec x (f_who F l)) as [->|E]; [rewrite Et; exact Logic.I|]. eapply inx_other; eauto.
    - destruct (tp s t) eqn:Et; try discriminate. destruct (f_in F (mu s) t) eqn:Ei; [discriminate|].
      destruct (f_try F o) eqn:Eo; [|discriminate]. injection Hs as <-. split; [exact HI|]. intros x. cbn [mu tp settp].
      destruct (Nat.eq_dec x t) as [->|E]; [rewrite upd_same; cbn [inx r_o]; auto|rewrite upd_other by exact E; apply H].
    - pose proof (H t) as Ht. destruct (tp s t) as [|c|c|c|c|c b] eqn:Et; try discriminate.
      + destruct (f_step F (mu s) (f_call F t (r_o c))) as [u'|] eqn:Hu; [|discriminate]. injection Hs as <-.
        split; [eapply (l_I LW); eauto|]. intros x. cbn [mu tp].
        destruct (Nat.eq_dec x t) as [->|E]; [rewrite upd_same|rewrite upd_other by exact E].
        * destruct (@l_call _ _ _ _ _ _ _ _ _ _ _ LW _ _ _ _ Hu) as (_&_&A&_). destruct Ht as [_ Ht]. cbn [inx]. repeat split; auto.
          eapply (k_call K); eauto.
        * eapply inx_other; eauto. rewrite (l_call_who LW). exact E.
      + destruct (f_mark F (mu s) t); [discriminate|]. injection Hs as <-. split; [exact HI|]. intros x. cbn [mu tp settp].
        destruct (Nat.eq_dec x t) as [->|E]; [rewrite upd_same; auto|rewrite upd_other by exact E; apply H].
      + injection Hs as <-. split; [exact HI|]. intros x. cbn [mu tp settp].
        destruct (Nat.eq_dec x t) as [->|E]; [rewrite upd_same|rewrite upd_other by exact E; apply H].
        destruct (clk s <? r_dl c); cbn [inx r_o]; auto. apply Ht.
      + injection Hs as <-. split; [exact HI|]. intros x. cbn [mu tp].
        destruct (Nat.eq_dec x t) as [->|E]; [rewrite upd_same; exact Logic.I|rewrite upd_other by exact E; apply H].
    - injection Hs as <-. split; [exact HI|]. exact H.
  Qed.

  Lemma done_mono : forall s lb s' t, tstep F s lb = Some s' -> done t s <= done t s'.
  Proof.
    intros s lb s' t Hs. unfold done. destruct lb as [l|x o a|x|k]; cbn [tstep] in Hs;
      repeat match type of Hs with
      | (if ?b then _ else _) = _ => destruct b
      | match ?b with _ => _ end = _ => destruct b
      end; try discriminate; injection Hs as <-; cbn [fin settp setmu]; auto.
    cbn [filter c_t]. destruct (Nat.eqb x t); cbn [length]; lia.
  Qed.

  Lemma soon_step : forall s lb s' t c, ins s -> tstep F s lb = Some s' -> frame_of (tp s t) = Some c -> r_dl c <= clk s ->
    done t s < done t s' \/
    (exists c', frame_of (tp s' t) = Some c' /\ r_dl c' <= clk s' /\
      budget s' t + (if own_lbl F t lb then 1 else 0) <= budget s t).
  Proof.
    intros s lb s' t c [HI H] Hs Hc Hd. pose proof (H t) as Ht.
    assert (Oth : forall u' tp' f' l, f_step F (mu s) l = Some u' -> t <> f_who F l -> tp' t = tp s t ->
      exists c', frame_of (tp' t) = Some c' /\ r_dl c' <= clk s /\ budget (mkTs u' tp' (clk s) f') t + 0 <= budget s t).
    { intros u' tp' f' l Hu E Etp. exists c. rewrite Etp. split; [exact Hc|]. split; [exact Hd|].
      unfold budget. cbn [mu tp]. rewrite Etp. rewrite (@k_other K _ _ _ _ Hu E). destruct (tp s t); lia. }
    assert (Stay : forall s1, mu s1 = mu s -> clk s <= clk s1 -> tp s1 t = tp s t ->
      exists c', frame_of (tp s1 t) = Some c' /\ r_dl c' <= clk s1 /\ budget s1 t + 0 <= budget s t).
    { intros s1 E1 E2 E3. exists c. rewrite E3. split; [exact Hc|]. split; [lia|]. unfold budget. rewrite E1, E3. lia. }
    destruct lb as [l|x o a|x|k]; cbn [tstep own_lbl] in *.
    - destruct (f_run F l) eqn:Hr.
      + destruct (f_step F (mu s) l) as [u'|] eqn:Hu; [|discriminate]. injection Hs as <-. right.
        destruct (Nat.eqb_spec (f_who F l) t) as [<-|E]; cbn [andb].
        * destruct (@l_run _ _ _ _ _ _ _ _ _ _ _ LW _ _ _ HI Hr Hu) as (o&es&Hi&_&_&_&_&Hm). unfold budget. cbn [mu tp clk]. unfold after.
          destruct (tp s (f_who F l)) as [|c'|c'|c'|c'|c' b'] eqn:Et; cbn [frame_of inx] in *; try discriminate;
            try (exfalso; destruct Ht; congruence); try (exfalso; congruence).
          injection Hc as ->. destruct Ht as (A&B&C). pose proof (@k_pos K _ _ _ HI A B) as Hp.
          destruct (f_ret F (mu s) (f_who F l)) as [r|] eqn:Er.
          -- exists c. rewrite upd_same. destruct (f_true F r); cbn [frame_of]; repeat split; auto; lia.
          -- exists c. rewrite Et. cbn [frame_of]. repeat split; auto. pose proof (@k_own K _ _ _ HI Hu Hr _ A B Er). lia.
        * apply Oth with (l := l); auto. unfold after.
          destruct (tp s (f_who F l)); auto. destruct (f_ret F (mu s) (f_who F l)); auto. apply upd_other; auto.
      + destruct (tp s (f_who F l)) eqn:Et; try discriminate.
        destruct (f_step F (mu s) l) as [u'|] eqn:Hu; [|discriminate]. injection Hs as <-. right.
        cbn [andb]. apply Oth with (l := l); auto. intros ->. rewrite Et in Hc. discriminate.
    - destruct (tp s x) eqn:Et; try discriminate. destruct (f_in F (mu s) x) eqn:Ei; [discriminate|].
      destruct (f_try F o) eqn:Eo; [|discriminate]. injection Hs as <-. right. apply Stay; auto. cbn [tp settp].
      apply upd_other. intros ->. rewrite Et in Hc. discriminate.
    - destruct (Nat.eqb_spec x t) as [->|E].
      + destruct (tp s t) as [|c'|c'|c'|c'|c' b'] eqn:Et; cbn [frame_of inx] in *; try discriminate; injection Hc as ->.
        * destruct (f_step F (mu s) (f_call F t (r_o c))) as [u'|] eqn:Hu; [|discriminate]. injection Hs as <-. right.
          exists c. unfold budget. cbn [mu tp clk]. rewrite upd_same, Et. cbn [frame_of]. repeat split; auto.
          destruct Ht as [_ Ht]. pose proof (@k_call K _ _ _ _ Ht Hu). lia.
        * destruct (f_mark F (mu s) t); [discriminate|]. injection Hs as <-. right.
          exists c. unfold budget. cbn [mu tp clk settp]. rewrite upd_same, Et. cbn [frame_of]. repeat split; auto.
        * injection Hs as <-. right.
          destruct (Nat.ltb_spec (clk s) (r_dl c)); [lia|].
          eexists. unfold budget. cbn [mu tp clk settp]. rewrite upd_same, Et. cbn [frame_of r_dl].
          repeat split; eauto.
        * injection Hs as <-. left. unfold done. cbn [fin filter c_t]. rewrite Nat.eqb_refl. cbn [length]. lia.
      + right. destruct (tp s x) as [|c'|c'|c'|c'|c' b'] eqn:Et; try discriminate.
        * destruct (f_step F (mu s) (f_call F x (r_o c'))) as [u'|] eqn:Hu; [|discriminate]. injection Hs as <-.
          apply Oth with (l := f_call F x (r_o c')); auto; [rewrite (l_call_who LW); auto|apply upd_other; auto].
        * destruct (f_mark F (mu s) x); [discriminate|]. injection Hs as <-. apply Stay; auto. apply upd_other; auto.
        * injection Hs as <-. apply Stay; auto. apply upd_other; auto.
        * injection Hs as <-. apply Stay; auto. apply upd_other; auto.
    - injection Hs as <-. right. apply Stay; auto. cbn [clk]. lia.
  Qed.

  Lemma soon : forall ls s s' t c, ins s -> run (tstep F) s ls = Some s' -> frame_of (tp s t) = Some c -> r_dl c <= clk s ->
    budget s t <= length (filter (own_lbl F t) ls) -> done t s < done t s'.
  Proof.
    assert (Mono : forall ls s s' t, run (tstep F) s ls = Some s' -> done t s <= done t s').
    { induction ls as [|lb ls IH]; cbn [run]; intros s s' t Hr; [injection Hr as <-; auto|].
      destruct (tstep F s lb) as [s1|] eqn:E; [|discriminate]. pose proof (@done_mono _ _ _ t E). pose proof (IH _ _ t Hr). lia. }
    induction ls as [|lb ls IH]; intros s s' t c Hi Hr Hc Hd Hb.
    - exfalso. cbn in Hb. pose proof (proj2 Hi t) as Ht. unfold budget in Hb.
      destruct (tp s t); cbn [frame_of] in Hc; try discriminate; lia.
    - cbn [run] in Hr. destruct (tstep F s lb) as [s1|] eqn:E; [|discriminate].
      destruct (@soon_step _ _ _ _ _ Hi E Hc Hd) as [A|(c'&A&B&C)].
      + pose proof (Mono _ _ _ t Hr). lia.
      + pose proof (@done_mono _ _ _ t E). enough (done t s1 < done t s') by lia.
        eapply IH; eauto; [eapply ins_step; eauto|].
        cbn [filter] in Hb. destruct (own_lbl F t lb); cbn [length] in Hb; lia.
  Qed.

  Lemma ins_reach : forall u0 ls s, I u0 -> run (tstep F) (tinit Op Res Aux u0) ls = Some s -> ins s.
  Proof.
    intros u0 ls s H0. revert s. refine (run_inv (tstep F) ins _ _ ins_step ls). split; [exact H0|]. intros t. exact Logic.I.
  Qed.

  Lemma budget_le : forall s t, ins s -> budget s t <= 7.
  Proof. intros s t [_ H]. specialize (H t). unfold budget. destruct (tp s t); cbn [inx] in H; try lia. Qed.
End Soon.
