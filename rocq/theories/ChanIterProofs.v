From Coq Require Import List Arith Bool ZArith Lia.
From Verif Require Import Base LinSpec LinLemmas HistSpec Monitor MonitorProofs ChanSpec ChanModel ChanProofs ChanIterModel.
Import ListNotations.

Section P.
  Variable kd : kind.
  Variable c : tid.
  Hypothesis Hkd : kind_ok kd.

  Definition fin (d : cdat) : Prop := cclosed d = true /\ cbuf d = [].

  (** Data after a segment. *)
  Definition odat (x : outcome cdat cres caux cloc) : cdat :=
    match x with ORet d _ _ _ | OWait d _ _ _ _ | OAgain d _ _ _ => d end.
  Lemma fin_body : forall t l b d, fin d -> fin (odat (chan_body kd t l b d)).
  Proof.
    intros t l b [bf cl] [H1 H2]. simpl in *. subst. unfold fin. destruct l; simpl; auto; destruct kd; auto.
  Qed.

  Definition cst_ok (s : ist) : Prop :=
    let h := mhist (ich s) in let d := dat (ich s) in
    match ip s, ths (ich s) c with
    | PNext, TOut => taken_by h c = visited s
    | WPop, (TReady OPop _ | TWait _ OPop _ | TWoken _ OPop _) => taken_by h c = visited s
    | WPop, TDone OPop (RSome v) => taken_by h c = visited s ++ [v]
    | WPop, TDone OPop RNone => taken_by h c = visited s /\ fin d
    | (PCmp (Some v) | PCmp2 (Some v) | PVisit (Some v)), TOut => taken_by h c = visited s ++ [v]
    | (PCmp None | PCmp2 None | PStop), TOut => taken_by h c = visited s /\ fin d
    | WClosed (Some v), (TReady OIsClosed _ | TDone OIsClosed _) => taken_by h c = visited s ++ [v]
    | WClosed None, TReady OIsClosed _ => taken_by h c = visited s /\ fin d
    | WClosed None, TDone OIsClosed RTrue => taken_by h c = visited s /\ fin d
    | WEmpty (Some v), (TReady OIsEmpty _ | TDone OIsEmpty _) => taken_by h c = visited s ++ [v]
    | WEmpty None, TReady OIsEmpty _ => taken_by h c = visited s /\ fin d
    | WEmpty None, TDone OIsEmpty RTrue => taken_by h c = visited s /\ fin d
    | _, _ => False
    end.
  Record IInv (s : ist) : Prop := mkIInv { i_ch : CInv kd (ich s); i_ub : iub s = false; i_c : cst_ok s }.

  Lemma iinv_init : IInv iinit.
  Proof. constructor; simpl; auto using cinv_init. reflexivity. Qed.

  Lemma taken_other : forall e h, ev_tid e <> c -> taken_by (e :: h) c = taken_by h c.
  Proof.
    intros e h Hne. apply Nat.eqb_neq in Hne. destruct e as [t o|t o r|t o r|t a]; auto.
    simpl in *. destruct o; auto. destruct r; auto. now rewrite Hne.
  Qed.

  Lemma taken_aux : forall t xs (h : list cev), taken_by (log_aux t xs h) c = taken_by h c.
  Proof.
    intros t xs. induction xs as [|x xs IH]; intros h; auto.
    unfold log_aux in *. cbn [fold_left]. rewrite IH. reflexivity.
  Qed.

  (** A step of somebody else. *)
  Lemma other_step : forall m l m', CInv kd m -> chan_step kd m l = Some m' -> lbl_tid l <> c ->
    taken_by (mhist m') c = taken_by (mhist m) c /\ (fin (dat m) -> fin (dat m')) /\
    (ths m' c = ths m c \/ ths m' c = woken (ths m c)).
  Proof.
    intros m l m' HI H Hne. assert (HW := c_wf _ _ HI). unfold chan_step in H. destruct l as [t o|t b|t]; simpl in Hne.
    - destruct (call_ths _ _ _ _ _ H) as [_ Hs2].
      apply call_post in H. destruct H as (_&->&_&_&->&_). split; [|split; auto].
      apply taken_other; auto.
    - apply run_post with (1 := HW) in H. destruct H as (o&l&Ht&H).
      assert (Hf := fun F => fin_body t l b (dat m) F).
      assert (HQ : forall x, thr_post m m' t x -> ths m' c = ths m c \/ ths m' c = woken (ths m c)).
      { intros x Hx. apply (Hx (fun u y => u = c -> y = ths m c \/ y = woken (ths m c))); [| | |reflexivity].
        - intros u y G E. destruct (G E) as [-> | ->]; auto. right. destruct (ths m c); reflexivity.
        - intros u _ ->. auto.
        - intros; congruence. }
      destruct (chan_body kd t l b (dat m)) as [d xs sg r|d xs sg c0 l'|d xs sg l']; simpl in Hf;
        destruct H as (->&->&Hp&_); (split; [|split; [exact Hf|eapply HQ; eauto]]);
        rewrite ?taken_other by (simpl; congruence); apply taken_aux.
    - destruct (leave_ths _ _ _ _ H) as [_ Hs2].
      apply leave_post in H. destruct H as (o&r&_&->&_&_&->&_). split; [|split; auto].
      apply taken_other; auto.
  Qed.

  Lemma cst_woken : forall m m' p vs u,
    cst_ok (mkI m p vs u) -> taken_by (mhist m') c = taken_by (mhist m) c -> (fin (dat m) -> fin (dat m')) ->
    (ths m' c = ths m c \/ ths m' c = woken (ths m c)) -> cst_ok (mkI m' p vs u).
  Proof.
    intros m m' p vs u H Ht Hf Hths. unfold cst_ok in *. cbn [ich ip visited] in *. rewrite Ht.
    assert (E : ths m' c = ths m c \/ (ths m c <> ths m' c /\ ths m' c = woken (ths m c))).
    { destruct (ths m c) eqn:E1; destruct Hths as [->| ->]; simpl; auto. right. split; [discriminate|reflexivity]. }
    destruct E as [->|[Hn ->]].
    - destruct p as [| |[]|[]|[]|[]|[]|]; destruct (ths m c) as [|[] |? []|? []|[] []]; intuition auto.
    - destruct p as [| |[]|[]|[]|[]|[]|]; destruct (ths m c) as [|[] |? []|? []|[] []]; simpl; intuition auto.
  Qed.

  Lemma iinv_step : forall s lb s', IInv s -> istep kd c s lb = Some s' -> IInv s'.
  Proof.
    intros [m p vs u] lb s' [HI Hu Hc] H. cbn [ich iub] in *.
    destruct lb as [l|]; cbn [istep ich ip visited iub] in H.
    - destruct (Nat.eqb_spec (lbl_tid l) c) as [E|E].
      + destruct l as [t o|t b|t]; simpl in E; [discriminate| |].
        * subst t. destruct (chan_step kd m (MRun c b)) as [m'|] eqn:Em; [|discriminate].
          injection H as <-. assert (HI' := cinv_step _ _ _ _ HI Em).
          constructor; auto. assert (HW := c_wf _ _ HI). unfold chan_step in Em. assert (Em2 := Em).
          apply run_post with (1 := HW) in Em. destruct Em as (o&l&Ht&Em).
          assert (Hs := run_self _ _ _ _ _ Em2 Ht).
          assert (Hl : opl kd (mhist m) c o l).
          { pose proof (c_thr _ _ HI c) as Hth. destruct Ht as [Ht|(cc&Ht)]; rewrite Ht in Hth; simpl in Hth; tauto. }
          unfold cst_ok in *. cbn [ich ip visited] in *. rewrite Hs.
          destruct p as [| |v|v|v|v|v|];
            try (exfalso; destruct Ht as [Ht|(cc&Ht)]; rewrite Ht in Hc; destruct v; solve [contradiction]);
            try (exfalso; destruct Ht as [Ht|(cc&Ht)]; rewrite Ht in Hc; solve [contradiction]).
          -- assert (Hc' : o = OPop /\ taken_by (mhist m) c = vs)
               by (destruct Ht as [Ht|(cc&Ht)]; rewrite Ht in Hc; destruct o; try contradiction; auto).
             destruct Hc' as [-> Hc']. clear Hc.
             destruct (dat m) as [bf cl].
             destruct l; try contradiction; cbn [chan_body cbuf cclosed] in *; destruct bf as [|x bf]; cbn [is_nil negb] in *;
               rewrite ?orb_true_r, ?orb_false_r in *; unfold do_pop in *; cbn [cbuf cclosed] in *;
               try destruct cl; cbn in Em; destruct Em as (Hd2&Hh2&_&_); rewrite ?Hd2, ?Hh2; cbn [taken_by]; rewrite ?Nat.eqb_refl;
               unfold fin; simpl; rewrite ?Hc'; auto.
          -- assert (Hc' : o = OIsClosed /\ match v with Some v => taken_by (mhist m) c = vs ++ [v] | None => taken_by (mhist m) c = vs /\ fin (dat m) end).
             { destruct Ht as [Ht|(cc&Ht)]; rewrite Ht in Hc; destruct v, o; try contradiction; auto. }
             destruct Hc' as [-> Hc']. clear Hc. destruct l; try contradiction.
             cbn [chan_body] in *. destruct Em as (Hd2&Hh2&_&_); rewrite ?Hd2, ?Hh2. cbn.
             destruct v as [v|]; auto. unfold fin in *. destruct Hc' as (?&E1&?). rewrite E1. auto.
          -- assert (Hc' : o = OIsEmpty /\ match v with Some v => taken_by (mhist m) c = vs ++ [v] | None => taken_by (mhist m) c = vs /\ fin (dat m) end).
             { destruct Ht as [Ht|(cc&Ht)]; rewrite Ht in Hc; destruct v, o; try contradiction; auto. }
             destruct Hc' as [-> Hc']. clear Hc. destruct l; try contradiction.
             cbn [chan_body] in *. destruct Em as (Hd2&Hh2&_&_); rewrite ?Hd2, ?Hh2. cbn.
             destruct v as [v|]; auto. unfold fin in *. destruct Hc' as (?&?&E1). rewrite E1. simpl. auto.
        * subst t. destruct (ths m c) as [|o l|cc o l|cc o l|o r] eqn:Et; try discriminate.
          destruct (chan_step kd m (MLeave c)) as [m'|] eqn:Em; [|discriminate].
          injection H as <-. assert (HI' := cinv_step _ _ _ _ HI Em).
          constructor; auto. unfold chan_step in Em.
          destruct (leave_ths _ _ _ _ Em) as [Hs1 _].
          apply leave_post in Em. destruct Em as (o'&r'&_&Hd&_&_&Hh&_).
          unfold cst_ok in *. cbn [ich ip visited] in *. rewrite Hs1, Hd, Hh. cbn [taken_by].
          rewrite Et in Hc.
          destruct p as [| |[v|]|[v|]|[v|]|[v|]|[v|]|]; try contradiction;
            destruct o; try contradiction; destruct r; try contradiction; simpl; auto.
      + destruct (chan_step kd m l) as [m'|] eqn:Em; [|discriminate]. injection H as <-.
        destruct (other_step m l m' HI Em E) as (H1&H2&H3).
        constructor; cbn [ich iub]; eauto using cinv_step, cst_woken.
    - destruct (next_call p) as [[o p']|] eqn:En.
      + cbn [ich] in H. destruct (chan_step kd m (MCall c o)) as [m'|] eqn:Em; [|discriminate]. injection H as <-.
        assert (HI' := cinv_step _ _ _ _ HI Em).
        constructor; auto. unfold chan_step in Em.
        destruct (call_ths _ _ _ _ _ Em) as [Hs1 _].
        apply call_post in Em. destruct Em as (Ht&Hd&_&_&Hh&_).
        unfold cst_ok in *. cbn [ich ip visited] in *. rewrite Hs1, Hd, Hh. cbn [taken_by]. rewrite Ht in Hc.
        destruct p as [| |[v|]|[v|]|[v|]|[v|]|[v|]|]; simpl in En; try discriminate; injection En as <- <-; auto.
      + unfold cst_ok in Hc. cbn [ich ip visited] in *.
        destruct p as [| |v|v|v|v|[v|]|]; try discriminate; injection H as <-.
        * constructor; auto.
        * contradiction.
  Qed.

  Theorem iinv_run : forall ls s, run (istep kd c) iinit ls = Some s -> IInv s.
  Proof. intros ls s. apply run_inv; [apply iinv_init|apply iinv_step]. Qed.
End P.
