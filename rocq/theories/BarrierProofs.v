(** Proofs about the barrier model. *)
From Coq Require Import List ZArith Bool Lia.
From Verif Require Import Base LinSpec LinLemmas HistSpec TidSum Monitor MonitorProofs BarrierSpec BarrierModel.
Import ListNotations.
Open Scope Z_scope.

Lemma token_eqb_spec : forall a b, reflect (a = b) (token_eqb a b).
Proof.
  intros [g m n] [g' m' n']. unfold token_eqb. simpl.
  destruct (Z.eqb_spec g g'), (Nat.eqb_spec m m'), (Z.eqb_spec n n'); simpl; constructor; congruence.
Qed.
Lemma token_eqb_refl : forall k, token_eqb k k = true.
Proof. intros k. destruct (token_eqb_spec k k); congruence. Qed.
Lemma bop_refl : forall o, bop_eqb o o = true.
Proof. destruct o; simpl; auto using Z.eqb_refl, token_eqb_refl. Qed.
Lemma bres_refl : forall r, bres_eqb r r = true.
Proof. destruct r; simpl; auto using token_eqb_refl. Qed.

Definition one (k j : token) : Z := if token_eqb k j then 1 else 0.
Lemma one_nn : forall k j, 0 <= one k j.
Proof. intros; unfold one; destruct (token_eqb k j); lia. Qed.
Lemma one_same : forall k, one k k = 1.
Proof. intros; unfold one; now rewrite token_eqb_refl. Qed.

Definition dem (k : token) (e : bev) : Z :=
  match e with ECall _ (OWaitT j) => one k j | EAux _ (AArr j) => one k j | _ => 0 end.
Definition use (k : token) (e : bev) : Z := match e with EAux _ (AUse j) => one k j | _ => 0 end.
Definition lin (k : token) (e : bev) : Z := match e with ELin _ (OArrive _) (RTok j) => one k j | _ => 0 end.
Definition arrk (k : token) (e : bev) : Z := match e with EAux _ (AArr j) => one k j | _ => 0 end.
Definition drpk (k : token) (e : bev) : Z := match e with EAux _ (ADrop j) => one k j | _ => 0 end.
Definition demw (e : bev) : Z :=
  match e with ECall _ (OWaitT j) => tn j | EAux _ (AArr j) => tn j | _ => 0 end.
Definition usew (e : bev) : Z := match e with EAux _ (AUse j) => tn j | _ => 0 end.

Definition atW (k : token) (x : tst bop bres bloc) : Z :=
  match x with TReady _ (LWaitT j) => one k j | _ => 0 end.
Definition atWw (x : tst bop bres bloc) : Z :=
  match x with TReady _ (LWaitT j) => tn j | _ => 0 end.
Definition atD (k : token) (x : tst bop bres bloc) : Z :=
  match x with TDone (OArrive _) (RTok j) => one k j | _ => 0 end.

Lemma by_other : forall u (w : bev -> Z) e h, ev_tid e <> u ->
  total (by_tid u w) (e :: h) = total (by_tid u w) h.
Proof. intros u w e h H. cbn [total]. unfold by_tid at 1. apply Nat.eqb_neq in H. rewrite H. lia. Qed.
Lemma by_same : forall u (w : bev -> Z) e h, ev_tid e = u ->
  total (by_tid u w) (e :: h) = w e + total (by_tid u w) h.
Proof. intros u w e h <-. cbn [total]. unfold by_tid at 1. now rewrite Nat.eqb_refl. Qed.

(** Tokens issued and not yet accepted by a wait. *)
Fixpoint rm (k : token) (l : list token) : list token :=
  match l with [] => [] | j :: l' => if token_eqb k j then l' else j :: rm k l' end.
Fixpoint outs (h : list bev) : list token :=
  match h with
  | [] => []
  | ELin _ (OArrive _) (RTok k) :: h' => k :: outs h'
  | EAux _ (AArr k) :: h' | EAux _ (ADrop k) :: h' => k :: outs h'
  | EAux _ (AUse k) :: h' => rm k (outs h')
  | _ :: h' => outs h'
  end.
Definition occ (k : token) (l : list token) : Z := zsum (map (one k) l).
Definition wsum (l : list token) : Z := zsum (map tn l).

Lemma occ_in : forall k l, 0 < occ k l -> In k l.
Proof.
  unfold occ. induction l as [|j l IH]; simpl; intros H; [lia|].
  unfold one at 1 in H. destruct (token_eqb_spec k j) as [->|]; [now left|]. right. apply IH. lia.
Qed.
Lemma occ_rm : forall k j l, In k l -> occ j (rm k l) = occ j l - one j k.
Proof.
  unfold occ. induction l as [|i l IH]; simpl; intros H; [destruct H|].
  destruct (token_eqb_spec k i) as [->|Hne]; [lia|].
  destruct H as [->|H]; [congruence|]. simpl. rewrite IH by assumption. lia.
Qed.
Lemma wsum_rm : forall k l, In k l -> wsum (rm k l) = wsum l - tn k.
Proof.
  unfold wsum. induction l as [|i l IH]; simpl; intros H; [destruct H|].
  destruct (token_eqb_spec k i) as [->|Hne]; [lia|].
  destruct H as [->|H]; [congruence|]. simpl. rewrite IH by assumption. lia.
Qed.
Lemma Forall_rm : forall (P : token -> Prop) k l, Forall P l -> Forall P (rm k l).
Proof.
  intros P k l H. induction H as [|j l Hj H IH]; simpl; [constructor|].
  destruct (token_eqb k j); auto.
Qed.
Lemma wsum_nn : forall l, Forall (fun k => 1 <= tn k) l -> 0 <= wsum l.
Proof. intros l H. unfold wsum. induction H; simpl; lia. Qed.
Lemma wsum_zero : forall l, Forall (fun k => 1 <= tn k) l -> wsum l = 0 -> l = [].
Proof.
  intros l H. destruct H as [|k l Hk H]; auto. intros E. exfalso.
  pose proof (wsum_nn l H). unfold wsum in *. simpl in E. lia.
Qed.
Lemma wsum_in : forall l k, Forall (fun k => 1 <= tn k) l -> In k l -> tn k <= wsum l.
Proof.
  intros l k H. induction H as [|j l Hj H IH]; intros Hin; [destruct Hin|].
  pose proof (wsum_nn l H). unfold wsum in *. simpl. destruct Hin as [->|Hin]; [lia|]. specialize (IH Hin). lia.
Qed.

Section P.
  Variables (me : nat) (max : Z).
  Hypothesis Hmax : 0 < max.
  Notation st := (mst bdat bop bres baux bloc).

  Definition opl (h : list bev) (t : tid) (o : bop) (l : bloc) : Prop :=
    match o, l with
    | OArrive n, LArr m => m = n /\ 1 <= n
    | OWaitT k, LWaitT j | OWaitT k, LBack j => j = k
    | OArriveWait, LArrW => own_tok h t = None
    | OArriveWait, LWaitT k | OArriveWait, LBack k => own_tok h t = Some k
    | ODrop, LDrop => own_tok h t = None
    | _, _ => False
    end.
  Definition acct (h : list bev) (t : tid) (x : tst bop bres bloc) : Prop :=
    (forall k, total (by_tid t (dem k)) h = total (by_tid t (use k)) h + atW k x) /\
    (forall k, total (by_tid t (lin k)) h = total (by_tid t (issued_tok k)) h + atD k x) /\
    total (by_tid t demw) h = total (by_tid t usew) h + atWw x.
  Definition thr (h : list bev) (t : tid) (x : tst bop bres bloc) : Prop :=
    acct h t x /\
    match x with
    | TReady o l => opl h t o l /\ (forall k, l <> LBack k)
    | TWait c o l | TWoken c o l => opl h t o l /\ (exists k, l = LBack k) /\ c = COND
    | _ => True
    end.

  Lemma thr_woken : forall h t x, thr h t x -> thr h t (woken x).
  Proof. intros h t [| | | |]; unfold thr, acct; simpl; auto. Qed.

  Lemma opl_other : forall e h t o l, ev_tid e <> t -> opl h t o l -> opl (e :: h) t o l.
  Proof.
    intros e h t o l Hne H. apply Nat.eqb_neq in Hne.
    assert (E : own_tok (e :: h) t = own_tok h t).
    { destruct e as [u o'|u o' r|u o' r|u []]; simpl in *; rewrite ?Hne; reflexivity. }
    unfold opl in *. rewrite E. exact H.
  Qed.
  Lemma thr_other : forall e h t x, ev_tid e <> t -> thr h t x -> thr (e :: h) t x.
  Proof.
    intros e h t x Hne [(A1&A2&A3) H]. split.
    - split; [|split]; intros; rewrite !by_other by assumption; auto.
    - destruct x; simpl in *; intuition auto using opl_other.
  Qed.

  (** Waiting coroutines belong to the current phase, woken ones to a completed phase. *)
  Definition gen_ok (g : Z) (x : tst bop bres bloc) : Prop :=
    match x with
    | TWait _ _ (LBack k) => tgen k = g
    | TWoken _ _ (LBack k) => tgen k < g
    | _ => True
    end.

  Record BInv (s : st) : Prop := mkBInv {
    b_wf : WF bop_eqb bres_eqb s;
    b_arr : arrived (mhist s) = bgen (dat s) * max + (max - bexp (dat s));
    b_wai : waited (mhist s) = bgen (dat s) * max + (max - bcnt (dat s));
    b_rng : 0 <= bexp (dat s) /\ 0 < bcnt (dat s) <= max;
    b_outs : Forall (fun k => tgen k = bgen (dat s) /\ tbar k = me /\ 1 <= tn k) (outs (mhist s));
    b_sum : wsum (outs (mhist s)) = bcnt (dat s) - bexp (dat s);
    b_occ : forall k, occ k (outs (mhist s)) =
              total (lin k) (mhist s) + total (arrk k) (mhist s) + total (drpk k) (mhist s) - total (use k) (mhist s);
    b_use : always (fun h => forall k, total (passed_tok k) h <= total (issued_tok k) h) (mhist s);
    b_ok : always_at (barrier_event_ok me max) (mhist s);
    b_thr : forall t, thr (mhist s) t (ths s t);
    b_gen : forall t, gen_ok (bgen (dat s)) (ths s t)
  }.

  Lemma binv_init : BInv (barrier_init max).
  Proof.
    constructor; simpl; auto; try lia.
    - apply wf_init.
    - unfold arrived; simpl; lia.
    - unfold waited; simpl; lia.
    - unfold wsum; simpl; lia.
    - apply always_nil. intros k. simpl. lia.
    - apply always_at_nil.
    - intros t. split; [|exact I]. split; [|split]; intros; reflexivity.
  Qed.

  Lemma bcompleted : forall s, BInv s -> completed max (mhist s) = bgen (dat s).
  Proof.
    intros s HI. unfold completed. rewrite (b_wai _ HI). pose proof (b_rng _ HI).
    rewrite Z.add_comm, Z.div_add by lia. rewrite Z.div_small by lia. lia.
  Qed.

  Lemma total_add : forall (w1 w2 : bev -> Z) h, total (fun e => w1 e + w2 e) h = total w1 h + total w2 h.
  Proof. induction h; simpl; lia. Qed.
  Lemma total_ext : forall (w1 w2 : bev -> Z) h, (forall e, w1 e = w2 e) -> total w1 h = total w2 h.
  Proof. intros w1 w2 h H. induction h as [|e h IH]; simpl; [reflexivity|]. now rewrite H, IH. Qed.
  Lemma total_nn : forall (w : bev -> Z) h, (forall e, 0 <= w e) -> 0 <= total w h.
  Proof. intros w h H. induction h as [|e h IH]; simpl; [lia|]. specialize (H e). lia. Qed.

  (** The token a coroutine is about to pass to wait is outstanding. *)
  Lemma tok_out : forall s t o k, BInv s -> ths s t = TReady o (LWaitT k) -> In k (outs (mhist s)).
  Proof.
    intros s t o k HI Ht. apply occ_in. rewrite (b_occ _ HI).
    assert (H1 : total (use k) (mhist s) < total (dem k) (mhist s)).
    { apply total_lt_tid with (t := t).
      - intros u. destruct (b_thr _ HI u) as [(A&_&_) _]. rewrite A.
        assert (0 <= atW k (ths s u)).
        { destruct (ths s u) as [|? []| | |]; simpl; try lia. apply one_nn. }
        lia.
      - destruct (b_thr _ HI t) as [(A&_&_) _]. rewrite A, Ht. simpl. rewrite one_same. lia. }
    assert (H2 : total (dem k) (mhist s) = total (passed_tok k) (mhist s) + total (arrk k) (mhist s)).
    { rewrite <- total_add. apply total_ext. intros [u []|u o' r|u o' r|u []]; simpl; unfold one; lia. }
    assert (H3 : total (passed_tok k) (mhist s) <= total (issued_tok k) (mhist s)).
    { apply (b_use _ HI [] (mhist s) eq_refl). }
    assert (H4 : total (issued_tok k) (mhist s) <= total (lin k) (mhist s)).
    { apply total_le_tid. intros u. destruct (b_thr _ HI u) as [(_&A&_) _]. rewrite A.
      assert (0 <= atD k (ths s u)).
      { destruct (ths s u) as [| | | |[] []]; simpl; try lia; apply one_nn. }
      lia. }
    assert (H5 : 0 <= total (drpk k) (mhist s)).
    { apply total_nn. intros [u o'|u o' r|u o' r|u []]; simpl; try lia. apply one_nn. }
    lia.
  Qed.

  Lemma arrived_cons : forall e h, arrived (e :: h) =
    match e with
    | ELin _ (OArrive _) (RTok k) => tn k
    | EAux _ (AArr k) | EAux _ (ADrop k) => tn k
    | _ => 0 end + arrived h.
  Proof. reflexivity. Qed.
  Lemma waited_cons : forall e h, waited (e :: h) =
    match e with EAux _ (AUse k) => tn k | _ => 0 end + waited h.
  Proof. reflexivity. Qed.
  Lemma total_cons : forall (w : bev -> Z) e h, total w (e :: h) = w e + total w h.
  Proof. reflexivity. Qed.

  Lemma acct_step : forall e h t x y, ev_tid e = t -> acct h t x ->
    (forall k, dem k e - use k e = atW k y - atW k x) ->
    (forall k, lin k e - issued_tok k e = atD k y - atD k x) ->
    demw e - usew e = atWw y - atWw x ->
    acct (e :: h) t y.
  Proof.
    intros e h t x y He (A1&A2&A3) B1 B2 B3. split; [|split].
    - intros k. rewrite !by_same by assumption. specialize (A1 k). specialize (B1 k). lia.
    - intros k. rewrite !by_same by assumption. specialize (A2 k). specialize (B2 k). lia.
    - rewrite !by_same by assumption. lia.
  Qed.
  Lemma acct_eq : forall h t x y, acct h t x -> (forall k, atW k y = atW k x) ->
    (forall k, atD k y = atD k x) -> atWw y = atWw x -> acct h t y.
  Proof.
    intros h t x y (A1&A2&A3) B1 B2 B3. split; [|split]; intros; rewrite ?B1, ?B2, ?B3; auto.
  Qed.

  Lemma use_cons : forall e h,
    (forall t k, e <> ECall t (OWaitT k)) ->
    always (fun h => forall k, total (passed_tok k) h <= total (issued_tok k) h) h ->
    always (fun h => forall k, total (passed_tok k) h <= total (issued_tok k) h) (e :: h).
  Proof.
    intros e h He H. apply always_cons. split; [|exact H]. intros k.
    specialize (H [] h eq_refl k). rewrite !total_cons.
    assert (passed_tok k e = 0).
    { destruct e as [u []|u o r|u o r|u []]; simpl; auto. exfalso. eapply He; eauto. }
    assert (0 <= issued_tok k e).
    { destruct e as [u o|u o r|u [] []|u []]; simpl; try lia. destruct (token_eqb k k0); lia. }
    lia.
  Qed.

  Lemma occ_cons : forall k j l, occ k (j :: l) = one k j + occ k l.
  Proof. reflexivity. Qed.
  Lemma wsum_cons : forall j l, wsum (j :: l) = tn j + wsum l.
  Proof. reflexivity. Qed.

  Lemma room_iff : forall s n, BInv s -> room max (mhist s) n <-> n <= bexp (dat s).
  Proof.
    intros s n HI. unfold room. rewrite (bcompleted s HI), (b_arr _ HI). split; intros; lia.
  Qed.

  Lemma binv_step : forall s l s', BInv s -> barrier_step me max s l = Some s' ->
    usage_ok (mhist s') -> BInv s'.
  Proof.
    intros s lb s' HI H Hus. unfold barrier_step in H.
    assert (HW' : WF bop_eqb bres_eqb s')
      by (eapply wf_step; eauto using bop_refl, bres_refl, b_wf).
    pose proof (bcompleted s HI) as Hcomp.
    assert (Hroom := fun n => room_iff s n HI).
    assert (Htok := fun t o k => tok_out s t o k HI).
    destruct HI as [HW Harr Hwai Hrng Houts Hsum Hocc Huse Hok Hth Hgen].
    assert (Htn : Forall (fun k => 1 <= tn k) (outs (mhist s))).
    { eapply Forall_impl; [|exact Houts]. intros k (_&_&?). assumption. }
    destruct lb as [t o|t b|t].
    - pose proof H as H0. apply call_ths in H0. destruct H0 as [Hst Hso].
      apply call_post in H. destruct H as (Ht&Hd'&Hq'&Hw'&Hh'&Hp).
      rewrite Hh' in Hus. unfold usage_ok in Hus. apply always_at_cons in Hus. destruct Hus as [Hu0 _].
      constructor; rewrite ?Hd', ?Hh'.
      + assumption.
      + exact Harr.
      + exact Hwai.
      + exact Hrng.
      + exact Houts.
      + exact Hsum.
      + intros k. rewrite !total_cons. cbn [lin arrk drpk use outs]. rewrite Hocc. lia.
      + destruct o; try (apply use_cons; [intros; discriminate|exact Huse]).
        apply always_cons. split; [|exact Huse]. intros j.
        specialize (Huse [] (mhist s) eq_refl j). rewrite !total_cons. simpl.
        destruct (token_eqb_spec j k) as [->|]; lia.
      + apply always_at_cons; split; [exact I|assumption].
      + apply Hp; [apply thr_woken| |].
        * intros u Hu. apply thr_other; [simpl; congruence|apply Hth].
        * destruct (Hth t) as [A _]. rewrite Ht in A. split.
          -- eapply acct_step; [reflexivity|exact A|intros; destruct o; simpl; lia..].
          -- split; [|destruct o; discriminate]. destruct o; simpl in *; rewrite ?Nat.eqb_refl; auto.
      + intros u. destruct (Nat.eq_dec u t) as [->|Hu]; [rewrite Hst; exact I|]. rewrite Hso by assumption. apply Hgen.
    - pose proof H as Hrun. apply run_post with (1 := HW) in H. destruct H as (o&l&Ht&H).
      assert (Hself := run_self _ _ _ _ _ Hrun Ht). assert (Hother := run_nosig _ _ _ _ Hrun Ht).
      assert (Hcond : forall v, match ths s v with TWait c _ _ | TWoken c _ _ => c = COND | _ => True end)
        by (intros v; destruct (Hth v) as [_ G]; destruct (ths s v); simpl in G; intuition).
      assert (Hl : opl (mhist s) t o l /\ acct (mhist s) t (ths s t)).
      { specialize (Hth t). destruct Hth as [A Hth]. split; [|exact A].
        destruct Ht as [Ht|(c&Ht)]; rewrite Ht in Hth; simpl in Hth; tauto. }
      destruct Hl as [Hl Hac].
      destruct l as [n|k|k| |]; cbn [barrier_body] in H, Hself, Hother.
      + (* arrive *)
        assert (Ht0 : ths s t = TReady o (LArr n)).
        { destruct Ht as [Ht|(c&Ht)]; [exact Ht|]. specialize (Hth t). rewrite Ht in Hth. simpl in Hth.
          destruct Hth as (_&_&(k&E)&_). discriminate. }
        rewrite Ht0 in Hac.
        destruct o as [m| | |]; simpl in Hl; try contradiction. destruct Hl as [-> Hm].
        destruct (Z.ltb_spec (bexp (dat s) - m) 0); destruct H as (Hd'&Hh'&Hp&_); cbn in Hh';
          specialize (Hother eq_refl); constructor; rewrite ?Hd', ?Hh'; cbn [bexp bcnt bgen]; auto.
        * apply use_cons; [discriminate|exact Huse].
        * apply always_at_cons; split; [|assumption]. right. split; [reflexivity|]. rewrite Hroom. lia.
        * apply Hp; [apply thr_woken| |].
          -- intros u Hu. apply thr_other; [simpl; congruence|apply Hth].
          -- split; [|exact I]. eapply acct_step; [reflexivity|exact Hac|intros; simpl; lia..].
        * intros u. destruct (Nat.eq_dec u t) as [->|Hu]; [rewrite Hself; exact I|]. rewrite Hother by assumption. apply Hgen.
        * rewrite arrived_cons. cbn [tn]. lia.
        * lia.
        * cbn [outs]. constructor; [|exact Houts]. cbn [tgen tbar tn]. auto.
        * cbn [outs]. rewrite wsum_cons. cbn [tn]. lia.
        * intros k. rewrite !total_cons. cbn [lin arrk drpk use outs]. rewrite occ_cons, Hocc. lia.
        * apply use_cons; [discriminate|exact Huse].
        * apply always_at_cons; split; [|assumption]. left. rewrite Hcomp. split; [reflexivity|]. rewrite Hroom. lia.
        * apply Hp; [apply thr_woken| |].
          -- intros u Hu. apply thr_other; [simpl; congruence|apply Hth].
          -- split; [|exact I]. eapply acct_step; [reflexivity|exact Hac|intros; simpl; lia..].
        * intros u. destruct (Nat.eq_dec u t) as [->|Hu]; [rewrite Hself; exact I|]. rewrite Hother by assumption. apply Hgen.
      + (* wait *)
        assert (Ht0 : ths s t = TReady o (LWaitT k)).
        { destruct Ht as [Ht|(c&Ht)]; [exact Ht|]. specialize (Hth t). rewrite Ht in Hth. simpl in Hth.
          destruct Hth as (_&_&(j&E)&_). discriminate. }
        rewrite Ht0 in Hac.
        assert (Hin := Htok t o k Ht0).
        assert (Hk : tgen k = bgen (dat s) /\ tbar k = me /\ 1 <= tn k)
          by (rewrite Forall_forall in Houts; apply Houts, Hin).
        destruct Hk as (Hk1&Hk2&Hk3).
        pose proof (wsum_in _ _ Htn Hin) as Hle.
        rewrite Hk1, Hk2, Z.eqb_refl, Nat.eqb_refl in H, Hself, Hother. cbn [negb orb] in H, Hself, Hother.
        destruct (Z.ltb_spec (bcnt (dat s) - tn k) 0); [lia|].
        destruct (Z.eqb_spec (bcnt (dat s) - tn k) 0) as [Ez|Ez].
        * destruct H as (Hd'&Hh'&Hp&Hqw). cbn in Hh'. specialize (Hqw COND). cbn in Hqw. injection Hqw as Hq' _.
          assert (Hrm : rm k (outs (mhist s)) = []).
          { apply wsum_zero; [apply Forall_rm, Htn|]. rewrite wsum_rm by assumption.
            pose proof (wsum_nn _ (Forall_rm _ k _ Htn)) as G. rewrite wsum_rm in G by assumption. lia. }
          assert (Hexp : bexp (dat s) = 0).
          { pose proof (wsum_nn _ (Forall_rm _ k _ Htn)) as G. rewrite wsum_rm in G by assumption. lia. }
          constructor; rewrite ?Hd', ?Hh'; cbn [bexp bcnt bgen]; auto.
          -- rewrite !arrived_cons. destruct o; lia.
          -- rewrite !waited_cons. lia.
          -- lia.
          -- cbn [outs]. destruct o; rewrite Hrm; constructor.
          -- cbn [outs]. destruct o; rewrite Hrm; unfold wsum; simpl; lia.
          -- intros j. rewrite !total_cons. cbn [lin arrk drpk use outs].
             rewrite <- (occ_rm k j (outs (mhist s)) Hin) || idtac.
             assert (G : occ j (rm k (outs (mhist s))) = occ j (outs (mhist s)) - one j k) by now apply occ_rm.
             rewrite Hocc in G. destruct o; lia.
          -- apply use_cons; [discriminate|]. apply use_cons; [discriminate|exact Huse].
          -- apply always_at_cons; split; [|apply always_at_cons; split; [|assumption]].
             ++ cbn [barrier_event_ok].
                assert (Ga : (tgen k + 1) * max <= waited (EAux t (AUse k) :: mhist s)) by (rewrite waited_cons; lia).
                assert (Gb : (tgen k + 1) * max <= arrived (EAux t (AUse k) :: mhist s)) by (rewrite arrived_cons; lia).
                destruct o; simpl in Hl; try contradiction.
                ** subst k0. auto.
                ** left. split; [reflexivity|]. exists k. auto.
             ++ simpl. rewrite Hcomp. auto.
          -- apply Hp; [apply thr_woken| |].
             ++ intros u Hu. apply thr_other; [simpl; congruence|]. apply thr_other; [simpl; congruence|apply Hth].
             ++ split; [|exact I]. eapply acct_step with (x := TDone o ROk); [reflexivity| |intros; destruct o; simpl; lia..].
                eapply acct_step; [reflexivity|exact Hac|intros; destruct o; simpl; lia..].
          -- intros u. assert (G : (fun (v : tid) y => match y with TWait _ _ (LBack j) | TWoken _ _ (LBack j) => tgen j < bgen (dat s) + 1 | _ => True end) u (ths s' u)).
             { apply Hp.
               - intros v y. destruct y as [| |c o' []| |]; simpl; auto.
               - intros v Hv. specialize (Hgen v). destruct (ths s v) as [| |c o' []|c o' []|]; simpl in *; auto; lia.
               - exact I. }
             simpl in G. specialize (Hth u). destruct (ths s' u) as [| |c o' l'|c o' []|] eqn:Eu; simpl; auto.
             assert (Hi : In u (qs s' c)) by (apply (w_q HW'); eauto).
             assert (c = COND).
             { assert (Gc : (fun (v : tid) (y : tst bop bres bloc) => match y with TWait c _ _ | TWoken c _ _ => c = COND | _ => True end) u (ths s' u)).
               { apply Hp.
                 - intros v y. destruct y; simpl; auto.
                 - intros v Hv. apply Hcond.
                 - exact I. }
               rewrite Eu in Gc. exact Gc. }
             subst c. rewrite Hq' in Hi. destruct Hi.
        * destruct H as (Hd'&Hh'&Hp&Hqw). cbn in Hh'. specialize (Hother eq_refl).
          constructor; rewrite ?Hd', ?Hh'; cbn [bexp bcnt bgen]; auto.
          -- rewrite !waited_cons. lia.
          -- lia.
          -- cbn [outs]. apply Forall_rm, Houts.
          -- cbn [outs]. rewrite wsum_rm by assumption. lia.
          -- intros j. rewrite !total_cons. cbn [lin arrk drpk use outs].
             rewrite occ_rm by assumption. rewrite Hocc. lia.
          -- apply use_cons; [discriminate|exact Huse].
          -- apply always_at_cons; split; [|assumption]. simpl. rewrite Hcomp. auto.
          -- apply Hp; [apply thr_woken| |].
             ++ intros u Hu. apply thr_other; [simpl; congruence|apply Hth].
             ++ split.
                ** eapply acct_step; [reflexivity|exact Hac|intros; simpl; lia..].
                ** split; [|split; eauto]. destruct o; simpl in *; auto.
          -- intros u. destruct (Nat.eq_dec u t) as [->|Hu]; [rewrite Hself; exact Hk1|].
             rewrite Hother by assumption. apply Hgen.
      + (* back from cond.wait *)
        assert (Ht0 : exists c, ths s t = TWoken c o (LBack k)).
        { destruct Ht as [Ht|Ht]; [|exact Ht]. specialize (Hth t). rewrite Ht in Hth. simpl in Hth.
          destruct Hth as (_&_&G). exfalso. eapply G; reflexivity. }
        destruct Ht0 as (c&Ht0). rewrite Ht0 in Hac.
        assert (Hgk := Hgen t). rewrite Ht0 in Hgk. simpl in Hgk.
        destruct H as (Hd'&Hh'&Hp&Hqw). cbn in Hh'. specialize (Hother eq_refl).
        constructor; rewrite ?Hd', ?Hh'; cbn [bexp bcnt bgen]; auto.
        * rewrite arrived_cons. destruct o; lia.
        * destruct o; simpl in Hl; try contradiction; exact Houts.
        * destruct o; simpl in Hl; try contradiction; exact Hsum.
        * intros j. rewrite !total_cons. cbn [lin arrk drpk use outs]. destruct o; simpl in Hl; try contradiction; rewrite Hocc; lia.
        * apply use_cons; [discriminate|exact Huse].
        * apply always_at_cons; split; [|assumption].
          assert (Ga : (tgen k + 1) * max <= waited (mhist s)) by nia.
          assert (Gb : (tgen k + 1) * max <= arrived (mhist s)).
          { pose proof (wsum_nn _ Htn). nia. }
          cbn [barrier_event_ok]. destruct o; simpl in Hl; try contradiction.
          -- subst k0. auto.
          -- left. split; [reflexivity|]. exists k. auto.
        * apply Hp; [apply thr_woken| |].
          -- intros u Hu. apply thr_other; [simpl; congruence|apply Hth].
          -- split; [|exact I]. eapply acct_step; [reflexivity|exact Hac|intros; destruct o; simpl; lia..].
        * intros u. destruct (Nat.eq_dec u t) as [->|Hu]; [rewrite Hself; exact I|]. rewrite Hother by assumption. apply Hgen.
      + (* arrive_and_wait, arrival *)
        assert (Ht0 : ths s t = TReady o LArrW).
        { destruct Ht as [Ht|(c&Ht)]; [exact Ht|]. specialize (Hth t). rewrite Ht in Hth. simpl in Hth.
          destruct Hth as (_&_&(k&E)&_). discriminate. }
        rewrite Ht0 in Hac.
        destruct o as [m| | |]; simpl in Hl; try contradiction.
        destruct (Z.ltb_spec (bexp (dat s) - 1) 0); destruct H as (Hd'&Hh'&Hp&_); cbn in Hh';
          specialize (Hother eq_refl); constructor; rewrite ?Hd', ?Hh'; cbn [bexp bcnt bgen]; auto.
        * apply use_cons; [discriminate|exact Huse].
        * apply always_at_cons; split; [|assumption]. right. split; [reflexivity|]. rewrite Hroom. split; [exact Hl|lia].
        * apply Hp; [apply thr_woken| |].
          -- intros u Hu. apply thr_other; [simpl; congruence|apply Hth].
          -- split; [|exact I]. eapply acct_step; [reflexivity|exact Hac|intros; simpl; lia..].
        * intros u. destruct (Nat.eq_dec u t) as [->|Hu]; [rewrite Hself; exact I|]. rewrite Hother by assumption. apply Hgen.
        * rewrite arrived_cons. cbn [tn]. lia.
        * lia.
        * cbn [outs]. constructor; [|exact Houts]. cbn [tgen tbar tn]. auto with zarith.
        * cbn [outs]. rewrite wsum_cons. cbn [tn]. lia.
        * intros k. rewrite !total_cons. cbn [lin arrk drpk use outs]. rewrite occ_cons, Hocc. lia.
        * apply use_cons; [discriminate|exact Huse].
        * apply always_at_cons; split; [|assumption]. cbn [barrier_event_ok]. rewrite Hcomp, Hroom. split; [reflexivity|lia].
        * apply Hp; [apply thr_woken| |].
          -- intros u Hu. apply thr_other; [simpl; congruence|apply Hth].
          -- split.
             ++ eapply acct_step; [reflexivity|exact Hac|intros; simpl; lia..].
             ++ split; [|discriminate]. simpl. now rewrite Nat.eqb_refl.
        * intros u. destruct (Nat.eq_dec u t) as [->|Hu]; [rewrite Hself; exact I|]. rewrite Hother by assumption. apply Hgen.
      + (* arrive_and_drop *)
        assert (Ht0 : ths s t = TReady o LDrop).
        { destruct Ht as [Ht|(c&Ht)]; [exact Ht|]. specialize (Hth t). rewrite Ht in Hth. simpl in Hth.
          destruct Hth as (_&_&(k&E)&_). discriminate. }
        rewrite Ht0 in Hac.
        destruct o as [m| | |]; simpl in Hl; try contradiction.
        destruct (Z.ltb_spec (bexp (dat s) - 1) 0); destruct H as (Hd'&Hh'&Hp&_); cbn in Hh';
          specialize (Hother eq_refl); constructor; rewrite ?Hd', ?Hh'; cbn [bexp bcnt bgen]; auto.
        * apply use_cons; [discriminate|exact Huse].
        * apply always_at_cons; split; [|assumption]. right. split; [reflexivity|]. rewrite Hroom. split; [exact Hl|lia].
        * apply Hp; [apply thr_woken| |].
          -- intros u Hu. apply thr_other; [simpl; congruence|apply Hth].
          -- split; [|exact I]. eapply acct_step; [reflexivity|exact Hac|intros; simpl; lia..].
        * intros u. destruct (Nat.eq_dec u t) as [->|Hu]; [rewrite Hself; exact I|]. rewrite Hother by assumption. apply Hgen.
        * rewrite !arrived_cons. cbn [tn]. lia.
        * lia.
        * cbn [outs]. constructor; [|exact Houts]. cbn [tgen tbar tn]. auto with zarith.
        * cbn [outs]. rewrite wsum_cons. cbn [tn]. lia.
        * intros k. rewrite !total_cons. cbn [lin arrk drpk use outs]. rewrite occ_cons, Hocc. lia.
        * apply use_cons; [discriminate|]. apply use_cons; [discriminate|exact Huse].
        * apply always_at_cons; split; [|apply always_at_cons; split; [|assumption]].
          -- left. split; [reflexivity|]. eexists. simpl. rewrite Nat.eqb_refl. reflexivity.
          -- cbn [barrier_event_ok]. rewrite Hcomp, Hroom. split; [reflexivity|lia].
        * apply Hp; [apply thr_woken| |].
          -- intros u Hu. apply thr_other; [simpl; congruence|]. apply thr_other; [simpl; congruence|apply Hth].
          -- split; [|exact I]. eapply acct_step with (x := TDone ODrop ROk); [reflexivity| |intros; simpl; lia..].
             eapply acct_step; [reflexivity|exact Hac|intros; simpl; lia..].
        * intros u. destruct (Nat.eq_dec u t) as [->|Hu]; [rewrite Hself; exact I|]. rewrite Hother by assumption. apply Hgen.
    - pose proof H as H0. apply leave_ths in H0. destruct H0 as [Hst Hso].
      apply leave_post in H. destruct H as (o&r&Ht&Hd'&Hq'&Hw'&Hh'&Hp).
      constructor; rewrite ?Hd', ?Hh'; auto.
      + apply use_cons; [discriminate|exact Huse].
      + apply always_at_cons; split; [exact I|assumption].
      + apply Hp; [apply thr_woken| |].
        * intros u Hu. apply thr_other; [simpl; congruence|apply Hth].
        * destruct (Hth t) as [A _]. rewrite Ht in A. split; [|exact I].
          eapply acct_step; [reflexivity|exact A|intros; destruct o, r; simpl; unfold one; lia..].
      + intros u. destruct (Nat.eq_dec u t) as [->|Hu]; [rewrite Hst; exact I|]. rewrite Hso by assumption. apply Hgen.
  Qed.

  Theorem binv_run : forall ls s, run (barrier_step me max) (barrier_init max) ls = Some s ->
    usage_ok (mhist s) -> BInv s.
  Proof.
    intros ls s Hr.
    refine (run_rule_inv bop_refl bres_refl barrier_entry (barrier_body me max) BInv usage_ok _ _ _ _ ls Hr).
    - intros newer older H a e b E. apply (H (newer ++ a) e b). rewrite E. apply app_assoc.
    - apply wf_init.
    - apply binv_init.
    - apply binv_step.
  Qed.

  Lemma barrier_quiescent : forall s t o, BInv s -> quiescent barrier_entry (barrier_body me max) s ->
    phase_of bop_eqb bres_eqb (mhist s) t = Some (PPending o) ->
    match o with
    | OWaitT k => passed (mhist s) < (tgen k + 1) * max
    | OArriveWait => exists k, own_tok (mhist s) t = Some k /\ passed (mhist s) < (tgen k + 1) * max
    | _ => False
    end.
  Proof.
    intros s t o HI HQ Hp.
    assert (Hpw : passed (mhist s) = waited (mhist s)).
    { apply total_eq_tid. intros u. destruct (b_thr _ HI u) as [(_&_&A) _].
      fold demw. fold usew. rewrite A.
      destruct (quiescent_ths u HQ) as [E|(c&o'&l&E)]; rewrite E; simpl; lia. }
    rewrite (w_ph (b_wf _ HI) t) in Hp. pose proof (b_thr _ HI t) as [_ Hth].
    pose proof (b_gen _ HI t) as Hg. pose proof (b_rng _ HI). pose proof (b_wai _ HI).
    destruct (quiescent_ths t HQ) as [E|(c&o'&l&E)]; rewrite E in *; simpl in Hp; [discriminate|].
    injection Hp as ->. simpl in Hth. destruct Hth as (Hl&(k&->)&->). simpl in Hg.
    destruct o; simpl in Hl; try contradiction.
    - subst k0. nia.
    - exists k. split; [exact Hl|]. nia.
  Qed.

  Lemma barrier_waited_arrived : forall s, BInv s -> waited (mhist s) <= arrived (mhist s) <= (completed max (mhist s) + 1) * max.
  Proof.
    intros s HI. rewrite (bcompleted s HI). pose proof (b_arr _ HI). pose proof (b_wai _ HI). pose proof (b_rng _ HI).
    assert (Htn : Forall (fun k => 1 <= tn k) (outs (mhist s))).
    { eapply Forall_impl; [|exact (b_outs _ HI)]. intros k (_&_&?). assumption. }
    pose proof (wsum_nn _ Htn). pose proof (b_sum _ HI). lia.
  Qed.

  (** A dropped token stays outstanding for ever, so its phase never completes. *)
  Lemma drop_blocks : forall s t k, BInv s -> In (EAux t (ADrop k)) (mhist s) ->
    completed max (mhist s) = tgen k.
  Proof.
    intros s t k HI Hin. rewrite (bcompleted s HI).
    assert (Hocc : 0 < occ k (outs (mhist s))).
    { rewrite (b_occ _ HI).
      assert (H1 : total (use k) (mhist s) <= total (dem k) (mhist s)).
      { apply total_le_tid. intros u. destruct (b_thr _ HI u) as [(A&_&_) _]. rewrite A.
        assert (0 <= atW k (ths s u)) by (destruct (ths s u) as [|? []| | |]; simpl; try lia; apply one_nn).
        lia. }
      assert (H2 : total (dem k) (mhist s) = total (passed_tok k) (mhist s) + total (arrk k) (mhist s)).
      { rewrite <- total_add. apply total_ext. intros [u []|u o' r|u o' r|u []]; simpl; unfold one; lia. }
      assert (H3 := b_use _ HI [] (mhist s) eq_refl k).
      assert (H4 : total (issued_tok k) (mhist s) <= total (lin k) (mhist s)).
      { apply total_le_tid. intros u. destruct (b_thr _ HI u) as [(_&A&_) _]. rewrite A.
        assert (0 <= atD k (ths s u)) by (destruct (ths s u) as [| | | |[] []]; simpl; try lia; apply one_nn).
        lia. }
      assert (H5 : 0 < total (drpk k) (mhist s)).
      { revert Hin. generalize (mhist s). induction l as [|e h IH]; intros Hi; [destruct Hi|].
        rewrite total_cons. assert (0 <= drpk k e) by (destruct e as [u o'|u o' r|u o' r|u []]; simpl; try lia; apply one_nn).
        destruct Hi as [->|Hi]; [|specialize (IH Hi); lia].
        simpl. rewrite one_same. pose proof (total_nn (drpk k) h) as G.
        assert (0 <= total (drpk k) h).
        { apply G. intros [u o'|u o' r|u o' r|u []]; simpl; try lia; apply one_nn. }
        lia. }
      lia. }
    apply occ_in in Hocc. pose proof (b_outs _ HI) as Ho. rewrite Forall_forall in Ho.
    symmetry. apply Ho, Hocc.
  Qed.

End P.

(** Any use of tokens. *)
Section Any.
  Variables (me : nat) (max : Z).
  Hypothesis Hmax : 0 < max.
  Notation st := (mst bdat bop bres baux bloc).

  Definition athr (x : tst bop bres bloc) : Prop :=
    match x with
    | TReady o (LWaitT j) => 1 <= tn j /\ forall k, o = OWaitT k -> j = k
    | TReady o (LArr _ | LArrW | LDrop) => forall k, o <> OWaitT k
    | TReady _ (LBack _) => False
    | TWait _ _ l | TWoken _ _ l => exists k, l = LBack k
    | _ => True
    end.
  Record AInv (s : st) : Prop := mkAInv {
    a_wf : WF bop_eqb bres_eqb s;
    a_wai : waited (mhist s) = bgen (dat s) * max + (max - bcnt (dat s));
    a_rng : 0 < bcnt (dat s) <= max;
    a_ok : always_at (waits_decided me max) (mhist s);
    a_thr : forall t, athr (ths s t)
  }.
  Lemma athr_woken : forall u x, (fun (_ : tid) y => athr y) u x -> (fun (_ : tid) y => athr y) u (woken x).
  Proof. intros u [| | | |]; simpl; auto. Qed.
  Lemma acompleted : forall s, AInv s -> completed max (mhist s) = bgen (dat s).
  Proof.
    intros s H. unfold completed. rewrite (a_wai _ H). pose proof (a_rng _ H).
    rewrite Z.add_comm, Z.div_add by lia. rewrite Z.div_small by lia. lia.
  Qed.

  Lemma ainv_step : forall s l s', AInv s -> barrier_step me max s l = Some s' -> weights_ok (mhist s') -> AInv s'.
  Proof.
    intros s lb s' HI H Hus. unfold barrier_step in H.
    assert (HW' : WF bop_eqb bres_eqb s') by (eapply wf_step; eauto using bop_refl, bres_refl, a_wf).
    pose proof (acompleted s HI) as Hc. destruct HI as [HW Hwai Hrng Hok Hth].
    destruct lb as [t o|t b|t].
    - apply call_post in H. destruct H as (Ht&Hd'&_&_&Hh'&Hp).
      rewrite Hh' in Hus. apply always_at_cons in Hus. destruct Hus as [Hu0 _].
      constructor; rewrite ?Hd', ?Hh'; auto.
      + apply always_at_cons; split; [exact I|assumption].
      + apply (Hp (fun _ y => athr y) athr_woken); [intros; apply Hth|].
        destruct o; simpl in *; try discriminate; split; auto. intros; congruence.
    - apply run_post with (1 := HW) in H. destruct H as (o&l&Ht&H).
      assert (Hl : match l with LWaitT j => 1 <= tn j /\ forall k, o = OWaitT k -> j = k
                              | LBack _ => True | _ => forall k, o <> OWaitT k end).
      { specialize (Hth t). destruct Ht as [Ht|(c&Ht)]; rewrite Ht in Hth; simpl in Hth.
        - destruct l; auto.
        - destruct Hth as (k&->). exact I. }
      assert (Hq := fun x (P : thr_post s s' t x) (A : athr x) => P (fun _ y => athr y) athr_woken (fun u _ => Hth u) A).
      assert (Hgo : forall e h, match e with EAux _ (AUse _) => False | _ => True end ->
                waited h = waited (mhist s) -> waited (e :: h) = waited (mhist s)).
      { intros e h He E. unfold waited in *. rewrite total_cons. destruct e as [| | |? []]; simpl in *; try lia; contradiction. }
      destruct l as [n|k|k| |]; cbn [barrier_body] in H.
      + destruct (bexp (dat s) - n <? 0); destruct H as (Hd'&Hh'&Hp&_); cbn in Hh'; constructor; rewrite ?Hd', ?Hh'; cbn [bexp bcnt bgen]; auto.
        all: try (rewrite Hgo; simpl; auto; fail).
        all: try (apply always_at_cons; split; [|assumption]; destruct o; simpl; auto; exfalso; eapply Hl; reflexivity).
        all: apply Hq with (1 := Hp); exact I.
      + destruct Hl as [Hk Ho].
        destruct (negb (tgen k =? bgen (dat s)) || negb (Nat.eqb (tbar k) me)) eqn:Eg.
        * destruct H as (Hd'&Hh'&Hp&_). cbn in Hh'. constructor; rewrite ?Hd', ?Hh'; auto.
          -- apply always_at_cons; split; [|assumption]. destruct o; simpl; auto. rewrite <- (Ho k0 eq_refl).
             intros (A&B&_). rewrite Hc in A. rewrite A, B, Z.eqb_refl, Nat.eqb_refl in Eg. discriminate.
          -- apply Hq with (1 := Hp). exact I.
        * apply orb_false_iff in Eg. destruct Eg as [E1 E2]. apply negb_false_iff in E1, E2.
          apply Z.eqb_eq in E1. apply Nat.eqb_eq in E2.
          destruct (Z.ltb_spec (bcnt (dat s) - tn k) 0) as [Lt|Ge].
          -- destruct H as (Hd'&Hh'&Hp&_). cbn in Hh'. constructor; rewrite ?Hd', ?Hh'; auto.
             ++ apply always_at_cons; split; [|assumption]. destruct o; simpl; auto. rewrite <- (Ho k0 eq_refl).
                intros (_&_&C). rewrite Hc in C. lia.
             ++ apply Hq with (1 := Hp). exact I.
          -- assert (Hf : fits me max (mhist s) k) by (unfold fits; rewrite Hc; repeat split; auto; lia).
             destruct (Z.eqb_spec (bcnt (dat s) - tn k) 0) as [Ez|Ez]; destruct H as (Hd'&Hh'&Hp&_); cbn in Hh';
               constructor; rewrite ?Hd', ?Hh'; cbn [bexp bcnt bgen]; auto.
             ++ unfold waited in *. rewrite !total_cons. lia.
             ++ lia.
             ++ apply always_at_cons; split; [destruct o; exact I|]. apply always_at_cons; split; [exact Hf|assumption].
             ++ apply Hq with (1 := Hp). exact I.
             ++ unfold waited in *. rewrite !total_cons. lia.
             ++ lia.
             ++ apply always_at_cons; split; [exact Hf|assumption].
             ++ apply Hq with (1 := Hp). simpl. eauto.
      + destruct H as (Hd'&Hh'&Hp&_). cbn in Hh'. constructor; rewrite ?Hd', ?Hh'; auto.
        * apply always_at_cons; split; [destruct o; exact I|assumption].
        * apply Hq with (1 := Hp). exact I.
      + destruct (bexp (dat s) - 1 <? 0); destruct H as (Hd'&Hh'&Hp&_); cbn in Hh'; constructor; rewrite ?Hd', ?Hh'; cbn [bexp bcnt bgen]; auto.
        all: try (rewrite Hgo; simpl; auto; fail).
        all: try (apply always_at_cons; split; [|assumption]; try exact I; destruct o; simpl; auto; exfalso; eapply Hl; reflexivity).
        * apply Hq with (1 := Hp); exact I.
        * apply Hq with (1 := Hp). simpl. split; [lia|]. intros k E. exfalso. eapply Hl; eauto.
      + destruct (bexp (dat s) - 1 <? 0); destruct H as (Hd'&Hh'&Hp&_); cbn in Hh'; constructor; rewrite ?Hd', ?Hh'; cbn [bexp bcnt bgen]; auto.
        all: try (repeat (rewrite Hgo; simpl; auto); fail).
        all: try (repeat (apply always_at_cons; split; [|try assumption]); try exact I; destruct o; simpl; auto; exfalso; eapply Hl; reflexivity).
        all: apply Hq with (1 := Hp); exact I.
    - apply leave_post in H. destruct H as (o&r&Ht&Hd'&_&_&Hh'&Hp). constructor; rewrite ?Hd', ?Hh'; auto.
      + apply always_at_cons; split; [exact I|assumption].
      + apply (Hp (fun _ y => athr y) athr_woken); [intros; apply Hth|exact I].
  Qed.

  Lemma ainv_run : forall ls s, run (barrier_step me max) (barrier_init max) ls = Some s -> weights_ok (mhist s) -> AInv s.
  Proof.
    intros ls s Hr. refine (run_rule_inv bop_refl bres_refl barrier_entry (barrier_body me max) AInv weights_ok _ _ _ _ ls Hr).
    - intros newer older H n e o ->. exact (H (newer ++ n) e o (app_assoc _ _ _)).
    - apply wf_init.
    - constructor; [apply wf_init|unfold waited; simpl; lia|simpl; lia|apply always_at_nil|intros; exact I].
    - intros. eapply ainv_step; eauto.
  Qed.
End Any.
