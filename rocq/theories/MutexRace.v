(** Invariant of the traces of co_mutex: everything done under the spin lock, and under the mutex, is known to the next holder. *)
From Coq Require Import List Arith Bool Lia.
From Verif Require Import Base SpinInv LinSpec MutexSpec MutexModel MutexProofs RaceSpec RaceLemmas MutexRaceModel.
Import ListNotations.

Definition datas (tr : list mmev) (i : nat) : Prop := exists a, nth_error tr i = Some a /\ touches a XData.
Definition fields (tr : list mmev) (i : nat) : Prop := exists a, nth_error tr i = Some a /\ (touches a XOwner \/ touches a XQueue).
(** Known to whoever is inside, or to whoever comes next. *)
Definition handed (m : st) (tr : list mmev) (T : nat -> Prop) : Prop :=
  (spin m = false -> forall i, T i -> carried tr Locked i) /\ forall w, inCS (pcs m w) = true -> forall i, T i -> knows tr w i.
Definition parked (p : pc) : bool := match p with LkPark | LkSpin3 => true | _ => false end.
Definition owned (m : st) (tr : list mmev) : Prop :=
  match owner m with
  | Some u => if parked (pcs m u) then handed m tr (datas tr) else forall i, datas tr i -> knows tr u i
  | None => handed m tr (datas tr)
  end.
Record RI (s : rst) : Prop := mkRI {
  r_inv : Inv (mx s);
  r_ord : forall x, ordered (trc s) x;
  r_fld : handed (mx s) (trc s) (fields (trc s));
  r_own : owned (mx s) (trc s)
}.

Definition plain (k : kind flag mloc) : Prop := k = KRd XOwner \/ k = KWr XOwner \/ k = KRd XQueue \/ k = KWr XQueue.
Lemma datas_snoc : forall tr e i, ~ touches e XData -> datas (tr ++ [e]) i -> datas tr i.
Proof. intros tr e i N (a&H&T). apply nth_snoc in H as [(_&H)|(_&->)]; [exists a; auto|tauto]. Qed.
Lemma fields_snoc : forall tr e i, ~ (touches e XOwner \/ touches e XQueue) -> fields (tr ++ [e]) i -> fields tr i.
Proof. intros tr e i N (a&H&T). apply nth_snoc in H as [(_&H)|(_&->)]; [exists a; auto|tauto]. Qed.
Ltac no_touch := unfold touches; simpl; intuition discriminate.

(** Accesses inside the critical section. *)
Lemma inside : forall ks tr t, Forall plain ks -> (forall x, ordered tr x) -> (forall i, fields tr i -> knows tr t i) ->
  (forall x, ordered (tr ++ by_ t ks) x) /\ (forall i, fields (tr ++ by_ t ks) i -> knows (tr ++ by_ t ks) t i) /\
  (forall i, datas (tr ++ by_ t ks) i -> datas tr i) /\ forall l i, carried tr l i -> carried (tr ++ by_ t ks) l i.
Proof.
  induction ks as [|k ks IH]; intros tr t P O F; simpl; [rewrite app_nil_r; auto|].
  inversion P as [|? ? Pk Pr]; subst. change (tr ++ mkEv t k :: by_ t ks) with (tr ++ [mkEv t k] ++ by_ t ks). rewrite app_assoc.
  destruct (IH (tr ++ [mkEv t k]) t Pr) as (A&B&C&D).
  - intros x. apply ordered_snoc; auto. intros i a N (_&T&T'&_). apply F. exists a. split; auto.
    unfold touches in *. simpl in T'. destruct Pk as [-> |[-> |[-> | ->]]]; destruct T' as [T'|T']; inversion T'; subst; auto.
  - intros i (a&N&T). apply nth_snoc in N as [(_&N)|(->&->)]; [apply knows_more, F; exists a; auto|]. apply (knows_self tr (mkEv t k)).
  - split; [exact A|]. split; [exact B|]. split.
    + intros i H. apply C in H. apply datas_snoc in H; auto. destruct Pk as [-> |[-> |[-> | ->]]]; no_touch.
    + intros l i H. apply D. apply carried_more; auto. destruct Pk as [-> |[-> |[-> | ->]]]; unfold releases; simpl; intuition discriminate.
Qed.
Lemma handed_in : forall m tr (T : nat -> Prop) t, inCS (pcs m t) = true -> Inv m -> (forall i, T i -> knows tr t i) -> handed m tr T.
Proof.
  intros m tr T t C I K. destruct (i_spin _ I) as (A&B&_). split.
  - intros E. pose proof (A t C). congruence.
  - intros w W i H. rewrite (B w t W C). auto.
Qed.
Lemma handed_out : forall m tr (T : nat -> Prop) t, handed m tr T -> inCS (pcs m t) = true -> forall i, T i -> knows tr t i.
Proof. intros m tr T t H C. now apply H. Qed.

(** The four sorts of steps. *)
Lemma in_cs : forall m m' tr t ks, Inv m -> Inv m' -> inCS (pcs m t) = true -> inCS (pcs m' t) = true -> Forall plain ks ->
  (forall x, ordered tr x) -> handed m tr (fields tr) ->
  (forall x, ordered (tr ++ by_ t ks) x) /\ handed m' (tr ++ by_ t ks) (fields (tr ++ by_ t ks)) /\
  (forall T : nat -> Prop, handed m tr T -> handed m' (tr ++ by_ t ks) T).
Proof.
  intros m m' tr t ks I I' C C' P O F. destruct (inside ks tr t P O (handed_out _ _ _ _ F C)) as (A&B&_&_).
  split; auto. split; [now apply handed_in with t|]. intros T H. apply handed_in with t; auto. intros i X. apply knows_more. eapply handed_out; eauto.
Qed.
Lemma acq_cs : forall m m' tr t, Inv m' -> spin m = false -> inCS (pcs m' t) = true -> (forall x, ordered tr x) -> handed m tr (fields tr) ->
  (forall x, ordered (tr ++ by_ t [KUpd Locked]) x) /\ handed m' (tr ++ by_ t [KUpd Locked]) (fields (tr ++ by_ t [KUpd Locked])) /\
  (forall T : nat -> Prop, handed m tr T -> handed m' (tr ++ by_ t [KUpd Locked]) T).
Proof.
  intros m m' tr t I' Sp C' O F. assert (X : forall T : nat -> Prop, handed m tr T -> handed m' (tr ++ by_ t [KUpd Locked]) T).
  { intros T H. apply handed_in with t; auto. intros i Ti. apply (acquire_knows tr (mkEv t (KUpd Locked)) Locked); [now right|]. now apply H. }
  split; [|split; auto].
  - intros x. apply ordered_snoc; auto. intros i a _ (_&_&T&_). exfalso. revert T. no_touch.
  - destruct (X _ F) as (A&B). split; intros; [apply A; auto|eapply B; eauto]; eapply fields_snoc; eauto; no_touch.
Qed.
Lemma rel_cs : forall m m' tr t, Inv m -> Inv m' -> spin m' = false -> inCS (pcs m t) = true -> (forall x, ordered tr x) -> handed m tr (fields tr) ->
  (forall x, ordered (tr ++ by_ t [KRel Locked]) x) /\ handed m' (tr ++ by_ t [KRel Locked]) (fields (tr ++ by_ t [KRel Locked])) /\
  (forall T : nat -> Prop, handed m tr T -> handed m' (tr ++ by_ t [KRel Locked]) T).
Proof.
  intros m m' tr t I I' Sp C O F. assert (X : forall T : nat -> Prop, handed m tr T -> handed m' (tr ++ by_ t [KRel Locked]) T).
  { intros T H. split.
    - intros _ i Ti. apply (release_carried tr (mkEv t (KRel Locked)) Locked); [now left|]. eapply handed_out; eauto.
    - intros w W. pose proof (proj1 (i_spin _ I') w W). congruence. }
  split; [|split; auto].
  - intros x. apply ordered_snoc; auto. intros i a _ (_&_&T&_). exfalso. revert T. no_touch.
  - destruct (X _ F) as (A&B). split; intros; [apply A; auto|eapply B; eauto]; eapply fields_snoc; eauto; no_touch.
Qed.
Lemma out_cs : forall m m' tr t (T : nat -> Prop), spin m' = spin m -> inCS (pcs m' t) = false -> (forall u, u <> t -> pcs m' u = pcs m u) -> handed m tr T -> handed m' tr T.
Proof.
  intros m m' tr t T Sp C O (A&B). split; [rewrite Sp; auto|]. intros w W i H. destruct (Nat.eq_dec w t) as [-> |N]; [congruence|].
  apply B; auto. now rewrite <- (O w N).
Qed.

Lemma owned_keep : forall m m' tr es, owner m' = owner m -> (forall u, owner m = Some u -> parked (pcs m' u) = parked (pcs m u)) ->
  (forall T : nat -> Prop, handed m tr T -> handed m' (tr ++ es) T) -> (forall i, datas (tr ++ es) i -> datas tr i) -> owned m tr -> owned m' (tr ++ es).
Proof.
  intros m m' tr es Ow Pk X D H. unfold owned in *. rewrite Ow. assert (Y : handed m tr (datas tr) -> handed m' (tr ++ es) (datas (tr ++ es))).
  { intros Z. destruct (X _ Z) as (A&B). split; intros; [apply A|eapply B]; eauto. }
  destruct (owner m) as [u|]; [|auto]. rewrite (Pk u eq_refl). destruct (parked (pcs m u)); [auto|]. intros i Di. apply knows_more. auto.
Qed.
Lemma datas_rel : forall tr t i, datas (tr ++ by_ t [KRel Locked]) i -> datas tr i.
Proof. intros tr t i H. apply datas_snoc in H; auto. no_touch. Qed.
Lemma datas_upd : forall tr t i, datas (tr ++ by_ t [KUpd Locked]) i -> datas tr i.
Proof. intros tr t i H. apply datas_snoc in H; auto. no_touch. Qed.

Local Arguments by_ : simpl never.
Ltac plains := match goal with |- Forall _ _ => repeat (constructor; [unfold plain; tauto|]); constructor end.
Lemma go_in : forall m m' tr t ks, RI (mkR m tr) -> Inv m' -> inCS (pcs m t) = true -> inCS (pcs m' t) = true -> Forall plain ks ->
  (owned m' (tr ++ by_ t ks) \/ (owner m' = owner m /\ forall u, u <> t -> pcs m' u = pcs m u)) -> RI (mkR m' (tr ++ by_ t ks)).
Proof.
  intros m m' tr t ks [I O F W] I' C C' P K. simpl in *. destruct (in_cs m m' tr t ks I I' C C' P O F) as (A&B&X). constructor; simpl; auto.
  destruct K as [K|(Ow&U)]; auto. apply owned_keep with m; auto.
  - intros u E. destruct (Nat.eq_dec u t) as [-> |N]; [|now rewrite U]. destruct (pcs m t); try discriminate; destruct (pcs m' t); try discriminate; reflexivity.
  - apply (inside ks tr t P O (handed_out _ _ _ _ F C)).
Qed.
Lemma go_acq : forall m m' tr t, RI (mkR m tr) -> Inv m' -> spin m = false -> inCS (pcs m' t) = true -> owner m' = owner m ->
  (forall u, u <> t -> pcs m' u = pcs m u) -> (owner m = Some t -> pcs m t = UnSpin \/ pcs m t = TrySpin \/ pcs m t = LkSpin3) -> RI (mkR m' (tr ++ by_ t [KUpd Locked])).
Proof.
  intros m m' tr t [I O F W] I' Sp C' Ow U K. simpl in *. destruct (acq_cs m m' tr t I' Sp C' O F) as (A&B&X). constructor; simpl; auto.
  destruct (option_map (Nat.eqb t) (owner m)) as [[]|] eqn:E.
  - destruct (owner m) as [u|] eqn:Eo; [|discriminate]. injection E as E. apply Nat.eqb_eq in E. subst u. unfold owned. rewrite Ow.
    assert (Q : parked (pcs m' t) = false) by (destruct (pcs m' t); try discriminate; reflexivity). rewrite Q. intros i D. apply datas_upd in D.
    unfold owned in W. rewrite Eo in W. destruct (parked (pcs m t)); [|apply knows_more; auto].
    apply (acquire_knows tr (mkEv t (KUpd Locked)) Locked); [now right|]. now apply W.
  - apply owned_keep with m; auto; [|apply datas_upd]. intros u Eu. rewrite Eu in E. simpl in E. injection E as E. apply Nat.eqb_neq in E. now rewrite U by auto.
  - apply owned_keep with m; auto; [|apply datas_upd]. intros u Eu. rewrite Eu in E. discriminate.
Qed.
Lemma go_rel : forall m m' tr t, RI (mkR m tr) -> Inv m' -> spin m' = false -> inCS (pcs m t) = true -> owner m' = owner m ->
  (forall u, u <> t -> pcs m' u = pcs m u) -> (owner m = Some t -> parked (pcs m' t) = false) -> RI (mkR m' (tr ++ by_ t [KRel Locked])).
Proof.
  intros m m' tr t [I O F W] I' Sp C Ow U K. simpl in *. destruct (rel_cs m m' tr t I I' Sp C O F) as (A&B&X). constructor; simpl; auto.
  apply owned_keep with m; auto; [|apply datas_rel]. intros u E. destruct (Nat.eq_dec u t) as [-> |N]; [|now rewrite U]. rewrite (K E).
  destruct (pcs m t); try discriminate; reflexivity.
Qed.
Lemma go_out : forall m m' tr t, RI (mkR m tr) -> Inv m' -> spin m' = spin m -> inCS (pcs m' t) = false -> owner m' = owner m ->
  (forall u, u <> t -> pcs m' u = pcs m u) -> (owner m = Some t -> parked (pcs m' t) = parked (pcs m t)) -> RI (mkR m' tr).
Proof.
  intros m m' tr t [I O F W] I' Sp C Ow U K. simpl in *. assert (X : forall T : nat -> Prop, handed m tr T -> handed m' tr T) by (intros; eapply out_cs; eauto).
  constructor; simpl; auto. rewrite <- (app_nil_r tr). apply owned_keep with m; auto; rewrite ?app_nil_r; auto.
  intros u E. destruct (Nat.eq_dec u t) as [-> |N]; [auto|now rewrite U].
Qed.

Lemma run_RI : forall m tr t late m', RI (mkR m tr) -> step_run m t late = Some m' -> Inv m' -> RI (mkR m' (tr ++ by_ t (effects m t late))).
Proof.
  intros m tr t late m' R H I'. pose proof R as [I O F W]. simpl in *. pose proof (i_loc _ I t) as Lc. unfold loc_ok in Lc.
  assert (CS : inCS (pcs m t) = true -> owner m = None -> forall ks, Forall plain ks -> owner m' = Some t -> inCS (pcs m' t) = true -> owned m' (tr ++ by_ t ks)).
  { intros C E ks P E' C'. unfold owned in *. rewrite E in W. rewrite E'. assert (Q : parked (pcs m' t) = false) by (destruct (pcs m' t); try discriminate; reflexivity).
    rewrite Q. intros i D. apply knows_more. eapply handed_out; [exact W|exact C|]. now apply (inside ks tr t P O (handed_out _ _ _ _ F C)). }
  unfold step_run, tas, effects in *. destruct (pcs m t) eqn:P; try discriminate.
  - destruct (spin m) eqn:Sp; [discriminate|]. injection H as <-. apply (go_acq m); auto; simpl; rewrite ?upd_same; auto; [|tauto]. intros; now apply upd_other.
  - destruct late; [|destruct (owner m) as [o|] eqn:Ow]; injection H as <-; apply (go_in m); auto; simpl; rewrite ?P, ?upd_same; auto; try plains;
      try (right; split; auto; intros; now apply upd_other). left. apply CS; auto; simpl; rewrite ?upd_same; auto. plains.
  - injection H as <-. apply (go_rel m); auto; simpl; rewrite ?P, ?upd_same; auto. intros; now apply upd_other.
  - destruct (waiting m t) eqn:Wt; [discriminate|]. injection H as <-. change (by_ t []) with (@nil mmev). rewrite app_nil_r. apply (go_out m) with t; auto; simpl; rewrite ?P, ?upd_same; auto. intros; now apply upd_other.
  - destruct (spin m) eqn:Sp; [discriminate|]. injection H as <-. apply (go_acq m); auto; simpl; rewrite ?upd_same; auto; [|tauto]. intros; now apply upd_other.
  - destruct (owner m) as [o|] eqn:Ow; injection H as <-; apply (go_in m); auto; simpl; rewrite ?P, ?upd_same; auto; try plains;
      try (right; split; auto; intros; now apply upd_other). left. apply CS; auto; simpl; rewrite ?upd_same; auto. plains.
  - destruct (is_owner m t); injection H as <-; apply (go_in m); auto; simpl; rewrite ?P, ?upd_same; auto; try plains; right; split; auto; intros; now apply upd_other.
  - injection H as <-. apply (go_rel m); auto; simpl; rewrite ?P, ?upd_same; auto; [intros; now apply upd_other|]. intros E. destruct (i_q _ I t (proj2 Lc)). tauto.
  - destruct (waiting m t) eqn:Wt; [discriminate|]. injection H as <-. change (by_ t []) with (@nil mmev). rewrite app_nil_r. apply (go_out m) with t; auto; simpl; rewrite ?P, ?upd_same; auto. intros; now apply upd_other.
  - destruct (spin m) eqn:Sp; [discriminate|]. injection H as <-. apply (go_acq m); auto; simpl; rewrite ?upd_same; auto. intros; now apply upd_other.
  - injection H as <-. apply (go_rel m); auto; simpl; rewrite ?P, ?upd_same; auto. intros; now apply upd_other.
  - destruct (spin m) eqn:Sp; [discriminate|]. injection H as <-. apply (go_acq m); auto; simpl; rewrite ?upd_same; auto. intros; now apply upd_other.
  - destruct (owner m) as [o|] eqn:Ow; injection H as <-; apply (go_in m); auto; simpl; rewrite ?P, ?upd_same; auto; try plains;
      try (right; split; auto; intros; now apply upd_other). left. apply CS; auto; simpl; rewrite ?upd_same; auto. plains.
  - injection H as <-. apply (go_rel m); auto; simpl; rewrite ?P, ?upd_same; auto. intros; now apply upd_other.
  - destruct (spin m) eqn:Sp; [discriminate|]. injection H as <-. apply (go_acq m); auto; simpl; rewrite ?upd_same; auto. intros; now apply upd_other.
  - destruct (is_owner m t) eqn:Io.
    + apply is_owner_true in Io. assert (K : forall i, datas tr i -> knows tr t i) by (unfold owned in W; rewrite Io, P in W; exact W).
      assert (G : forall ks, Forall plain ks -> handed m' (tr ++ by_ t ks) (datas (tr ++ by_ t ks))).
      { intros ks Pk. assert (C' : inCS (pcs m' t) = true) by (destruct (q m); injection H as <-; simpl; now rewrite upd_same).
        apply handed_in with t; auto. intros i D. apply knows_more, K. assert (C : inCS (pcs m t) = true) by now rewrite P. now apply (inside ks tr t Pk O (handed_out _ _ _ _ F C)). }
      destruct (q m) as [|o q'] eqn:Q.
      * apply (go_in m); auto; [now rewrite P|injection H as <-; simpl; now rewrite upd_same|plains|]. left. unfold owned. assert (E : owner m' = None) by (injection H as <-; reflexivity).
        rewrite E. apply G. plains.
      * apply (go_in m); auto; [now rewrite P|injection H as <-; simpl; now rewrite upd_same|plains|]. left. unfold owned. assert (E : owner m' = Some o) by (injection H as <-; reflexivity).
        assert (E' : pcs m' t = UnHand o) by (injection H as <-; simpl; now rewrite upd_same). pose proof (i_loc _ I' t) as L'. unfold loc_ok in L'. rewrite E' in L'.
        rewrite E. destruct L' as (_&_&-> &_). simpl. apply G. plains.
    + injection H as <-. apply (go_in m); auto; simpl; rewrite ?P, ?upd_same; auto; [plains|]. right. split; auto. intros; now apply upd_other.
  - injection H as <-. apply (go_in m) with (ks := []); auto; simpl; rewrite ?P, ?upd_same; auto. right. split; auto. intros; now apply upd_other.
  - injection H as <-. apply (go_rel m); auto; simpl; rewrite ?P, ?upd_same; auto. intros; now apply upd_other.
Qed.

Lemma step_RI : forall s l s', RI s -> rstep s l = Some s' -> no_relock (hist (mx s')) -> RI s'.
Proof.
  intros [m tr] [[t o|t late]|t|t w] s' R H N; cbn [rstep mx trc] in H.
  - destruct (step m (Call t o)) as [m'|] eqn:Hs; [|discriminate]. injection H as <-. simpl in N. pose proof (inv_step _ _ _ (r_inv _ R) Hs N) as I'. simpl in Hs.
    destruct (pcs m t) eqn:P; try discriminate. injection Hs as <-. apply (go_out m) with t; auto; simpl; rewrite ?upd_same, ?P; auto; try (destruct o; reflexivity).
    intros; now apply upd_other.
  - destruct (step m (Run t late)) as [m'|] eqn:Hs; [|discriminate]. injection H as <-. simpl in N. pose proof (inv_step _ _ _ (r_inv _ R) Hs N) as I'. now apply run_RI.
  - destruct (spinning (pcs m t)) eqn:Sn; [|discriminate]. destruct (spin m) eqn:Sp; [|discriminate]. injection H as <-. destruct R as [I O F W]. simpl in *.
    assert (X : forall T : nat -> Prop, handed m tr T -> handed m (tr ++ [mkEv t (KUpd Locked)]) T) by (intros T (A&B); split; [congruence|]; intros; apply knows_more; eauto).
    constructor; simpl; auto.
    + intros x. apply ordered_snoc; auto. intros i a _ (_&_&T&_). exfalso. revert T. no_touch.
    + destruct (X _ F) as (A&B). split; intros; [apply A; auto|eapply B; eauto]; eapply fields_snoc; eauto; no_touch.
    + apply owned_keep with m; auto. intros i D. apply datas_snoc in D; auto. no_touch.
  - destruct (pcs m t) eqn:P; try discriminate. destruct (holding (hist m) t) eqn:Hd; [|discriminate]. injection H as <-. destruct R as [I O F W]. simpl in *.
    rewrite (i_hold _ I) in Hd. unfold holds_exp in Hd. rewrite P in Hd. apply is_owner_true in Hd. unfold owned in W. rewrite Hd, P in W. simpl in W.
    set (e := mkEv t (if w then KWr XData else KRd XData)). assert (Te : forall x, touches e x -> x = XData) by (intros x [T|T]; subst e; destruct w; simpl in T; congruence).
    constructor; simpl; auto.
    + intros x. apply ordered_snoc; auto. intros i a Na (_&T&T'&_). apply Te in T'. subst x. apply W. exists a. auto.
    + assert (Ne : ~ (touches e XOwner \/ touches e XQueue)) by (intros [T|T]; apply Te in T; discriminate).
      assert (Rl : ~ releases e Locked) by (subst e; unfold releases; destruct w; simpl; intuition discriminate). destruct F as (A&B). split.
      * intros Sp i Fi. apply carried_more; auto. apply A; auto. eapply fields_snoc; eauto.
      * intros u U i Fi. apply knows_more. eapply B; eauto. eapply fields_snoc; eauto.
    + unfold owned. rewrite Hd, P. simpl. intros i (a&Na&T). apply nth_snoc in Na as [(_&Na)|(->&->)]; [apply knows_more, W; exists a; auto|]. apply (knows_self tr e).
Qed.
Lemma rstep_hist : forall s l s', rstep s l = Some s' -> exists es, hist (mx s') = es ++ hist (mx s).
Proof.
  intros [m tr] [[t o|t late]|t|t w] s' H; cbn [rstep mx trc] in H.
  - destruct (step m (Call t o)) as [m'|] eqn:Hs; [|discriminate]. injection H as <-. eapply step_hist; eauto.
  - destruct (step m (Run t late)) as [m'|] eqn:Hs; [|discriminate]. injection H as <-. eapply step_hist; eauto.
  - destruct (_ && _); [|discriminate]. injection H as <-. now exists [].
  - destruct (pcs m t); try discriminate. destruct (holding _ _); [|discriminate]. injection H as <-. now exists [].
Qed.
Lemma reach_RI : forall ls s, run rstep rinit ls = Some s -> no_relock (hist (mx s)) -> RI s.
Proof.
  intros ls s Hr. revert Hr. apply (run_inv rstep (fun s => no_relock (hist (mx s)) -> RI s)).
  - intros _. constructor; simpl.
    + apply inv_init.
    + apply ordered_nil.
    + split; [intros _ [|i] (a&N&_); discriminate|]. discriminate.
    + unfold owned. simpl. split; [intros _ [|i] (a&N&_); discriminate|]. discriminate.
  - intros s0 l s1 HI Hs Hn. eapply step_RI; eauto. apply HI. destruct (rstep_hist _ _ _ Hs) as [es Hes]. rewrite Hes in Hn. now apply no_relock_app in Hn.
Qed.
