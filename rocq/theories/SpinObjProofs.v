(** Every fine-grained execution is matched by an atomic one with the same history. *)
From Coq Require Import List Arith Bool Lia.
From Verif Require Import Base SpinInv LinSpec SpinObj.
Import ListNotations.
Set Implicit Arguments.

Section P.
  Variables (D Op Res Aux Loc : Type).
  Variable entry : Op -> Loc.
  Variable seg : tid -> Op -> Loc -> bool -> D -> sout D Op Res Aux Loc.
  Notation F := (fst_ D Op Res Aux Loc).
  Notation A := (ast D Op Res Aux Loc).
  Notation fstep := (@fstep D Op Res Aux Loc entry seg).
  Notation astep := (@astep D Op Res Aux Loc entry seg).

  Definition incs (p : fpc Op Res Loc) : bool :=
    match p with FIn _ _ | FRelY _ _ | FMark _ _ | FRelP _ _ | FUn _ _ _ => true | _ => false end.
  Definition thr_rel (p : fpc Op Res Loc) (x : ath Op Res Loc) (m : bool) : Prop :=
    match p with
    | FOut => x = AOut
    | FWant o l | FIn o l => x = AReady o l \/ (x = AParked o l /\ m = false)
    | FRelY o l | FYield o l => x = AReady o l
    | FMark o l | FRelP o l | FPark o l => x = AParked o l
    | FUn o gr r => x = ADone o r
    end.
  Definition pend (s : F) (g : tid) : Prop := exists u o gr r, fpcs s u = FUn o gr r /\ In g gr.
  Definition fmarkable (p : fpc Op Res Loc) : bool := match p with FRelP _ _ | FPark _ _ => true | _ => false end.

  Record R (s : F) (a : A) : Prop := mkR {
    r_spin : spin_inv (fspin s) (fun t => incs (fpcs s t));
    r_dat : fdat s = adat a;
    r_hist : fhist s = ahist a;
    r_thr : forall t, thr_rel (fpcs s t) (athr a t) (amark a t);
    r_mark1 : forall t, fmark s t = true -> fmarkable (fpcs s t) = true;
    r_mark2 : forall t, amark a t = true <->
                (exists o l, fpcs s t = FMark o l) \/ (fmark s t = true /\ ~ pend s t);
    r_relp : forall t o l, fpcs s t = FRelP o l -> fmark s t = true
  }.

  Lemma r_init : forall d, R (finit Op Res Aux Loc d) (ainit Op Res Aux Loc d).
  Proof.
    intros d. constructor; simpl; auto; try discriminate.
    - repeat split; try discriminate.
    - intros t; split; [discriminate|]. intros [(?&?&?)|[? _]]; discriminate.
  Qed.

  Lemma unmark_true : forall gr m t, unmark gr m t = true <-> m t = true /\ ~ In t gr.
  Proof.
    intros gr m t. unfold unmark. destruct (existsb (Nat.eqb t) gr) eqn:E.
    - apply existsb_exists in E. destruct E as (x&Hx&Ex). apply Nat.eqb_eq in Ex. subst.
      split; [discriminate|tauto].
    - split; [|tauto]. intros H. split; auto. intros Hi.
      assert (existsb (Nat.eqb t) gr = true); [|congruence].
      apply existsb_exists. exists t. split; auto. apply Nat.eqb_refl.
  Qed.

  Lemma spin_upd : forall a b (f : tid -> fpc Op Res Loc) t p,
    spin_inv a (fun u => incs (f u)) -> spin_move a b (incs (f t)) (incs p) ->
    spin_inv b (fun u => incs (upd f t p u)).
  Proof.
    intros a b f t p H Hm. eapply spin_inv_step with (t := t); [exact H| |].
    - intros u Hu. simpl. now rewrite upd_other.
    - simpl. now rewrite upd_same.
  Qed.

  (** Nobody else is in the critical section. *)
  Lemma no_pend : forall s t, spin_inv (fspin s) (fun t => incs (fpcs s t)) ->
    incs (fpcs s t) = true -> (forall o gr r, fpcs s t <> FUn o gr r) -> forall g, ~ pend s g.
  Proof.
    intros s t Hs Ht Hn g (u&o&gr&r&E&_). destruct (Nat.eq_dec u t) as [->|Hne]; [exact (Hn _ _ _ E)|].
    pose proof (spin_inv_excl _ _ t u Hs Ht Hne) as Hx. simpl in Hx. rewrite E in Hx. discriminate.
  Qed.

  Ltac updc u t := destruct (Nat.eq_dec u t) as [->|?];
    [rewrite ?upd_same in * | rewrite ?upd_other in * by assumption].

  Definition pend_upd : forall (s : F) t p b m h d g,
    (forall o gr r, fpcs s t <> FUn o gr r) -> (forall o gr r, p <> FUn o gr r) ->
    pend (mkF b d m (upd (fpcs s) t p) h) g <-> pend s g.
  Proof.
    intros s t p b m h d g H1 H2. split; intros (u&o&gr&r&E&Hi); simpl in *.
    - updc u t; [now apply H2 in E|]. exists u, o, gr, r. auto.
    - exists u, o, gr, r. simpl. updc u t; [now apply H1 in E|]. auto.
  Qed.

  (** A silent step: thread moves, related to the same atomic state. *)
  Lemma sim_silent : forall s a t p b,
    R s a -> (forall o gr r, fpcs s t <> FUn o gr r) -> (forall o gr r, p <> FUn o gr r) ->
    (forall o l, fpcs s t <> FMark o l) -> (forall o l, p <> FMark o l) ->
    spin_move (fspin s) b (incs (fpcs s t)) (incs p) ->
    thr_rel p (athr a t) (amark a t) -> (fmark s t = true -> fmarkable p = true) ->
    (forall o l, p = FRelP o l -> fmark s t = true) ->
    R (mkF b (fdat s) (fmark s) (upd (fpcs s) t p) (fhist s)) a.
  Proof.
    intros s a t p b HR N1 N2 N3 N4 Hsp Hth Hm Hrp. destruct HR as [H1 H2 H3 H4 H5 H6 H7].
    constructor; simpl; auto.
    - eapply spin_upd; eauto.
    - intros u. updc u t; auto.
    - intros u Hu. updc u t; auto.
    - intros u. rewrite H6. rewrite pend_upd by assumption. updc u t; [|tauto].
      split; (intros [(o&l&E)|G]; [exfalso; first [now apply N3 in E|now apply N4 in E]|auto]).
    - intros u o l. updc u t; [apply Hrp|apply H7].
  Qed.

  (** A block. *)
  Lemma sim_block : forall s a t b s' o l,
    R s a -> fpcs s t = FIn o l -> fstep s (SRun t b) = Some s' ->
    exists a', astep a (ARun t b) = Some a' /\ R s' a'.
  Proof.
    intros s a t b s' o l HR Ep Hs. simpl in Hs. rewrite Ep in Hs.
    assert (Ha : astep a (ARun t b) = Some (ado seg a t o l b)).
    { pose proof (r_thr HR t) as Ht. rewrite Ep in Ht. simpl. destruct Ht as [->|[-> ->]]; reflexivity. }
    exists (ado seg a t o l b). split; [exact Ha|]. clear Ha.
    destruct HR as [H1 H2 H3 H4 H5 H6 H7].
    assert (Hex : forall u, u <> t -> incs (fpcs s u) = false).
    { intros u Hu. eapply (spin_inv_excl _ _ t u H1); auto. simpl. now rewrite Ep. }
    assert (Hnp : forall g, ~ pend s g).
    { apply no_pend with (t := t); auto; rewrite Ep; [reflexivity|discriminate]. }
    assert (Hsp : fspin s = true) by (apply (proj1 H1) with (t := t); simpl; now rewrite Ep).
    assert (Hmt : fmark s t = false).
    { destruct (fmark s t) eqn:E; auto. apply H5 in E. rewrite Ep in E. discriminate. }
    assert (Hat : amark a t = false).
    { destruct (amark a t) eqn:E; auto. apply H6 in E. destruct E as [(?&?&E)|[E _]]; congruence. }
    unfold ado. rewrite <- H2, <- H3. destruct (seg t o l b (fdat s)) as [d l'|d xs l'|d lin gr r];
      injection Hs as <-.
    - constructor; simpl; auto.
      + eapply spin_upd; eauto. rewrite Ep. now apply sm_stay.
      + intros u. updc u t; simpl; auto.
      + intros u Hu. updc u t; auto. congruence.
      + intros u. rewrite H6. rewrite pend_upd; [|rewrite Ep; discriminate|discriminate]. updc u t; [|tauto].
        split; (intros [(?&?&E)|[? ?]]; [congruence|congruence]).
      + intros u o' l0. updc u t; [discriminate|apply H7].
    - constructor; simpl; auto.
      + eapply spin_upd; eauto. rewrite Ep. now apply sm_stay.
      + intros u. updc u t; simpl; auto.
      + intros u Hu. updc u t; auto. congruence.
      + intros u. rewrite pend_upd; [|rewrite Ep; discriminate|discriminate]. updc u t.
        * split; [intros _; left; eauto|auto].
        * apply H6.
      + intros u o' l0. updc u t; [discriminate|apply H7].
    - assert (Hp' : forall g, pend {| fspin := fspin s; fdat := d; fmark := fmark s;
          fpcs := upd (fpcs s) t (FUn o gr r); fhist := log_lin lin (fhist s) |} g <-> In g gr).
      { intros g. split.
        - intros (u&o'&gr'&r'&E&Hi). simpl in E. updc u t; [congruence|].
          exfalso. apply (Hnp g). exists u, o', gr', r'. auto.
        - intros Hi. exists t, o, gr, r. simpl. now rewrite upd_same. }
      constructor; simpl; auto.
      + eapply spin_upd; eauto. rewrite Ep. now apply sm_stay.
      + intros u. updc u t; simpl; auto. specialize (H4 u).
        pose proof (Hex u n) as Hxu.
        destruct (fpcs s u) eqn:Eu; simpl in *; try discriminate; auto.
        destruct H4 as [?|[? Hm]]; [auto|right; split; auto].
        unfold unmark. rewrite Hm. now destruct (existsb (Nat.eqb u) gr).
      + intros u Hu. updc u t; auto. congruence.
      + intros u. rewrite unmark_true, H6, Hp'. updc u t.
        * split; [intros [[(?&?&E)|[? ?]] _]; congruence|intros [(?&?&E)|[? ?]]; congruence].
        * pose proof (Hnp u). split.
          -- intros [[(?&?&E)|[? ?]] ?]; [left; eauto|right; auto].
          -- intros [(?&?&E)|[? ?]]; [|tauto]. exfalso. specialize (Hex u n). rewrite E in Hex. discriminate.
      + intros u o' l0. updc u t; [discriminate|apply H7].
  Qed.

  (** The step of the atomic model that a step of the fine-grained one stands for, if any. *)
  Definition absl (s : F) (lb : slbl Op) : option (albl Op) :=
    match lb with
    | SCall t o => Some (ACall t o)
    | SRun t b => match fpcs s t with FIn _ _ => Some (ARun t b) | FUn _ [] _ => Some (ALeave t) | _ => None end
    end.
  Lemma sim_lbl : forall s a lb s', R s a -> fstep s lb = Some s' ->
    match absl s lb with Some l => exists a', astep a l = Some a' /\ R s' a' | None => R s' a end.
  Proof.
    intros s a [t o|t b] s' HR Hs.
    - simpl in Hs. destruct (fpcs s t) eqn:Ep; try discriminate. injection Hs as <-.
      simpl.
      pose proof (r_thr HR t) as Ht. rewrite Ep in Ht. simpl in Ht. rewrite Ht.
      eexists. split; [reflexivity|]. destruct HR as [H1 H2 H3 H4 H5 H6 H7].
      constructor; simpl; auto; try congruence.
      + eapply spin_upd; eauto. rewrite Ep. now apply sm_stay.
      + intros u. updc u t; simpl; auto.
      + intros u Hu. updc u t; auto. apply H5 in Hu. rewrite Ep in Hu. discriminate.
      + intros u. rewrite H6. rewrite pend_upd; [|rewrite Ep; discriminate|discriminate]. updc u t; [|tauto].
        split; (intros [(?&?&E)|?]; [congruence|auto]).
      + intros u o' l'. updc u t; [discriminate|apply H7].
    - destruct (fpcs s t) as [|o l|o l|o l|o l|o l|o l|o l|o gr r] eqn:Ep;
        [simpl in Hs; rewrite Ep in Hs; discriminate| |destruct (sim_block _ _ HR Ep Hs) as (a'&Ha&HR');
        unfold absl; rewrite Ep; exists a'; auto| | | | | | ];
        assert (Hs2 := Hs); simpl in Hs; rewrite Ep in Hs; pose proof (r_thr HR t) as Ht; rewrite Ep in Ht; simpl in Ht; unfold absl; rewrite Ep.
      + destruct (fspin s) eqn:Esp; [discriminate|]. injection Hs as <-.
        apply sim_silent; auto; try (rewrite Ep; discriminate); try discriminate.
        * rewrite Ep, Esp. now apply sm_acq.
        * intros E. apply (r_mark1 HR) in E. rewrite Ep in E. discriminate.
      + injection Hs as <-.
        apply sim_silent; auto; try (rewrite Ep; discriminate); try discriminate.
        * rewrite Ep. now apply sm_rel.
        * intros E. apply (r_mark1 HR) in E. rewrite Ep in E. discriminate.
      + destruct (fmark s t) eqn:Em; [discriminate|]. injection Hs as <-.
        apply sim_silent; auto; try (rewrite Ep; discriminate); try discriminate.
        * rewrite Ep. now apply sm_stay.
        * simpl. auto.
        * congruence.
      + injection Hs as <-.
        destruct HR as [H1 H2 H3 H4 H5 H6 H7].
        assert (Hnp : forall g, ~ pend s g).
        { apply no_pend with (t := t); auto; rewrite Ep; [reflexivity|discriminate]. }
        constructor; simpl; auto.
        * eapply spin_upd; eauto. rewrite Ep. now apply sm_stay.
        * intros u. updc u t; auto.
        * intros u. updc u t; auto.
        * intros u. rewrite H6. rewrite pend_upd; [|rewrite Ep; discriminate|discriminate]. updc u t; [|tauto].
          split; [intros _; right; split; auto|intros _; left; eauto].
        * intros u o' l'. updc u t; auto. apply H7.
      + injection Hs as <-.
        assert (Em := r_relp HR _ Ep).
        apply sim_silent; auto; try (rewrite Ep; discriminate); try discriminate.
        rewrite Ep. now apply sm_rel.
      + destruct (fmark s t) eqn:Em; [discriminate|]. injection Hs as <-.
        apply sim_silent; auto; try (rewrite Ep; discriminate); try discriminate.
        * rewrite Ep. now apply sm_stay.
        * simpl. right. split; auto. destruct (amark a t) eqn:E; auto. apply (r_mark2 HR) in E.
          destruct E as [(?&?&E)|[E _]]; congruence.
        * congruence.
      + assert (Hmk : fmark s t = false).
        { destruct (fmark s t) eqn:E; auto. apply (r_mark1 HR) in E. rewrite Ep in E. discriminate. }
        assert (Hex : forall u, u <> t -> incs (fpcs s u) = false).
        { intros u Hu. eapply (spin_inv_excl _ _ t u (r_spin HR)); auto. simpl. now rewrite Ep. }
        assert (Hpd : forall g, pend s g <-> In g gr).
        { intros g. split.
          - intros (u&o'&gr'&r'&E&Hi). destruct (Nat.eq_dec u t) as [->|Hne]; [congruence|].
            specialize (Hex u Hne). rewrite E in Hex. discriminate.
          - intros Hi. exists t, o, gr, r. auto. }
        destruct gr as [|g gr]; injection Hs as <-.
        * eexists. split; [simpl; rewrite Ht; reflexivity|].
          destruct HR as [H1 H2 H3 H4 H5 H6 H7]. constructor; simpl; auto; try congruence.
          -- eapply spin_upd; eauto. rewrite Ep. now apply sm_rel.
          -- intros u. updc u t; simpl; auto.
          -- intros u Hu. updc u t; auto. congruence.
          -- assert (Hn : forall g, ~ pend {| fspin := false; fdat := fdat s; fmark := fmark s;
                fpcs := upd (fpcs s) t FOut; fhist := ERet t o r :: fhist s |} g).
             { intros g (u&o'&gr'&r'&E&Hi). simpl in E. updc u t; [discriminate|].
               specialize (Hex u n). rewrite E in Hex. discriminate. }
             intros u. rewrite H6. pose proof (Hn u). rewrite Hpd. simpl. updc u t; [|tauto].
             split; (intros [(?&?&?)|[? ?]]; congruence).
          -- intros u o' l'. updc u t; [discriminate|apply H7].
        * assert (Hp' : forall x, pend {| fspin := fspin s; fdat := fdat s; fmark := upd (fmark s) g false;
              fpcs := upd (fpcs s) t (FUn o gr r); fhist := fhist s |} x <-> In x gr).
          { intros x. split.
            - intros (u&o'&gr'&r'&E&Hi). simpl in E. updc u t; [congruence|].
              specialize (Hex u n). rewrite E in Hex. discriminate.
            - intros Hi. exists t, o, gr, r. simpl. now rewrite upd_same. }
          destruct HR as [H1 H2 H3 H4 H5 H6 H7]. constructor; simpl; auto.
          -- eapply spin_upd; eauto. rewrite Ep. now apply sm_stay.
          -- intros u. updc u t; auto.
          -- intros u. updc u g; [discriminate|]. intros Hu. updc u t; auto. congruence.
          -- intros u. rewrite H6, Hp', Hpd. simpl. updc u t.
             ++ updc t g.
                ** split; [intros [(?&?&?)|[? ?]]; congruence|intros [(?&?&?)|[? ?]]; congruence].
                ** split; [intros [(?&?&?)|[? ?]]; congruence|intros [(?&?&?)|[? ?]]; congruence].
             ++ updc u g.
                ** split; [intros [?|[_ ?]]; [auto|tauto]|intros [?|[? _]]; [auto|discriminate]].
                ** split; (intros [?|[? ?]]; [auto|right; split; auto; intuition congruence]).
          -- intros u o' l'. updc u t; [discriminate|]. intros E. updc u g; [|eauto].
             exfalso. specialize (Hex g n). rewrite E in Hex. discriminate.
  Qed.

  Lemma sim_step : forall s a lb s', R s a -> fstep s lb = Some s' ->
    exists ls a', run astep a ls = Some a' /\ R s' a'.
  Proof.
    intros s a lb s' HR Hs. pose proof (sim_lbl lb HR Hs) as H. destruct (absl s lb) as [l|].
    - destruct H as (a'&E&H). exists [l], a'. cbn [run]. rewrite E. auto.
    - exists [], a. auto.
  Qed.

  (** The refinement theorem. *)
  Theorem fine_refines_atomic : forall d ls s, run fstep (finit Op Res Aux Loc d) ls = Some s ->
    exists ls' a, run astep (ainit Op Res Aux Loc d) ls' = Some a /\ R s a.
  Proof.
    intros d ls s. 
    apply (run_inv fstep (fun s => exists ls' a, run astep (ainit Op Res Aux Loc d) ls' = Some a /\ R s a)).
    - exists [], (ainit Op Res Aux Loc d). split; [reflexivity|apply r_init].
    - intros s1 lb s2 (ls1&a1&Ha&HR) Hs. destruct (sim_step lb HR Hs) as (ls2&a2&Ha2&HR2).
      exists (ls1 ++ ls2), a2. rewrite run_app, Ha. auto.
  Qed.

  (** When nothing can move in the fine-grained state, nothing can in the atomic one. *)
  Theorem quiet_transfer : forall s a, R s a -> fquiet entry seg s -> aquiet entry seg a.
  Proof.
    intros s a HR HQ. assert (Hsp : fspin s = false).
    { destruct (fspin s) eqn:E; auto. exfalso. destruct (r_spin HR) as (_&_&H3).
      destruct (H3 E) as [u Hu]. specialize (HQ u false). simpl in HQ.
      destruct (fpcs s u) as [|o l|o l|o l|o l|o l|o l|o l|o gr r]; try discriminate.
      - destruct (seg u o l false (fdat s)); discriminate.
      - destruct gr; discriminate. }
    assert (Hall : forall t, fpcs s t = FOut \/ exists o l, fpcs s t = FPark o l /\ fmark s t = true).
    { intros t. specialize (HQ t false). simpl in HQ. rewrite Hsp in HQ.
      destruct (fpcs s t) as [|o l|o l|o l|o l|o l|o l|o l|o gr r] eqn:E; try discriminate; auto.
      - destruct (seg t o l false (fdat s)); discriminate.
      - destruct (fmark s t) eqn:Em; [|discriminate]. apply (r_mark1 HR) in Em. rewrite E in Em. discriminate.
      - destruct (fmark s t); [eauto|discriminate].
      - destruct gr; discriminate. }
    intros t. pose proof (r_thr HR t) as Ht. simpl.
    destruct (Hall t) as [E|(o&l&E&Em)]; rewrite E in Ht; simpl in Ht; rewrite Ht; split; auto.
    intros b. assert (Ha : amark a t = true).
    { apply (r_mark2 HR). right. split; auto. intros (u&o'&gr&r&Eu&_).
      destruct (Hall u) as [?|(?&?&?&?)]; congruence. }
    now rewrite Ha.
  Qed.
End P.
