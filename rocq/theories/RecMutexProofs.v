(** Invariant of the co_recursive_mutex model (atomic semantics) and its consequences. *)
From Coq Require Import List Arith Bool NArith Lia.
From Verif Require Import Base LinSpec LinLemmas MutexSpec RecMutexSpec SpinObj SpinObjProofs RecMutexModel.
Import ListNotations.

Local Notation phase := (phase_of mop_eqb mres_eqb).
Local Notation A := (ast rdat mop mres maux rloc).
Definition ars := astep rentry rseg.
Definition ari := ainit mop mres maux rloc rd0.

Lemma mop_refl : forall o, mop_eqb o o = true. Proof. now intros []. Qed.
Lemma mres_refl : forall r, mres_eqb r r = true. Proof. now intros []. Qed.

Definition dd (d : rdat) (t : tid) : N := if owns d t then rn d else 0%N.

Definition T (d : rdat) (h : list mev) (t : tid) (x : ath mop mres rloc) (m : bool) : Prop :=
  let c := depth h t in
  match x with
  | AOut => phase h t = Some PIdle /\ c = dd d t /\ m = false /\ ~ In t (rq d)
  | AReady o l =>
      phase h t = Some (PPending o) /\ m = false /\ ~ In t (rq d) /\
      match l with
      | RFirst => o = OLock /\ c = dd d t /\ (c + 1 < 2 ^ 64)%N
      | RTry => o = OLock /\ c = 0%N /\ owns d t = false
      | RTryL => o = OTry /\ c = dd d t /\ (c + 1 < 2 ^ 64)%N
      | RUn => o = OUnlock /\ c = N.pred (dd d t) /\ depth_at_unlock h t = dd d t
      | RLoop => False
      end
  | AParked o l =>
      o = OLock /\ l = RLoop /\ c = 0%N /\
      ((m = true /\ In t (rq d) /\ owns d t = false /\ phase h t = Some (PPending OLock)) \/
       (m = false /\ ~ In t (rq d) /\ owns d t = true /\ rn d = 1%N /\ phase h t = Some (PDone OLock ROk)))
  | ADone o r =>
      phase h t = Some (PDone o r) /\ m = false /\ ~ In t (rq d) /\
      match o, r with
      | OLock, ROk | OTry, RTrue => owns d t = true /\ (c + 1 = rn d)%N
      | OTry, RFalse => c = dd d t
      | OUnlock, _ => c = dd d t /\ r = (if (depth_at_unlock h t =? 0)%N then RThrow else ROk)
      | _, _ => False
      end
  end.

Record Inv (a : A) : Prop := mkInv {
  i_nodup : NoDup (rq (adat a));
  i_own : match ro (adat a) with None => rq (adat a) = [] /\ rn (adat a) = 0%N
                               | Some _ => (0 < rn (adat a) < 2 ^ 64)%N end;
  i_seq : rec_state (ahist a) = Some (match ro (adat a) with None => None | Some u => Some (u, rn (adat a)) end);
  i_line : rline (ahist a) = Some (rq (adat a));
  i_un : rec_unlocks_ok (ahist a);
  i_thr : forall t, T (adat a) (ahist a) t (athr a t) (amark a t)
}.

Lemma inv_init : Inv ari.
Proof.
  constructor; simpl; auto; try constructor; auto.
Qed.

Lemma owns_true : forall d t, owns d t = true <-> ro d = Some t.
Proof.
  intros d t. unfold owns. destruct (ro d) as [u|]; [|split; discriminate].
  rewrite Nat.eqb_eq. split; congruence.
Qed.
Lemma owns_false : forall d t, owns d t = false <-> ro d <> Some t.
Proof.
  intros d t. rewrite <- owns_true. destruct (owns d t); split; intros; congruence.
Qed.

Lemma inc_ok : forall n, (n + 1 < 2 ^ 64)%N -> inc64 n = (n + 1)%N.
Proof. intros n H. unfold inc64. now apply N.mod_small. Qed.
Lemma dec_ok : forall n, (0 < n < 2 ^ 64)%N -> dec64 n = (n - 1)%N.
Proof.
  intros n H. unfold dec64. replace (n + (2 ^ 64 - 1))%N with ((n - 1) + 1 * 2 ^ 64)%N by lia.
  rewrite N.mod_add by discriminate. apply N.mod_small. lia.
Qed.

(** Frame for coroutines that do not take part. *)
Lemma T_frame : forall d h d' h' u x m m',
  T d h u x m -> phase h' u = phase h u -> depth h' u = depth h u -> depth_at_unlock h' u = depth_at_unlock h u ->
  (owns d' u = owns d u) -> (owns d u = true -> rn d' = rn d) -> (In u (rq d') <-> In u (rq d)) -> m' = m ->
  T d' h' u x m'.
Proof.
  intros d h d' h' u x m m' HT Hp Hd Hdu Ho Hr Hq ->.
  assert (Hdd : dd d' u = dd d u) by (unfold dd; rewrite Ho; destruct (owns d u); auto).
  unfold T in *. rewrite Hp, Hd, Hdu, Ho, Hdd.
  destruct x as [|o l|o l|o r].
  - tauto.
  - destruct l; tauto.
  - destruct HT as (?&?&?&[?|(?&?&Hw&?&?)]); [tauto|]. rewrite (Hr Hw). tauto.
  - destruct o, r; rewrite ?Hq; try tauto; destruct HT as (?&?&?&Hw&?); rewrite (Hr Hw); tauto.
Qed.

Lemma depth_other : forall e h u, ev_tid e <> u -> depth (e :: h) u = depth h u.
Proof.
  intros [t o|t o r|t o r|t x] h u H; simpl in *; auto.
  - destruct o; auto. now rewrite (proj2 (Nat.eqb_neq _ _) H).
  - destruct o, r; auto; now rewrite (proj2 (Nat.eqb_neq _ _) H).
Qed.
Lemma dau_other : forall e h u, ev_tid e <> u -> depth_at_unlock (e :: h) u = depth_at_unlock h u.
Proof.
  intros [t o|t o r|t o r|t x] h u H; simpl in *; auto.
  destruct o; auto. now rewrite (proj2 (Nat.eqb_neq _ _) H).
Qed.

Lemma shallow_tail : forall e h, shallow (e :: h) -> shallow h.
Proof. intros [t []|t o r|t o r|t x] h H; simpl in H; tauto. Qed.

Lemma held_by_owns : forall a t, Inv a -> held_by (ahist a) t = owns (adat a) t.
Proof.
  intros a t H. unfold held_by, owns. rewrite (i_seq a H). now destruct (ro (adat a)).
Qed.

Ltac cmp u t := destruct (Nat.eq_dec u t) as [->|?];
  [rewrite ?upd_same in * | rewrite ?upd_other in * by assumption].
Ltac oth := first [ apply phase_other | apply depth_other | apply dau_other ]; simpl; congruence.

(** [t] obtains the mutex with a fresh effect. *)
Lemma inv_take : forall a t o r,
  Inv a -> (o = OLock /\ r = ROk \/ o = OTry /\ r = RTrue) ->
  phase (ahist a) t = Some (PPending o) -> amark a t = false -> ~ In t (rq (adat a)) ->
  (ro (adat a) = None \/ ro (adat a) = Some t) ->
  depth (ahist a) t = dd (adat a) t -> (depth (ahist a) t + 1 < 2 ^ 64)%N ->
  Inv (mkA (mkRd (Some t) (inc64 (rn (adat a))) (rq (adat a))) (upd (athr a) t (ADone o r))
           (unmark [] (amark a)) (ELin t o r :: ahist a)).
Proof.
  intros a t o r HI Hor Hp Hm Hq Ho Hd Hs.
  pose proof (held_by_owns a t HI) as Hh. pose proof (i_own a HI) as Hown.
  assert (Hrn : inc64 (rn (adat a)) = (depth (ahist a) t + 1)%N).
  { rewrite inc_ok; rewrite Hd in *; unfold dd, owns in *; destruct Ho as [E|E]; rewrite E in *.
    - now rewrite (proj2 Hown).
    - now rewrite Nat.eqb_refl.
    - now rewrite (proj2 Hown).
    - now rewrite Nat.eqb_refl in Hs. }
  constructor; cbn [adat athr amark ahist ro rn rq].
  - apply (i_nodup a HI).
  - rewrite Hrn. lia.
  - unfold rec_state. cbn [seq_state]. change (seq_state rec_spec None (ahist a)) with (rec_state (ahist a)).
    rewrite (i_seq a HI).
    assert (E : match ro (adat a) with Some u => Some (u, rn (adat a)) | None => None end = None \/
      match ro (adat a) with Some u => Some (u, rn (adat a)) | None => None end = Some (t, rn (adat a))).
    { destruct Ho as [-> | ->]; auto. }
    rewrite Hrn, Hd. unfold dd, owns. unfold rec_spec.
    destruct Hor as [[-> ->]|[-> ->]]; destruct Ho as [-> | ->]; rewrite ?Nat.eqb_refl; reflexivity.
  - destruct Hor as [[-> ->]|[-> ->]]; cbn [rline]; rewrite Hh; destruct Ho as [E|E]; rewrite E in Hown;
      unfold owns; rewrite E; rewrite ?Nat.eqb_refl; rewrite (i_line a HI); auto;
      destruct Hown as [-> _]; reflexivity.
  - apply (i_un a HI).
  - intros u. cmp u t.
    + unfold T. rewrite (phase_lin _ _ mop_refl _ _ _ Hp). unfold unmark; simpl existsb; cbn [rq rn].
      repeat split; auto.
      destruct Hor as [[-> ->]|[-> ->]]; cbn [depth]; (split; [unfold owns; cbn; apply Nat.eqb_refl|]); now rewrite Hrn.
    + eapply T_frame; [apply (i_thr a HI)|oth|oth|oth| | |reflexivity|reflexivity].
      * unfold owns; cbn. destruct Ho as [-> | ->]; auto. apply Nat.eqb_neq. congruence.
      * intros Hw. exfalso. apply owns_true in Hw. destruct Ho; congruence.
Qed.

(** A step of [t] that leaves the data alone. *)
Lemma inv_same : forall a t x m es,
  Inv a -> (forall e, In e es -> ev_tid e = t) ->
  (forall o r, In (ELin t o r) es -> rec_spec (match ro (adat a) with None => None | Some u => Some (u, rn (adat a)) end) t o r
                                    = Some (match ro (adat a) with None => None | Some u => Some (u, rn (adat a)) end)
                                    /\ (r = RFalse \/ r = RThrow)) ->
  (forall p, ~ In (EAux t p) es) ->
  rec_unlocks_ok (es ++ ahist a) ->
  T (adat a) (es ++ ahist a) t x (m t) -> (forall u, u <> t -> m u = amark a u) ->
  Inv (mkA (adat a) (upd (athr a) t x) m (es ++ ahist a)).
Proof.
  intros a t x m es HI Ht Hl Hx Hun HT Hm.
  constructor; cbn [adat athr amark ahist].
  - apply (i_nodup a HI).
  - apply (i_own a HI).
  - clear HT Hun. induction es as [|e es IH]; [apply (i_seq a HI)|]. simpl app.
    unfold rec_state in *. assert (He : ev_tid e = t) by (apply Ht; now left).
    specialize (IH (fun e H => Ht e (or_intror H)) (fun o r H => Hl o r (or_intror H)) (fun p H => Hx p (or_intror H))).
    destruct e as [u o|u o r|u o r|u p]; simpl in He; subst u; cbn [seq_state]; auto.
    rewrite IH. apply (Hl o r). now left.
  - clear HT Hun. induction es as [|e es IH]; [apply (i_line a HI)|]. simpl app.
    assert (He : ev_tid e = t) by (apply Ht; now left).
    specialize (IH (fun e H => Ht e (or_intror H)) (fun o r H => Hl o r (or_intror H)) (fun p H => Hx p (or_intror H))).
    destruct e as [u o|u o r|u o r|u p]; simpl in He; subst u; cbn [rline]; auto.
    + destruct (Hl o r (or_introl eq_refl)) as [_ [-> | ->]]; destruct o; auto.
    + exfalso. apply (Hx p). now left.
  - exact Hun.
  - intros u. cmp u t; [exact HT|].
    assert (Hall : phase (es ++ ahist a) u = phase (ahist a) u /\ depth (es ++ ahist a) u = depth (ahist a) u /\
                   depth_at_unlock (es ++ ahist a) u = depth_at_unlock (ahist a) u).
    { clear HT Hun Hl Hx. induction es as [|e es IH]; [auto|]. simpl app.
      destruct (IH (fun e H => Ht e (or_intror H))) as (E1&E2&E3).
      assert (ev_tid e <> u) by (rewrite (Ht e (or_introl eq_refl)); congruence).
      rewrite phase_other, depth_other, dau_other by assumption. auto. }
    destruct Hall as (E1&E2&E3).
    eapply T_frame; [apply (i_thr a HI)|exact E1|exact E2|exact E3|reflexivity|auto|reflexivity|auto].
Qed.

Lemma inv_park : forall a t,
  Inv a -> phase (ahist a) t = Some (PPending OLock) -> amark a t = false -> ~ In t (rq (adat a)) ->
  depth (ahist a) t = 0%N -> owns (adat a) t = false -> ro (adat a) <> None ->
  Inv (mkA (mkRd (ro (adat a)) (rn (adat a)) (rq (adat a) ++ [t])) (upd (athr a) t (AParked OLock RLoop))
           (upd (amark a) t true) (EAux t APark :: ahist a)).
Proof.
  intros a t HI Hp Hm Hq Hd Ho Hn. pose proof (i_own a HI) as Hown.
  constructor; cbn [adat athr amark ahist ro rn rq].
  - pose proof (i_nodup a HI) as H.
    clear - H Hq. induction (rq (adat a)) as [|v l IH]; simpl; [constructor; [easy|constructor]|].
    inversion H; subst. constructor; [|apply IH; auto; intro; apply Hq; now right].
    rewrite in_app_iff. simpl. intros [?|[->|[]]]; [contradiction|apply Hq; now left].
  - destruct (ro (adat a)); [exact Hown|congruence].
  - apply (i_seq a HI).
  - cbn [rline]. now rewrite (i_line a HI).
  - apply (i_un a HI).
  - intros u. cmp u t.
    + unfold T. cbn [rq rn]. change (depth (EAux t APark :: ahist a) t) with (depth (ahist a) t).
      rewrite phase_aux. change (owns {| ro := ro (adat a); rn := rn (adat a); rq := rq (adat a) ++ [t] |} t)
        with (owns (adat a) t). rewrite Hd, Hp, Ho. repeat split; auto. left. repeat split; auto.
      rewrite in_app_iff. right. now left.
    + eapply T_frame; [apply (i_thr a HI)|apply phase_aux|reflexivity|reflexivity|reflexivity|reflexivity| |reflexivity].
      cbn [rq]. rewrite in_app_iff. simpl. intuition congruence.
Qed.

Lemma inv_rpark : forall a t a' b,
  Inv a -> athr a t = AReady OLock b -> (b = RFirst \/ b = RTry) ->
  (b = RFirst -> exists u, ro (adat a) = Some u /\ u <> t) ->
  a' = match rpark t (adat a) with
       | SYield d l' => mkA d (upd (athr a) t (AReady OLock l')) (amark a) (ahist a)
       | SPark d xs l' => mkA d (upd (athr a) t (AParked OLock l')) (upd (amark a) t true) (log_xs t xs (ahist a))
       | SFin d lin gr r => mkA d (upd (athr a) t (ADone OLock r)) (unmark gr (amark a)) (log_lin lin (ahist a))
       end -> Inv a'.
Proof.
  intros a t a' b HI Ht Hb Hf ->. pose proof (i_thr a HI t) as HT. rewrite Ht in HT. simpl in HT.
  assert (HT' : phase (ahist a) t = Some (PPending OLock) /\ amark a t = false /\ ~ In t (rq (adat a)) /\
                depth (ahist a) t = 0%N /\ owns (adat a) t = false).
  { destruct Hb as [-> | ->].
    - destruct HT as (H1&H2&H3&_&H4&_). destruct (Hf eq_refl) as (u&E&Hne).
      assert (Ho : owns (adat a) t = false) by (apply owns_false; congruence).
      repeat split; auto. rewrite H4. unfold dd. now rewrite Ho.
    - tauto. }
  destruct HT' as (H1&H2&H3&H4&H5). unfold rpark. destruct (ro (adat a)) as [u|] eqn:E.
  - rewrite H5. rewrite <- E. apply inv_park; auto. congruence.
  - unfold rtake. apply inv_take; auto. unfold dd. now rewrite H5, H4. rewrite H4. reflexivity.
Qed.

Lemma same_unmark : forall (m : tid -> bool) u, unmark [] m u = m u. Proof. reflexivity. Qed.

Lemma inv_unlock : forall a t, Inv a -> athr a t = AReady OUnlock RUn -> owns (adat a) t = true ->
  forall b, Inv (ado rseg a t OUnlock RUn b).
Proof.
  intros a t HI Ht Ho b. pose proof (i_thr a HI t) as HT. rewrite Ht in HT. simpl in HT.
  destruct HT as (H1&H2&H3&_&H4&H5). pose proof (i_own a HI) as Hown.
  assert (Ero := proj1 (owns_true _ _) Ho). rewrite Ero in Hown.
  unfold dd in *. rewrite Ho in *.
  assert (Hd : dec64 (rn (adat a)) = (rn (adat a) - 1)%N) by now apply dec_ok.
  assert (Hsq : rec_spec (Some (t, rn (adat a))) t OUnlock ROk =
                if (rn (adat a) =? 1)%N then Some None else Some (Some (t, rn (adat a) - 1)%N)).
  { simpl. now rewrite Nat.eqb_refl. }
  unfold ado, rseg. rewrite Ho. cbv zeta. rewrite Hd.
  destruct (rn (adat a) - 1 =? 0)%N eqn:Ez; cbn [negb].
  - apply N.eqb_eq in Ez. assert (E1 : rn (adat a) = 1%N) by lia. rewrite Ez.
    rewrite E1 in *. simpl in Hsq. 
    destruct (rq (adat a)) as [|u q'] eqn:Eq.
    + constructor; cbn [adat athr amark ahist ro rn rq].
      * constructor.
      * auto.
      * cbn. change (seq_state rec_spec None (ahist a)) with (rec_state (ahist a)).
        rewrite (i_seq a HI), Ero, E1. simpl. now rewrite Nat.eqb_refl.
      * cbn [log_lin fold_left fst snd rline]. rewrite (i_line a HI). now rewrite Eq.
      * apply (i_un a HI).
      * intros u. cbn [log_lin fold_left fst snd]. cmp u t.
        -- unfold T. rewrite (phase_lin _ _ mop_refl _ _ _ H1). rewrite same_unmark. cbn [rq]. repeat split; auto.
           simpl. now rewrite H5.
        -- eapply T_frame; [apply (i_thr a HI)|oth|oth|oth| | | |reflexivity].
           ++ symmetry. apply owns_false. congruence.
           ++ intros Hw. apply owns_true in Hw. congruence.
           ++ rewrite Eq. reflexivity.
    + pose proof (i_nodup a HI) as Hnd. rewrite Eq in Hnd. inversion Hnd as [|? ? Hnu Hnq]; subst.
      pose proof (i_thr a HI u) as HTu.
      assert (Hne : u <> t) by (intros ->; apply H3; now left).
      assert (Hu : athr a u = AParked OLock RLoop /\ depth (ahist a) u = 0%N /\ phase (ahist a) u = Some (PPending OLock)).
      { destruct (athr a u) as [|o l|o l|o r]; simpl in HTu; rewrite Eq in HTu; simpl in HTu.
        - tauto. - tauto. - destruct HTu as (->&->&?&[?|?]); tauto. - tauto. }
      destruct Hu as (Eu&Du&Pu).
      assert (Hst : rec_state (ELin t OUnlock ROk :: ahist a) = Some None).
      { unfold rec_state. cbn [seq_state]. change (seq_state rec_spec None (ahist a)) with (rec_state (ahist a)).
        rewrite (i_seq a HI), Ero, E1. simpl. now rewrite Nat.eqb_refl. }
      change (inc64 0) with 1%N.
      constructor; cbn [adat athr amark ahist ro rn rq log_lin fold_left fst snd].
      * exact Hnq.
      * lia.
      * unfold rec_state in *. simpl seq_state in *. rewrite Hst. simpl. reflexivity.
      * cbn [rline]. unfold held_by. rewrite Hst, (i_line a HI), Eq, Nat.eqb_refl. reflexivity.
      * apply (i_un a HI).
      * intros v. cmp v t.
        -- unfold T. rewrite phase_other by (simpl; congruence). rewrite (phase_lin _ _ mop_refl _ _ _ H1).
           cbn [rq]. repeat split; auto.
           ++ unfold unmark. simpl. now rewrite H2, (proj2 (Nat.eqb_neq t u)) by congruence.
           ++ intros Hi. apply H3. now right.
           ++ simpl. unfold dd, owns. simpl. rewrite (proj2 (Nat.eqb_neq u t)) by congruence. rewrite H4. reflexivity.
           ++ simpl. now rewrite H5.
        -- destruct (Nat.eq_dec v u) as [->|Hvu].
           ++ rewrite Eu. unfold T. repeat split; auto. right. cbn [rq rn]. repeat split; auto.
              ** unfold unmark. simpl. now rewrite Nat.eqb_refl.
              ** unfold owns. simpl. apply Nat.eqb_refl.
              ** apply phase_lin; [exact mop_refl|]. rewrite phase_other by (simpl; congruence). exact Pu.
           ++ eapply T_frame; [apply (i_thr a HI)| | | | | | |].
              ** rewrite !phase_other by (simpl; congruence). reflexivity.
              ** rewrite !depth_other by (simpl; congruence). reflexivity.
              ** rewrite !dau_other by (simpl; congruence). reflexivity.
              ** transitivity false; [apply owns_false; simpl; congruence|symmetry; apply owns_false; congruence].
              ** intros Hw. apply owns_true in Hw. congruence.
              ** cbn [rq]. rewrite Eq. simpl. intuition congruence.
              ** unfold unmark. simpl. now rewrite (proj2 (Nat.eqb_neq v u)) by congruence.
  - apply N.eqb_neq in Ez.
    constructor; cbn [adat athr amark ahist ro rn rq log_lin fold_left fst snd].
    + apply (i_nodup a HI).
    + rewrite Ero. lia.
    + unfold rec_state. cbn [seq_state]. change (seq_state rec_spec None (ahist a)) with (rec_state (ahist a)).
      rewrite (i_seq a HI), Ero. rewrite Hsq. destruct (rn (adat a) =? 1)%N eqn:E; [apply N.eqb_eq in E; lia|reflexivity].
    + cbn [rline]. apply (i_line a HI).
    + apply (i_un a HI).
    + intros u. cmp u t.
      * unfold T. rewrite (phase_lin _ _ mop_refl _ _ _ H1). rewrite same_unmark. cbn [rq]. repeat split; auto.
        -- simpl. unfold dd, owns. cbn [ro rn]. rewrite Ero, Nat.eqb_refl. rewrite H4. lia.
        -- simpl. rewrite H5. destruct (rn (adat a) =? 0)%N eqn:E; [apply N.eqb_eq in E; lia|reflexivity].
      * eapply T_frame; [apply (i_thr a HI)|oth|oth|oth|reflexivity| |reflexivity|reflexivity].
        intros Hw. apply owns_true in Hw. congruence.
Qed.

Lemma inv_ado : forall a t o l b, Inv a ->
  (athr a t = AReady o l \/ (athr a t = AParked o l /\ amark a t = false)) -> Inv (ado rseg a t o l b).
Proof.
  intros a t o l b HI [Ht|[Ht Hm]]; pose proof (i_thr a HI t) as HT; rewrite Ht in HT; simpl in HT.
  - destruct HT as (H1&H2&H3&HT). destruct l.
    + (* RFirst *) destruct HT as (->&H4&H5). unfold ado. cbn [rseg].
      destruct (ro (adat a)) as [u|] eqn:E; [destruct (Nat.eqb_spec u t) as [->|Hne]|].
      * apply inv_take; auto.
      * destruct b; [eapply inv_rpark; eauto|].
        change (ahist a) with ([] ++ ahist a). apply inv_same; simpl; auto; try tauto. apply (i_un a HI).
        assert (Ho : owns (adat a) t = false) by (apply owns_false; congruence).
        repeat split; auto. rewrite H4. unfold dd. now rewrite Ho.
      * apply inv_take; auto.
    + (* RTry *) destruct HT as (->&H4&H5). unfold ado. cbn [rseg]. destruct b; [eapply inv_rpark; eauto; discriminate|].
      destruct (ro (adat a)) as [u|] eqn:E.
      * change (ahist a) with ([] ++ ahist a). apply inv_same; simpl; auto; try tauto. apply (i_un a HI).
      * apply inv_take; auto; [unfold dd; now rewrite H5, H4|rewrite H4; reflexivity].
    + contradiction.
    + (* RTryL *) destruct HT as (->&H4&H5). unfold ado. cbn [rseg].
      destruct (ro (adat a)) as [u|] eqn:E; [destruct (Nat.eqb_spec u t) as [->|Hne]|].
      * apply inv_take; auto.
      * assert (Ho : owns (adat a) t = false) by (apply owns_false; congruence).
        cbn [log_lin fold_left fst snd]. change (ELin t OTry RFalse :: ahist a) with ([ELin t OTry RFalse] ++ ahist a).
        apply inv_same; auto.
        -- intros e [<-|[]]; reflexivity.
        -- intros o r [Ee|[]]. injection Ee as <- <-. rewrite E. simpl.
           rewrite (proj2 (Nat.eqb_neq u t)) by congruence. auto.
        -- intros p [Ee|[]]; discriminate.
        -- apply (i_un a HI).
        -- cbn [app]. unfold T. rewrite (phase_lin _ _ mop_refl _ _ _ H1). auto.
      * apply inv_take; auto.
    + (* RUn *) destruct HT as (->&H4&H5). destruct (owns (adat a) t) eqn:Ho; [now apply inv_unlock|].
      unfold ado. cbn [rseg]. rewrite Ho. cbn [log_lin fold_left fst snd].
      change (ELin t OUnlock RThrow :: ahist a) with ([ELin t OUnlock RThrow] ++ ahist a).
      unfold dd in *. rewrite Ho in *.
      apply inv_same; auto.
      * intros e [<-|[]]; reflexivity.
      * intros o r [Ee|[]]. injection Ee as <- <-. apply owns_false in Ho. destruct (ro (adat a)) as [u|]; simpl; auto.
        rewrite (proj2 (Nat.eqb_neq u t)) by congruence. auto.
      * intros p [Ee|[]]; discriminate.
      * apply (i_un a HI).
      * cbn [app]. unfold T. rewrite (phase_lin _ _ mop_refl _ _ _ H1). repeat split; auto.
        -- unfold dd. rewrite Ho. simpl. exact H4.
        -- simpl. now rewrite H5.
  - destruct HT as (->&->&H4&[HT|(H1&H2&H3&H5&H6)]); [destruct HT; congruence|].
    unfold ado. cbn [rseg]. rewrite H3. cbn [log_lin fold_left].
    change (ahist a) with ([] ++ ahist a). apply inv_same; simpl; auto; try tauto. apply (i_un a HI).
    repeat split; auto. rewrite H4, H5. reflexivity.
Qed.

Lemma inv_step : forall a lb a', Inv a -> ars a lb = Some a' -> shallow (ahist a') -> Inv a'.
Proof.
  intros a [t o|t b|t] a' HI Hs Hsh; simpl in Hs.
  - destruct (athr a t) eqn:Et; try discriminate. injection Hs as <-. cbn [ahist] in Hsh.
    pose proof (i_thr a HI t) as HT. rewrite Et in HT. simpl in HT. destruct HT as (H1&H2&H3&H4).
    change (ECall t o :: ahist a) with ([ECall t o] ++ ahist a). apply inv_same; auto.
    + intros e [<-|[]]; reflexivity.
    + intros o' r [Ee|[]]; discriminate.
    + intros p [Ee|[]]; discriminate.
    + apply (i_un a HI).
    + cbn [app]. unfold T. rewrite (phase_call _ _ _ _ _ H1). repeat split; auto.
      destruct o; cbn [rentry].
      * simpl in Hsh. simpl. tauto.
      * simpl in Hsh. simpl. tauto.
      * simpl. rewrite Nat.eqb_refl. rewrite H2. auto.
  - destruct (athr a t) as [|o l|o l|o r] eqn:Et; try discriminate.
    + injection Hs as <-. apply inv_ado; auto.
    + destruct (amark a t) eqn:Em; [discriminate|]. injection Hs as <-. apply inv_ado; auto.
  - destruct (athr a t) as [|o l|o l|o r] eqn:Et; try discriminate. injection Hs as <-.
    pose proof (i_thr a HI t) as HT. rewrite Et in HT. simpl in HT. destruct HT as (H1&H2&H3&H4).
    change (ERet t o r :: ahist a) with ([ERet t o r] ++ ahist a). apply inv_same; auto.
    + intros e [<-|[]]; reflexivity.
    + intros o' r' [Ee|[]]; discriminate.
    + intros p [Ee|[]]; discriminate.
    + cbn [app rec_unlocks_ok]. destruct o; try apply (i_un a HI). split; [|apply (i_un a HI)].
      destruct r; tauto.
    + cbn [app]. unfold T. rewrite (phase_ret _ _ mop_refl mres_refl _ _ H1). unfold dd in *.
      repeat split; auto. destruct o, r; cbn [depth]; rewrite ?Nat.eqb_refl; try tauto.
      * destruct H4 as [-> H4]. now rewrite H4.
      * destruct H4 as [-> H4]. now rewrite H4.
Qed.

Lemma astep_hist : forall (a : A) lb a', ars a lb = Some a' -> exists es, ahist a' = es ++ ahist a.
Proof.
  assert (Hd : forall (a : A) t o l b, exists es, ahist (ado rseg a t o l b) = es ++ ahist a).
  { intros a t o l b. unfold ado.
    destruct (rseg t o l b (adat a)) as [d l'|d xs l'|d lin gr r]; cbn [ahist].
    - exists []; reflexivity.
    - unfold log_xs. generalize (ahist a). induction xs as [|x xs IH]; intros h; simpl; [exists []; reflexivity|].
      destruct (IH (EAux t x :: h)) as [es ->]. exists (es ++ [EAux t x]). now rewrite <- app_assoc.
    - unfold log_lin. generalize (ahist a). induction lin as [|x xs IH]; intros h; simpl; [exists []; reflexivity|].
      destruct (IH (ELin (fst (fst x)) (snd (fst x)) (snd x) :: h)) as [es ->]. eexists (es ++ [_]). rewrite <- app_assoc. reflexivity. }
  intros a [t o|t b|t] a' Hs; simpl in Hs; destruct (athr a t); try discriminate.
  - injection Hs as <-. eexists [_]. reflexivity.
  - injection Hs as <-. apply Hd.
  - destruct (amark a t); [discriminate|]. injection Hs as <-. apply Hd.
  - injection Hs as <-. eexists [_]. reflexivity.
Qed.

Lemma shallow_app : forall es h, shallow (es ++ h) -> shallow h.
Proof. induction es; intros h H; auto. apply IHes. eapply shallow_tail. exact H. Qed.

Lemma reach_inv : forall ls a, run ars ari ls = Some a -> shallow (ahist a) -> Inv a.
Proof.
  intros ls a. 
  apply (run_inv ars (fun a => shallow (ahist a) -> Inv a)).
  - intros _. apply inv_init.
  - intros a1 lb a2 IH Hs Hsh. eapply inv_step; eauto. apply IH.
    destruct (astep_hist _ _ _ Hs) as [es E]. rewrite E in Hsh. eapply shallow_app; eauto.
Qed.

(** Transfer to the fine-grained model. *)
Lemma rec_reach : forall ls s, run rstep rinit ls = Some s -> shallow (fhist s) ->
  exists a, R s a /\ Inv a.
Proof.
  intros ls s Hr Hsh. destruct (fine_refines_atomic _ _ _ _ Hr) as (ls'&a&Ha&HR).
  exists a. split; [exact HR|]. eapply reach_inv; [exact Ha|]. now rewrite <- (r_hist HR).
Qed.

Lemma inv_depth_le : forall a t, Inv a -> (depth (ahist a) t <= dd (adat a) t)%N.
Proof.
  intros a t HI. pose proof (i_thr a HI t) as HT. unfold T in HT. unfold dd in *.
  destruct (athr a t) as [|o l|o l|o r].
  - lia.
  - destruct l; lia.
  - destruct (owns (adat a) t); lia.
  - destruct o, r; try tauto; try lia; destruct HT as (_&_&_&->&?); lia.
Qed.

Lemma rec_exclusion : forall a t u, Inv a -> (0 < depth (ahist a) t)%N -> (0 < depth (ahist a) u)%N -> t = u.
Proof.
  intros a t u HI Ht Hu. pose proof (inv_depth_le a t HI). pose proof (inv_depth_le a u HI).
  unfold dd in *. destruct (owns (adat a) t) eqn:E1; [|lia]. destruct (owns (adat a) u) eqn:E2; [|lia].
  apply owns_true in E1. apply owns_true in E2. congruence.
Qed.

Lemma rec_lin : forall a, Inv a -> rec_linearizable (ahist a).
Proof.
  intros a HI. split.
  - intros t. pose proof (i_thr a HI t) as HT. unfold T in HT. destruct (athr a t) as [|o l|o l|o r].
    + destruct HT as (->&_). discriminate.
    + destruct HT as (->&_). discriminate.
    + destruct HT as (_&_&_&[(_&_&_&->)|(_&_&_&_&->)]); discriminate.
    + destruct HT as (->&_). discriminate.
  - pose proof (i_seq a HI) as H. unfold rec_state in H. rewrite H. discriminate.
Qed.

Lemma rec_quiet : forall a, Inv a -> aquiet rentry rseg a ->
  forall t, phase (ahist a) t <> Some PIdle ->
  phase (ahist a) t = Some (PPending OLock) /\ In t (rq (adat a)) /\
  exists o, (0 < depth (ahist a) o)%N /\ phase (ahist a) o = Some PIdle.
Proof.
  intros a HI HQ. 
  assert (Hall : forall t, athr a t = AOut \/ (exists o l, athr a t = AParked o l /\ amark a t = true)).
  { intros t. destruct (HQ t) as [H1 H2]. specialize (H1 false). simpl in H1, H2.
    destruct (athr a t) as [|o l|o l|o r]; try discriminate; auto.
    destruct (amark a t); [eauto|discriminate]. }
  intros t Hp. pose proof (i_thr a HI t) as HT.
  destruct (Hall t) as [E|(o&l&E&Em)]; rewrite E in HT; simpl in HT; [tauto|].
  rewrite Em in HT. destruct HT as (_&_&_&[(_&Hi&Ho&HP)|HT]); [|destruct HT; discriminate].
  split; [exact HP|]. split; [exact Hi|].
  pose proof (i_own a HI) as Hown. destruct (ro (adat a)) as [w|] eqn:Ew; [|destruct Hown as [Hq _]; rewrite Hq in Hi; contradiction].
  exists w. pose proof (i_thr a HI w) as HTw. assert (Eo : owns (adat a) w = true) by now apply owns_true.
  destruct (Hall w) as [E'|(o'&l'&E'&Em')]; rewrite E' in HTw; simpl in HTw.
  - unfold dd in HTw. rewrite Eo in HTw. destruct HTw as (Hpw&->&_). split; [lia|exact Hpw].
  - rewrite Em', Eo in HTw. destruct HTw as (_&_&_&[HT'|HT']); [|destruct HT'; discriminate]. 
    destruct HT' as (_&_&?&_); discriminate.
Qed.

Lemma rec_depth_exact : forall a t, Inv a -> phase (ahist a) t = Some PIdle ->
  forall n, (0 < n)%N -> (depth (ahist a) t = n <-> rec_state (ahist a) = Some (Some (t, n))).
Proof.
  intros a t HI Hp n Hn. pose proof (i_thr a HI t) as HT. rewrite (i_seq a HI).
  assert (E : depth (ahist a) t = dd (adat a) t).
  { unfold T in HT. destruct (athr a t) as [|o l|o l|o r]; try tauto.
    - destruct HT as (E&_); congruence.
    - destruct HT as (_&_&_&[(_&_&_&E)|(_&_&_&_&E)]); congruence.
    - destruct HT as (E&_); congruence. }
  rewrite E. unfold dd. destruct (owns (adat a) t) eqn:Eo.
  - apply owns_true in Eo. rewrite Eo. split; congruence.
  - apply owns_false in Eo. destruct (ro (adat a)); split; intros; try congruence; lia.
Qed.

Lemma rec_holder_not_parked : forall a t, Inv a -> (0 < depth (ahist a) t)%N ->
  ~ In t (rq (adat a)) /\ amark a t = false.
Proof.
  intros a t HI Hd. pose proof (i_thr a HI t) as HT. unfold T in HT.
  destruct (athr a t) as [|o l|o l|o r]; try tauto. destruct HT as (_&_&?&_). lia.
Qed.
