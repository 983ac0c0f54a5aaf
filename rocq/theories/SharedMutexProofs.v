(** Invariant of the co_shared_mutex model (atomic semantics) under the rules [no_reacquire] and [unmixed]. *)
From Coq Require Import List Arith Bool Lia.
From Verif Require Import Base LinSpec LinLemmas SharedMutexSpec SpinObj SpinObjProofs SharedMutexModel.
Import ListNotations.

Local Notation phase := (phase_of sop_eqb sres_eqb).
Local Notation A := (ast sdat sop sres saux sloc).
Definition ass := astep sentry sseg.
Definition asi := ainit sop sres saux sloc sd0.

Lemma sop_refl : forall o, sop_eqb o o = true. Proof. now intros []. Qed.
Lemma sres_refl : forall r, sres_eqb r r = true. Proof. now intros []. Qed.

Lemma mem_in : forall t l, mem t l = true <-> In t l.
Proof.
  intros t l. unfold mem. rewrite existsb_exists. split.
  - intros (x&Hx&E). apply Nat.eqb_eq in E. now subst.
  - intros H. exists t. split; auto. apply Nat.eqb_refl.
Qed.
Lemma mem_nin : forall t l, mem t l = false <-> ~ In t l.
Proof. intros t l. rewrite <- mem_in. destruct (mem t l); split; congruence. Qed.

Lemma without_in : forall t u l, In u (without t l) <-> In u l /\ u <> t.
Proof.
  intros t u l. unfold without. rewrite filter_In. rewrite negb_true_iff, Nat.eqb_neq. tauto.
Qed.
Lemma without_nodup : forall t l, NoDup l -> NoDup (without t l).
Proof. intros. now apply NoDup_filter. Qed.

(** The mode in which [t] owns the mutex. *)
Definition hx (d : sdat) (t : tid) : option bool :=
  if mem t (sow d) then match sty d with TUnique => Some true | TShared => Some false | TUnlocked => None end else None.

Definition rwof (d : sdat) : rw :=
  match sty d with
  | TUnlocked => Free
  | TUnique => match sow d with u :: _ => Writer u | [] => Free end
  | TShared => Readers (sow d)
  end.

Definition acq_loc (o : sop) (l : sloc) : Prop :=
  match l with
  | LW1 | LW2 => o = WLock
  | LS1 | LS2 => o = SLock
  | LWt => o = WTry
  | LSt => o = STry
  | _ => False
  end.

Definition T (d : sdat) (h : list sev) (t : tid) (x : ath sop sres sloc) (m : bool) : Prop :=
  match x with
  | AOut => phase h t = Some PIdle /\ hold h t = hx d t /\ m = false /\ ~ In t (map snd (sq d))
  | AReady o l =>
      phase h t = Some (PPending o) /\ m = false /\ ~ In t (map snd (sq d)) /\
      ((acq_loc o l /\ hold h t = None /\ hx d t = None) \/
       (o = WUnlock /\ l = LWu /\ hold h t = (match hx d t with Some true => None | x => x end) /\
        hold_at WUnlock h t = hx d t) \/
       (o = SUnlock /\ l = LSu /\ hold h t = (match hx d t with Some false => None | x => x end) /\
        hold_at SUnlock h t = hx d t))
  | AParked o l =>
      exists w : bool, o = (if w then WLock else SLock) /\ l = (if w then LW3 else LS3) /\ hold h t = None /\
      ((m = true /\ In (w, t) (sq d) /\ hx d t = None /\ phase h t = Some (PPending o)) \/
       (m = false /\ ~ In t (map snd (sq d)) /\ hx d t = Some w /\ phase h t = Some (PDone o SOk)))
  | ADone o r =>
      phase h t = Some (PDone o r) /\ m = false /\ ~ In t (map snd (sq d)) /\
      match o, r with
      | WLock, SOk | WTry, STrue => hx d t = Some true /\ hold h t = None
      | SLock, SOk | STry, STrue => hx d t = Some false /\ hold h t = None
      | WTry, SFalse | STry, SFalse => hx d t = None /\ hold h t = None
      | WUnlock, _ => hold h t = hx d t /\ r = (match hold_at WUnlock h t with Some true => SOk | _ => SThrow end)
      | SUnlock, _ => hold h t = hx d t /\ r = (match hold_at SUnlock h t with Some false => SOk | _ => SThrow end)
      | _, _ => False
      end
  end.

Record Inv (a : A) : Prop := mkInv {
  i_nodup : NoDup (map snd (sq (adat a)));
  i_now : NoDup (sow (adat a));
  i_ty : match sty (adat a) with
         | TUnlocked => sow (adat a) = [] /\ sq (adat a) = []
         | TUnique => exists u, sow (adat a) = [u]
         | TShared => sow (adat a) <> []
         end;
  i_seq : rw_state (ahist a) = Some (rwof (adat a));
  i_line : sline (ahist a) = Some (sq (adat a));
  i_un : rw_unlocks_ok (ahist a);
  i_thr : forall t, T (adat a) (ahist a) t (athr a t) (amark a t)
}.

Lemma inv_init : Inv asi.
Proof. constructor; simpl; auto; constructor; auto. Qed.

Lemma hold_other : forall e h u, ev_tid e <> u -> hold (e :: h) u = hold h u.
Proof.
  intros [t o|t o r|t o r|t x] h u H; simpl in *; auto.
  - destruct o; simpl; auto; now rewrite (proj2 (Nat.eqb_neq _ _) H).
  - destruct o, r; simpl; auto; now rewrite (proj2 (Nat.eqb_neq _ _) H).
Qed.
Lemma hold_at_other : forall o e h u, ev_tid e <> u -> hold_at o (e :: h) u = hold_at o h u.
Proof.
  intros o [t o'|t o' r|t o' r|t x] h u H; simpl in *; auto. now rewrite (proj2 (Nat.eqb_neq _ _) H).
Qed.

(** Frame for coroutines that do not take part. *)
Lemma T_frame : forall d h d' h' u x m m',
  T d h u x m -> phase h' u = phase h u -> hold h' u = hold h u ->
  (forall o, hold_at o h' u = hold_at o h u) -> hx d' u = hx d u ->
  (forall w, In (w, u) (sq d') <-> In (w, u) (sq d)) -> m' = m -> T d' h' u x m'.
Proof.
  intros d h d' h' u x m m' HT Hp Hh Hha Ho Hq ->.
  assert (Hq' : In u (map snd (sq d')) <-> In u (map snd (sq d))).
  { rewrite !in_map_iff. split; intros ((w&y)&E&Hi); simpl in E; subst y; exists (w, u); (split; [reflexivity|]);
      now apply Hq. }
  unfold T in *. rewrite Hp, Hh, Ho, ?Hha.
  destruct x as [|o l|o l|o r].
  - rewrite Hq'. exact HT.
  - rewrite Hq'. exact HT.
  - destruct HT as (w&H1&H2&H3&H4). exists w. rewrite Hq, Hq'. auto.
  - rewrite Hq'. destruct o, r; exact HT.
Qed.

Lemma unmixed_tail : forall e h, unmixed (e :: h) -> unmixed h.
Proof. intros [t o|t o r|t o r|t x] h H; simpl in H; try tauto. destruct r; tauto. Qed.
Lemma unmixed_app : forall es h, unmixed (es ++ h) -> unmixed h.
Proof. induction es; intros h H; auto. apply IHes. eapply unmixed_tail. exact H. Qed.
Lemma unmixed_log_lin : forall lin h, unmixed (log_lin lin h) -> unmixed h.
Proof.
  induction lin as [|x lin IH]; intros h Hm; [exact Hm|]. apply IH in Hm. eapply unmixed_tail. exact Hm.
Qed.
Lemma nra_tail : forall e h, no_reacquire (e :: h) -> no_reacquire h.
Proof. intros [t []|t o r|t o r|t x] h H; simpl in H; tauto. Qed.
Lemma nra_app : forall es h, no_reacquire (es ++ h) -> no_reacquire h.
Proof. induction es; intros h H; auto. apply IHes. eapply nra_tail. exact H. Qed.

Ltac cmp u t := destruct (Nat.eq_dec u t) as [->|?];
  [rewrite ?upd_same in * | rewrite ?upd_other in * by assumption].
Ltac oth := first [ apply phase_other | apply hold_other | intro; apply hold_at_other ]; simpl; congruence.

Lemma same_unmark : forall (m : tid -> bool) u, unmark [] m u = m u. Proof. reflexivity. Qed.

Lemma seq_lin : forall t o r h, rw_state (ELin t o r :: h) = match rw_state h with Some s => rw_spec s t o r | None => None end.
Proof. reflexivity. Qed.

(** A step of [t] that leaves the data alone. *)
Lemma inv_same : forall a t x m es,
  Inv a -> (forall e, In e es -> ev_tid e = t) ->
  (forall o r, In (ELin t o r) es -> rw_spec (rwof (adat a)) t o r = Some (rwof (adat a)) /\ (r = SFalse \/ r = SThrow)) ->
  (forall p, ~ In (EAux t p) es) -> rw_unlocks_ok (es ++ ahist a) ->
  T (adat a) (es ++ ahist a) t x (m t) -> (forall u, u <> t -> m u = amark a u) ->
  Inv (mkA (adat a) (upd (athr a) t x) m (es ++ ahist a)).
Proof.
  intros a t x m es HI Ht Hl Hx Hun HT Hm.
  constructor; cbn [adat athr amark ahist].
  - apply (i_nodup a HI).
  - apply (i_now a HI).
  - apply (i_ty a HI).
  - clear HT Hun. induction es as [|e es IH]; [apply (i_seq a HI)|]. simpl app.
    assert (He : ev_tid e = t) by (apply Ht; now left).
    specialize (IH (fun e H => Ht e (or_intror H)) (fun o r H => Hl o r (or_intror H)) (fun p H => Hx p (or_intror H))).
    destruct e as [u o|u o r|u o r|u p]; simpl in He; subst u; auto.
    rewrite seq_lin, IH. apply (Hl o r). now left.
  - clear HT Hun. induction es as [|e es IH]; [apply (i_line a HI)|]. simpl app.
    assert (He : ev_tid e = t) by (apply Ht; now left).
    specialize (IH (fun e H => Ht e (or_intror H)) (fun o r H => Hl o r (or_intror H)) (fun p H => Hx p (or_intror H))).
    destruct e as [u o|u o r|u o r|u p]; simpl in He; subst u; cbn [sline]; auto.
    + destruct (Hl o r (or_introl eq_refl)) as [_ [-> | ->]]; destruct o; auto.
    + exfalso. apply (Hx p). now left.
  - exact Hun.
  - intros u. cmp u t; [exact HT|].
    assert (Hall : phase (es ++ ahist a) u = phase (ahist a) u /\ hold (es ++ ahist a) u = hold (ahist a) u /\
                   forall o, hold_at o (es ++ ahist a) u = hold_at o (ahist a) u).
    { clear HT Hun Hl Hx. induction es as [|e es IH]; [auto|]. simpl app.
      destruct (IH (fun e H => Ht e (or_intror H))) as (E1&E2&E3).
      assert (ev_tid e <> u) by (rewrite (Ht e (or_introl eq_refl)); congruence).
      rewrite phase_other, hold_other by assumption. repeat split; auto. intros o. now rewrite hold_at_other. }
    destruct Hall as (E1&E2&E3).
    eapply T_frame; [apply (i_thr a HI)|exact E1|exact E2|exact E3|reflexivity|reflexivity|auto].
Qed.

Lemma hx_none : forall a t, Inv a -> hx (adat a) t = None -> ~ In t (sow (adat a)).
Proof.
  intros a t HI H. unfold hx in H. destruct (mem t (sow (adat a))) eqn:E; [|now apply mem_nin].
  pose proof (i_ty a HI) as Hty. destruct (sty (adat a)); try discriminate. destruct Hty as [Hty _]. rewrite Hty in E. discriminate.
Qed.

(** [t] takes the free mutex in exclusive mode. *)
Lemma inv_wtake : forall a t o r,
  Inv a -> (o = WLock /\ r = SOk \/ o = WTry /\ r = STrue) -> sow (adat a) = [] ->
  phase (ahist a) t = Some (PPending o) -> amark a t = false -> hold (ahist a) t = None ->
  Inv (mkA (mkSd TUnique (insert t (sow (adat a))) (sq (adat a))) (upd (athr a) t (ADone o r))
           (unmark [] (amark a)) (ELin t o r :: ahist a)).
Proof.
  intros a t o r HI Hor Ho Hp Hm Hh. pose proof (i_ty a HI) as Hty.
  assert (Hf : sty (adat a) = TUnlocked /\ sq (adat a) = []).
  { destruct (sty (adat a)); [tauto|destruct Hty; congruence|congruence]. }
  destruct Hf as [Hu Hq]. unfold insert. rewrite Ho. cbn [mem existsb]. rewrite Hq.
  constructor; cbn [adat athr amark ahist sty sow sq].
  - constructor.
  - repeat constructor; easy.
  - eauto.
  - rewrite seq_lin, (i_seq a HI). unfold rwof. rewrite Hu. simpl. now destruct Hor as [[-> ->]|[-> ->]].
  - destruct Hor as [[-> ->]|[-> ->]]; cbn [sline]; rewrite (i_line a HI), Hq; reflexivity.
  - apply (i_un a HI).
  - intros u. cmp u t.
    + unfold T. rewrite (phase_lin _ _ sop_refl _ _ _ Hp). rewrite same_unmark. cbn [sq map].
      repeat split; auto.
      assert (E : hx (mkSd TUnique [t] []) t = Some true) by (unfold hx; simpl; now rewrite Nat.eqb_refl).
      destruct Hor as [[-> ->]|[-> ->]]; split; auto.
    + eapply T_frame; [apply (i_thr a HI)|oth|oth|oth| | |reflexivity].
      * unfold hx. rewrite Ho. simpl. rewrite (proj2 (Nat.eqb_neq u t)) by congruence. reflexivity.
      * intros w. rewrite Hq. reflexivity.
Qed.

(** [t] joins in shared mode without having parked. *)
Lemma inv_stake : forall a t o r,
  Inv a -> (o = SLock /\ r = SOk \/ o = STry /\ r = STrue) -> is_sh (adat a) = true ->
  phase (ahist a) t = Some (PPending o) -> amark a t = false -> hold (ahist a) t = None ->
  hx (adat a) t = None -> ~ In t (map snd (sq (adat a))) ->
  Inv (mkA (mkSd TShared (insert t (sow (adat a))) (sq (adat a))) (upd (athr a) t (ADone o r))
           (unmark [] (amark a)) (ELin t o r :: ahist a)).
Proof.
  intros a t o r HI Hor Hsh Hp Hm Hh Hx Hnq. pose proof (i_ty a HI) as Hty.
  assert (Hni := hx_none a t HI Hx). assert (Hmf := proj2 (mem_nin _ _) Hni).
  unfold insert. rewrite Hmf.
  constructor; cbn [adat athr amark ahist sty sow sq].
  - apply (i_nodup a HI).
  - constructor; [exact Hni|apply (i_now a HI)].
  - discriminate.
  - rewrite seq_lin, (i_seq a HI). unfold rwof. cbn [sty sow]. unfold is_sh in Hsh.
    destruct (sty (adat a)); [|discriminate|].
    + destruct Hty as [-> _]. now destruct Hor as [[-> ->]|[-> ->]].
    + destruct Hor as [[-> ->]|[-> ->]]; cbn [rw_spec]; now rewrite Hmf.
  - assert (Hil : in_line t (sq (adat a)) = false) by now apply mem_nin.
    destruct Hor as [[-> ->]|[-> ->]]; cbn [sline]; rewrite (i_line a HI), Hil; reflexivity.
  - apply (i_un a HI).
  - intros u. cmp u t.
    + unfold T. rewrite (phase_lin _ _ sop_refl _ _ _ Hp). rewrite same_unmark. cbn [sq].
      repeat split; auto.
      assert (E : hx (mkSd TShared (t :: sow (adat a)) (sq (adat a))) t = Some false)
        by (unfold hx; simpl; now rewrite Nat.eqb_refl).
      destruct Hor as [[-> ->]|[-> ->]]; split; auto.
    + eapply T_frame; [apply (i_thr a HI)|oth|oth|oth| |reflexivity|reflexivity].
      unfold hx. simpl. rewrite (proj2 (Nat.eqb_neq u t)) by congruence. simpl.
      change (existsb (Nat.eqb u) (sow (adat a))) with (mem u (sow (adat a))).
      unfold is_sh in Hsh. destruct (mem u (sow (adat a))) eqn:Em; auto.
      destruct (sty (adat a)); try discriminate; auto.
      destruct Hty as [E _]. rewrite E in Em. discriminate.
Qed.

Lemma inv_park : forall a t (w : bool),
  Inv a -> phase (ahist a) t = Some (PPending (if w then WLock else SLock)) -> amark a t = false ->
  ~ In t (map snd (sq (adat a))) -> hold (ahist a) t = None -> hx (adat a) t = None ->
  sow (adat a) <> [] ->
  Inv (mkA (mkSd (sty (adat a)) (sow (adat a)) (sq (adat a) ++ [(w, t)]))
           (upd (athr a) t (AParked (if w then WLock else SLock) (if w then LW3 else LS3)))
           (upd (amark a) t true) (EAux t (SParks w) :: ahist a)).
Proof.
  intros a t w HI Hp Hm Hq Hh Hx Hn. pose proof (i_ty a HI) as Hty.
  constructor; cbn [adat athr amark ahist sty sow sq].
  - rewrite map_app. simpl. pose proof (i_nodup a HI) as H.
    clear - H Hq. induction (map snd (sq (adat a))) as [|v l IH]; simpl; [constructor; [easy|constructor]|].
    inversion H; subst. constructor; [|apply IH; auto; intro; apply Hq; now right].
    rewrite in_app_iff. simpl. intros [?|[->|[]]]; [contradiction|apply Hq; now left].
  - apply (i_now a HI).
  - destruct (sty (adat a)); auto. destruct Hty; contradiction.
  - apply (i_seq a HI).
  - cbn [sline]. now rewrite (i_line a HI).
  - apply (i_un a HI).
  - intros u. cmp u t.
    + unfold T. exists w. cbn [sq].
      rewrite phase_aux. change (hx (mkSd (sty (adat a)) (sow (adat a)) (sq (adat a) ++ [(w, t)])) t) with (hx (adat a) t).
      change (hold (EAux t (SParks w) :: ahist a) t) with (hold (ahist a) t).
      rewrite Hh, Hp, Hx. repeat split; auto. left. repeat split; auto.
      rewrite in_app_iff. right. now left.
    + eapply T_frame; [apply (i_thr a HI)|apply phase_aux|reflexivity|reflexivity|reflexivity| |reflexivity].
      intros w'. cbn [sq]. rewrite in_app_iff. simpl. intuition congruence.
Qed.

(** remove_if on a queue of readers only. *)
Lemma remove_loop_all : forall A (p : A -> bool) l, (forall x, In x l -> p x = true) ->
  forall fuel first result, remove_loop p l first result fuel = (l, result).
Proof.
  intros B p l H fuel. induction fuel as [|f IH]; intros first result; simpl; [reflexivity|].
  destruct (nth_error l first) eqn:E; [|reflexivity]. apply nth_error_In in E. rewrite (H _ E). apply IH.
Qed.
Lemma remove_if_all : forall A (p : A -> bool) x l, (forall y, In y (x :: l) -> p y = true) -> remove_if p (x :: l) = (x :: l, 0).
Proof.
  intros B p x l H. unfold remove_if. simpl find_if. rewrite (H x (or_introl eq_refl)).
  cbn [length Nat.eqb]. now apply remove_loop_all.
Qed.

(** All parked readers are granted, in order. *)
Definition glin (gs : list (bool * tid)) := map (fun x : bool * tid => (snd x, if fst x then WLock else SLock, SOk)) gs.

Lemma grant_readers : forall gs h l,
  (forall x, In x gs -> fst x = false) -> NoDup (map snd gs) ->
  (forall x, In x gs -> ~ In (snd x) l) ->
  rw_state h = Some (readers l) -> sline h = Some gs ->
  (forall x, In x gs -> phase h (snd x) = Some (PPending SLock)) ->
  let h' := log_lin (glin gs) h in
  rw_state h' = Some (readers (fold_left (fun ow (x : bool * tid) => insert (snd x) ow) gs l)) /\
  sline h' = Some [] /\
  (rw_unlocks_ok h -> rw_unlocks_ok h') /\
  (forall u, hold h' u = hold h u /\ forall o, hold_at o h' u = hold_at o h u) /\
  (forall x, In x gs -> phase h' (snd x) = Some (PDone SLock SOk)) /\
  (forall u, ~ In u (map snd gs) -> phase h' u = phase h u).
Proof.
  induction gs as [|(b, v) gs IH]; intros h l Hb Hnd Hl Hs Hq Hp; cbv zeta.
  - simpl. repeat split; auto; intros; contradiction.
  - assert (b = false) by (apply (Hb (b, v)); now left). subst b.
    change (log_lin (glin ((false, v) :: gs)) h) with (log_lin (glin gs) (ELin v SLock SOk :: h)).
    cbn [fold_left fst snd]. inversion Hnd as [|? ? Hv Hnd']; subst.
    assert (Hvl : mem v l = false) by (apply mem_nin; apply (Hl (false, v)); now left).
    specialize (IH (ELin v SLock SOk :: h) (v :: l)). cbv zeta in IH.
    assert (Hins : insert v l = v :: l) by (unfold insert; now rewrite Hvl).
    rewrite Hins. 
    destruct IH as (I1&I2&I3&I4&I5&I6).
    + intros x Hx. apply Hb. now right.
    + exact Hnd'.
    + intros x Hx [E|Hi]; [|now apply (Hl x (or_intror Hx))]. subst v. apply Hv. now apply in_map.
    + rewrite seq_lin, Hs. simpl readers. destruct l; simpl; [reflexivity|]. simpl in Hvl. rewrite Hvl. reflexivity.
    + cbn [sline]. rewrite Hq. unfold in_line. simpl. rewrite Nat.eqb_refl. reflexivity.
    + intros x Hx. rewrite phase_other; [apply Hp; now right|]. simpl. intros ->. apply Hv. now apply in_map.
    + split; [exact I1|]. split; [exact I2|]. split; [intros Hun; apply I3; exact Hun|].
      split; [intros u; destruct (I4 u) as [E1 E2]; split; [rewrite E1; reflexivity|intros o; rewrite E2; reflexivity]|].
      split.
      * intros x [<-|Hx]; [|now apply I5]. simpl. change (phase (log_lin (glin gs) (ELin v SLock SOk :: h)) v = Some (PDone SLock SOk)).
        rewrite I6 by exact Hv. apply phase_lin; [exact sop_refl|]. apply (Hp (false, v)). now left.
      * intros u Hu. simpl in Hu. change (phase (log_lin (glin gs) (ELin v SLock SOk :: h)) u = phase h u).
        rewrite I6 by tauto. apply phase_other. simpl. tauto.
Qed.

Lemma fold_insert_in : forall gs l u, In u (fold_left (fun ow (x : bool * tid) => insert (snd x) ow) gs l) <-> In u l \/ In u (map snd gs).
Proof.
  induction gs as [|(b, v) gs IH]; intros l u; simpl; [tauto|]. rewrite IH. unfold insert.
  destruct (mem v l) eqn:E; simpl; [apply mem_in in E|]; intuition (subst; auto).
Qed.
Lemma fold_insert_nodup : forall gs l, NoDup l -> NoDup (fold_left (fun ow (x : bool * tid) => insert (snd x) ow) gs l).
Proof.
  induction gs as [|(b, v) gs IH]; intros l H; simpl; [exact H|]. apply IH. unfold insert.
  destruct (mem v l) eqn:E; [exact H|]. constructor; [now apply mem_nin|exact H].
Qed.

Lemma hold_lin : forall t o r h u, hold (ELin t o r :: h) u = hold h u. Proof. reflexivity. Qed.
Lemma hold_at_lin : forall t o r h u o', hold_at o' (ELin t o r :: h) u = hold_at o' h u. Proof. reflexivity. Qed.

(** Parked in line = waiting for that mode. *)
Lemma in_line_thr : forall a w u, Inv a -> In (w, u) (sq (adat a)) ->
  athr a u = AParked (if w then WLock else SLock) (if w then LW3 else LS3) /\
  hold (ahist a) u = None /\ hx (adat a) u = None /\ phase (ahist a) u = Some (PPending (if w then WLock else SLock)).
Proof.
  intros a w u HI Hi. pose proof (i_thr a HI u) as HT.
  assert (Hi' : In u (map snd (sq (adat a)))) by (apply (in_map snd) in Hi; exact Hi).
  unfold T in HT. destruct (athr a u) as [|o l|o l|o r].
  - tauto. - tauto.
  - destruct HT as (w'&->&->&Hh&[(_&Hw&Hx&Hp)|(_&Hn&_)]); [|contradiction].
    assert (w' = w); [|subst; auto].
    pose proof (i_nodup a HI) as Hnd. clear - Hw Hi Hnd. induction (sq (adat a)) as [|(b, v) q IH]; [contradiction|].
    simpl in *. inversion Hnd; subst.
    destruct Hw as [E|Hw], Hi as [E'|Hi]; [congruence| | |auto].
    + injection E as -> ->. exfalso. apply H1. apply (in_map snd) in Hi. exact Hi.
    + injection E' as -> ->. exfalso. apply H1. apply (in_map snd) in Hw. exact Hw.
  - tauto.
Qed.

Definition rel_mode (o : sop) : bool := match o with WUnlock => true | _ => false end.
Definition rel_loc (o : sop) : sloc := match o with WUnlock => LWu | _ => LSu end.

Lemma existsb_map_snd : forall u gs, existsb (Nat.eqb u) (map (@snd bool tid) gs) = mem u (map snd gs).
Proof. reflexivity. Qed.

(** A release by an owner. *)
Lemma inv_rel : forall a t o, Inv a -> (o = WUnlock \/ o = SUnlock) -> athr a t = AReady o (rel_loc o) ->
  hx (adat a) t = Some (rel_mode o) ->
  forall a', a' = match srel t o (adat a) with
       | SYield d l' => mkA d (upd (athr a) t (AReady o l')) (amark a) (ahist a)
       | SPark d xs l' => mkA d (upd (athr a) t (AParked o l')) (upd (amark a) t true) (log_xs t xs (ahist a))
       | SFin d lin gr r => mkA d (upd (athr a) t (ADone o r)) (unmark gr (amark a)) (log_lin lin (ahist a))
       end -> unmixed (ahist a') -> Inv a'.
Proof.
  intros a t o HI Ho Ht Hx a' -> Hum. pose proof (i_thr a HI t) as HT. rewrite Ht in HT. simpl in HT.
  destruct HT as (H1&H2&H3&HT). pose proof (i_ty a HI) as Hty. pose proof (i_now a HI) as Hnow.
  assert (Hsty : sty (adat a) = if rel_mode o then TUnique else TShared).
  { unfold hx in Hx. destruct (mem t (sow (adat a))); [|discriminate].
    destruct (sty (adat a)), Ho; subst; simpl in Hx; try discriminate; reflexivity. }
  assert (Hmem : In t (sow (adat a))).
  { apply mem_in. unfold hx in Hx. destruct (mem t (sow (adat a))); [reflexivity|discriminate]. }
  assert (Hho : hold (ahist a) t = None /\ hold_at o (ahist a) t = Some (rel_mode o)).
  { rewrite Hx in HT. destruct Ho; subst; simpl in *;
    destruct HT as [(F&_)|[(E&_&Hh&Ha)|(E&_&Hh&Ha)]]; try contradiction; try discriminate; split; congruence. }
  destruct Hho as [Hh Hha].
  assert (Hres : match o, SOk with
      | WUnlock, _ => SOk = (match hold_at WUnlock (ahist a) t with Some true => SOk | _ => SThrow end)
      | SUnlock, _ => SOk = (match hold_at SUnlock (ahist a) t with Some false => SOk | _ => SThrow end)
      | _, _ => False end).
  { destruct Ho; subst; rewrite Hha; reflexivity. }
  (* what the release does to the sequential state *)
  assert (Hst1 : rw_state (ELin t o SOk :: ahist a) = Some (readers (erase t (sow (adat a)))) \/
                 (rw_state (ELin t o SOk :: ahist a) = Some Free /\ erase t (sow (adat a)) = [])).
  { rewrite seq_lin, (i_seq a HI). unfold rwof. rewrite Hsty. destruct Ho; subst; simpl.
    - right. rewrite Hsty in Hty. simpl in Hty. destruct Hty as [u Eu]. rewrite Eu in *.
      destruct Hmem as [->|[]]. rewrite Nat.eqb_refl. split; [reflexivity|]. unfold erase, without. simpl. now rewrite Nat.eqb_refl.
    - left. apply mem_in in Hmem. rewrite Hmem. reflexivity. }
  assert (Hst : rw_state (ELin t o SOk :: ahist a) = Some (readers (erase t (sow (adat a))))).
  { destruct Hst1 as [E|[E ->]]; exact E. }
  clear Hst1.
  assert (Hln : sline (ELin t o SOk :: ahist a) = Some (sq (adat a))).
  { destruct Ho; subst; apply (i_line a HI). }
  assert (Hpt : phase (ELin t o SOk :: ahist a) t = Some (PDone o SOk)) by (apply phase_lin; [exact sop_refl|exact H1]).
  assert (Hunl : rw_unlocks_ok (ELin t o SOk :: ahist a)) by apply (i_un a HI).
  unfold srel, wake_up_waiters in *. cbn [sow sq sty] in *.
  destruct (erase t (sow (adat a))) as [|v ow'] eqn:Eer.
  - (* becomes free *)
    assert (Honly : forall u, In u (sow (adat a)) -> u = t).
    { intros u Hu. destruct (Nat.eq_dec u t) as [->|Hne]; [reflexivity|].
      assert (Hw : In u (erase t (sow (adat a)))) by (apply without_in; auto). rewrite Eer in Hw. contradiction. }
    assert (Hxo : forall u, u <> t -> hx (adat a) u = None).
    { intros u Hu. unfold hx. rewrite (proj2 (mem_nin u _)); [reflexivity|]. intros Hi. now apply Hu, Honly. }
    destruct (sq (adat a)) as [|(w, v) q'] eqn:Eq.
    + (* nobody parked *)
      cbn [log_lin map fold_left fst snd] in *.
      constructor; cbn [adat athr amark ahist sty sow sq].
      * constructor. * constructor. * auto. * exact Hst. * exact Hln. * exact Hunl.
      * intros u. cmp u t.
        -- unfold T. rewrite Hpt. rewrite same_unmark. cbn [sq]. repeat split; auto.
           rewrite hold_lin, Hh. destruct Ho; subst o; (split; [reflexivity|exact Hres]).
        -- eapply T_frame; [apply (i_thr a HI)|oth|oth|oth| | |reflexivity].
           ++ rewrite Hxo by assumption. reflexivity.
           ++ intros w. rewrite Eq. reflexivity.
    + destruct w.
      * (* a writer is first *)
        assert (Hiv : In (true, v) (sq (adat a))) by (rewrite Eq; now left).
        destruct (in_line_thr a true v HI Hiv) as (Ev&Hhv&Hxv&Hpv). simpl in Ev, Hpv.
        assert (Hvt : v <> t) by (intros ->; rewrite Ht in Ev; discriminate).
        pose proof (i_nodup a HI) as Hnd. rewrite Eq in Hnd. simpl in Hnd. inversion Hnd as [|? ? Hnv Hnd']; subst.
        cbn [log_lin map fold_left fst snd] in *.
        constructor; cbn [adat athr amark ahist sty sow sq insert mem existsb].
        -- exact Hnd'.
        -- repeat constructor; easy.
        -- eauto.
        -- rewrite seq_lin, Hst. reflexivity.
        -- cbn [sline]. cbn [sline] in Hln. rewrite Hln. simpl. now rewrite Nat.eqb_refl.
        -- exact Hunl.
        -- intros u. cmp u t.
           ++ unfold T. rewrite phase_other by (simpl; congruence). rewrite Hpt. cbn [sq]. repeat split; auto.
              ** unfold unmark. simpl. rewrite (proj2 (Nat.eqb_neq t v)) by congruence. exact H2.
              ** simpl in H3. tauto.
              ** rewrite !hold_lin, Hh. unfold hx. simpl. rewrite (proj2 (Nat.eqb_neq t v)) by congruence. simpl.
                 destruct Ho; subst o; (split; [reflexivity|exact Hres]).
           ++ destruct (Nat.eq_dec u v) as [->|Huv].
              ** rewrite Ev. exists true. repeat split; auto. right. cbn [sq]. repeat split; auto.
                 --- unfold unmark. simpl. now rewrite Nat.eqb_refl.
                 --- unfold hx. simpl. now rewrite Nat.eqb_refl.
                 --- apply phase_lin; [exact sop_refl|]. rewrite phase_other by (simpl; congruence). exact Hpv.
              ** eapply T_frame; [apply (i_thr a HI)| | | | | |].
                 --- rewrite !phase_other by (simpl; congruence). reflexivity.
                 --- reflexivity.
                 --- reflexivity.
                 --- rewrite Hxo by assumption. unfold hx. simpl. now rewrite (proj2 (Nat.eqb_neq u v)) by congruence.
                 --- intros w. rewrite Eq. simpl. intuition congruence.
                 --- unfold unmark. simpl. now rewrite (proj2 (Nat.eqb_neq u v)) by congruence.
      * (* a reader is first: by [unmixed] all are readers *)
        assert (Hall : forall x, In x ((false, v) :: q') -> fst x = false).
        { destruct (remove_if (fun x : bool * tid => negb (fst x)) ((false, v) :: q')) as (l', it) eqn:Er.
          cbn [log_lin map fold_left fst snd ahist] in Hum.
          assert (Hu2 : unmixed (ELin t o SOk :: ahist a))
            by (apply (unmixed_log_lin (glin (skipn it l'))); exact Hum).
          cbn [unmixed] in Hu2. destruct Hu2 as [Hu2 _]. specialize (Hu2 Ho Hst _ (i_line a HI)).
          rewrite Eq in Hu2. exact Hu2. }
        rewrite (remove_if_all _ (fun x : bool * tid => negb (fst x)) (false, v) q') in *
          by (intros y Hy; now rewrite (Hall y Hy)).
        cbn [skipn firstn] in *.
        set (gs := (false, v) :: q') in *.
        assert (Hg : forall x, In x gs -> In (false, snd x) (sq (adat a))).
        { intros x Hix. rewrite Eq. pose proof (Hall x Hix) as Hf. destruct x as [b y]. simpl in *. now subst b. }
        assert (Hpg : forall x, In x gs -> phase (ELin t o SOk :: ahist a) (snd x) = Some (PPending SLock)).
        { intros x Hix. destruct (in_line_thr a false (snd x) HI (Hg x Hix)) as (Ex&_&_&Px). rewrite phase_other; [exact Px|].
          simpl. intros E. rewrite <- E, Ht in Ex. discriminate. }
        pose proof (i_nodup a HI) as Hnd. rewrite Eq in Hnd.
        destruct (grant_readers gs (ELin t o SOk :: ahist a) [] Hall Hnd (fun x _ => in_nil (a := snd x)) Hst Hln Hpg)
          as (G1&G2&G3&G4&G5&G6).
        change (Inv (mkA (mkSd TShared (fold_left (fun ow (x : bool * tid) => insert (snd x) ow) gs []) [])
                  (upd (athr a) t (ADone o SOk)) (unmark (map snd gs) (amark a))
                  (log_lin (glin gs) (ELin t o SOk :: ahist a)))).
        set (ow := fold_left (fun ow (x : bool * tid) => insert (snd x) ow) gs []) in *.
        assert (Hne : ow <> []).
        { assert (Hv : In v ow) by (apply fold_insert_in; right; now left). intros E. now rewrite E in Hv. }
        constructor; cbn [adat athr amark ahist sty sow sq].
        -- constructor.
        -- apply fold_insert_nodup. constructor.
        -- exact Hne.
        -- rewrite G1. unfold rwof. cbn [sty sow]. destruct ow; [congruence|reflexivity].
        -- exact G2.
        -- now apply G3.
        -- intros u. destruct (G4 u) as [K1 K2]. cmp u t.
           ++ assert (Hnt : ~ In t (map snd gs)) by exact H3.
              assert (Hnow' : mem t ow = false).
              { apply mem_nin. unfold ow. rewrite fold_insert_in. intros [[]|Hi]. now apply Hnt. }
              unfold T. rewrite G6 by exact Hnt. rewrite Hpt. cbn [sq]. repeat split; auto.
              ** unfold unmark. rewrite existsb_map_snd. now rewrite (proj2 (mem_nin _ _) Hnt).
              ** rewrite K1, hold_lin, Hh. unfold hx. cbn [sow]. rewrite Hnow'.
                 destruct Ho; subst o; rewrite K2; (split; [reflexivity|exact Hres]).
           ++ destruct (in_dec Nat.eq_dec u (map snd gs)) as [Hi|Hn].
              ** pose proof Hi as Hi2. apply in_map_iff in Hi2. destruct Hi2 as (x&E&Hix). subst u.
                 destruct (in_line_thr a false (snd x) HI (Hg x Hix)) as (Ex&Hhx&_&_). rewrite Ex.
                 exists false. repeat split; auto. rewrite K1. exact Hhx.
                 right. cbn [sq]. repeat split; auto.
                 --- unfold unmark. rewrite existsb_map_snd. now rewrite (proj2 (mem_in _ _) Hi).
                 --- unfold hx. cbn [sow sty]. rewrite (proj2 (mem_in (snd x) ow)); [reflexivity|].
                     apply fold_insert_in. now right.
              ** eapply T_frame; [apply (i_thr a HI)| | | | | |].
                 --- rewrite G6 by exact Hn. apply phase_other. simpl. congruence.
                 --- rewrite K1. reflexivity.
                 --- intros o'. rewrite K2. reflexivity.
                 --- rewrite Hxo by assumption. unfold hx. cbn [sow]. rewrite (proj2 (mem_nin u ow)); [reflexivity|].
                     unfold ow. rewrite fold_insert_in. intros [[]|Hi]. now apply Hn.
                 --- intros w. rewrite Eq. cbn [sq]. split; [contradiction|]. intros Hw. exfalso. apply Hn.
                     apply (in_map snd) in Hw. exact Hw.
                 --- unfold unmark. rewrite existsb_map_snd. now rewrite (proj2 (mem_nin _ _) Hn).
  - (* other readers remain *)
    assert (Ersh : sty (adat a) = TShared).
    { destruct Ho; subst; [|exact Hsty]. exfalso. simpl in Hsty. rewrite Hsty in Hty. destruct Hty as [u Eu]. rewrite Eu in *.
      destruct Hmem as [->|[]]. unfold erase, without in Eer. simpl in Eer. rewrite Nat.eqb_refl in Eer. discriminate. }
    cbn [log_lin map fold_left fst snd] in *.
    constructor; cbn [adat athr amark ahist sty sow sq].
    + apply (i_nodup a HI).
    + rewrite <- Eer. now apply without_nodup.
    + rewrite Ersh. discriminate.
    + rewrite Hst. unfold rwof. cbn [sty sow]. now rewrite Ersh.
    + exact Hln.
    + exact Hunl.
    + assert (Hmm : forall u, mem u (v :: ow') = mem u (sow (adat a)) && negb (Nat.eqb u t)).
      { intros u. rewrite <- Eer. destruct (mem u (erase t (sow (adat a)))) eqn:E.
        - apply mem_in in E. apply without_in in E. destruct E as [E1 E2].
          rewrite (proj2 (mem_in _ _) E1), (proj2 (Nat.eqb_neq _ _) E2). reflexivity.
        - apply mem_nin in E. unfold erase in E. rewrite without_in in E. destruct (mem u (sow (adat a))) eqn:Em; [|reflexivity].
          apply mem_in in Em. destruct (Nat.eqb_spec u t); [reflexivity|tauto]. }
      intros u. cmp u t.
      * unfold T. rewrite Hpt. rewrite same_unmark. cbn [sq]. repeat split; auto.
        rewrite hold_lin, Hh. unfold hx. cbn [sow]. rewrite Hmm, Nat.eqb_refl, andb_false_r.
        destruct Ho; subst o; (split; [reflexivity|exact Hres]).
      * eapply T_frame; [apply (i_thr a HI)|oth|oth|oth| |reflexivity|reflexivity].
        unfold hx. cbn [sow sty]. rewrite Hmm, (proj2 (Nat.eqb_neq u t)) by assumption. now rewrite andb_true_r.
Qed.

Lemma inv_spark : forall a t (w : bool) o l, Inv a -> o = (if w then WLock else SLock) ->
  phase (ahist a) t = Some (PPending o) -> amark a t = false ->
  ~ In t (map snd (sq (adat a))) -> hold (ahist a) t = None -> hx (adat a) t = None -> sow (adat a) <> [] ->
  l = (if w then LW3 else LS3) ->
  Inv match spark w t (adat a) with
       | SYield d l' => mkA d (upd (athr a) t (AReady o l')) (amark a) (ahist a)
       | SPark d xs l' => mkA d (upd (athr a) t (AParked o l')) (upd (amark a) t true) (log_xs t xs (ahist a))
       | SFin d lin gr r => mkA d (upd (athr a) t (ADone o r)) (unmark gr (amark a)) (log_lin lin (ahist a))
       end.
Proof.
  intros a t w o l HI -> Hp Hm Hq Hh Hx Hs ->. unfold spark.
  rewrite (proj2 (mem_nin _ _) (hx_none a t HI Hx)). now apply inv_park.
Qed.

Lemma inv_yield : forall a t o l l', Inv a -> athr a t = AReady o l -> acq_loc o l -> acq_loc o l' ->
  Inv (mkA (adat a) (upd (athr a) t (AReady o l')) (amark a) (ahist a)).
Proof.
  intros a t o l l' HI Ht Ha Ha'. pose proof (i_thr a HI t) as HT. rewrite Ht in HT. simpl in HT.
  change (ahist a) with ([] ++ ahist a) at 1. apply inv_same; simpl; auto; try tauto. apply (i_un a HI).
  destruct HT as (H1&H2&H3&[(_&H4)|[(->&->&_)|(->&->&_)]]); try contradiction. tauto.
Qed.

(** A call that fails (try returning false, unlock throwing). *)
Lemma inv_fail : forall a t o l r, Inv a -> athr a t = AReady o l -> (r = SFalse \/ r = SThrow) ->
  rw_spec (rwof (adat a)) t o r = Some (rwof (adat a)) ->
  T (adat a) (ELin t o r :: ahist a) t (ADone o r) (amark a t) ->
  Inv (mkA (adat a) (upd (athr a) t (ADone o r)) (unmark [] (amark a)) (ELin t o r :: ahist a)).
Proof.
  intros a t o l r HI Ht Hr Hsp HT. change (ELin t o r :: ahist a) with ([ELin t o r] ++ ahist a). apply inv_same; auto.
  - intros e [<-|[]]; reflexivity.
  - intros o' r' [Ee|[]]. injection Ee as <- <-. auto.
  - intros p [Ee|[]]; discriminate.
  - apply (i_un a HI).
Qed.

Lemma rwof_writer : forall a, Inv a -> is_sh (adat a) = false -> exists u, rwof (adat a) = Writer u /\ sow (adat a) = [u].
Proof.
  intros a HI H. pose proof (i_ty a HI) as Hty. unfold is_sh, rwof in *. destruct (sty (adat a)); try discriminate.
  destruct Hty as [u E]. rewrite E. eauto.
Qed.

Lemma inv_ado : forall a t o l b, Inv a -> unmixed (ahist (ado sseg a t o l b)) ->
  (athr a t = AReady o l \/ (athr a t = AParked o l /\ amark a t = false)) -> Inv (ado sseg a t o l b).
Proof.
  intros a t o l b HI Hum [Ht|[Ht Hm]]; pose proof (i_thr a HI t) as HT; rewrite Ht in HT; simpl in HT.
  - destruct HT as (H1&H2&H3&HT). pose proof (i_ty a HI) as Hty.
    destruct l; unfold ado in *; cbn [sseg] in *;
      try (destruct HT as [(F&_)|[(_&F&_)|(_&F&_)]]; first [contradiction|discriminate]).
    + destruct HT as [(F&H4&H5)|[(_&F&_)|(_&F&_)]]; try discriminate. simpl in F. subst o.
      destruct (sow (adat a)) as [|v ow] eqn:E.
      * unfold wtake. apply inv_wtake; auto.
      * destruct b; [eapply (inv_spark a t true); eauto; congruence|]. eapply inv_yield; eauto; reflexivity.
    + destruct HT as [(F&H4&H5)|[(_&F&_)|(_&F&_)]]; try discriminate. simpl in F. subst o.
      destruct (sow (adat a)) as [|v ow] eqn:E.
      * unfold wtake. apply inv_wtake; auto.
      * destruct b; [eapply (inv_spark a t true); eauto; congruence|]. eapply inv_yield; eauto; reflexivity.
    + destruct HT as [(F&H4&H5)|[(_&F&_)|(_&F&_)]]; try discriminate. simpl in F. subst o.
      destruct (sow (adat a)) as [|v ow] eqn:E.
      * unfold wtake. apply inv_wtake; auto.
      * cbn [log_lin fold_left fst snd]. eapply inv_fail; eauto.
        -- unfold rwof. rewrite E. destruct (sty (adat a)); [|reflexivity|reflexivity]. destruct Hty; discriminate.
        -- unfold T. rewrite (phase_lin _ _ sop_refl _ _ _ H1). auto.
    + (* unlock *) destruct HT as [(F&_)|[(->&_&H4&H5)|(_&F&_)]]; try contradiction; try discriminate.
      destruct (match sty (adat a) with TUnique => mem t (sow (adat a)) | _ => false end) eqn:E.
      * eapply inv_rel with (t := t) (o := WUnlock); eauto. unfold hx.
        destruct (sty (adat a)); try discriminate. now rewrite E.
      * assert (Hx : hx (adat a) t <> Some true).
        { unfold hx. destruct (sty (adat a)); destruct (mem t (sow (adat a))); congruence. }
        cbn [log_lin fold_left fst snd]. eapply inv_fail; eauto.
        -- unfold rwof. destruct (sty (adat a)); [reflexivity| |reflexivity]. destruct Hty as [u Eu]. rewrite Eu in *.
           simpl in E. rewrite orb_false_r in E. simpl. rewrite Nat.eqb_sym, E. reflexivity.
        -- unfold T. rewrite (phase_lin _ _ sop_refl _ _ _ H1). repeat split; auto.
           ++ rewrite hold_lin, H4. destruct (hx (adat a) t) as [[|]|]; congruence.
           ++ rewrite hold_at_lin, H5. destruct (hx (adat a) t) as [[|]|]; congruence.
    + destruct HT as [(F&H4&H5)|[(_&F&_)|(_&F&_)]]; try discriminate. simpl in F. subst o.
      destruct (is_sh (adat a)) eqn:E.
      * unfold stake. apply inv_stake; auto.
      * destruct (rwof_writer a HI E) as (u&_&Eu).
        destruct b; [eapply (inv_spark a t false); eauto; congruence|]. eapply inv_yield; eauto; reflexivity.
    + destruct HT as [(F&H4&H5)|[(_&F&_)|(_&F&_)]]; try discriminate. simpl in F. subst o.
      destruct (is_sh (adat a)) eqn:E.
      * unfold stake. apply inv_stake; auto.
      * destruct (rwof_writer a HI E) as (u&_&Eu).
        destruct b; [eapply (inv_spark a t false); eauto; congruence|]. eapply inv_yield; eauto; reflexivity.
    + destruct HT as [(F&H4&H5)|[(_&F&_)|(_&F&_)]]; try discriminate. simpl in F. subst o.
      destruct (is_sh (adat a)) eqn:E.
      * unfold stake. apply inv_stake; auto.
      * cbn [log_lin fold_left fst snd]. destruct (rwof_writer a HI E) as (u&Ew&Eu). eapply inv_fail; eauto.
        -- rewrite Ew. reflexivity.
        -- unfold T. rewrite (phase_lin _ _ sop_refl _ _ _ H1). auto.
    + (* unlock_shared *) destruct HT as [(F&_)|[(_&F&_)|(->&_&H4&H5)]]; try contradiction; try discriminate.
      destruct (match sty (adat a) with TShared => mem t (sow (adat a)) | _ => false end) eqn:E.
      * eapply inv_rel with (t := t) (o := SUnlock); eauto. unfold hx.
        destruct (sty (adat a)); try discriminate. now rewrite E.
      * assert (Hx : hx (adat a) t <> Some false).
        { unfold hx. destruct (sty (adat a)); destruct (mem t (sow (adat a))); congruence. }
        cbn [log_lin fold_left fst snd]. eapply inv_fail; eauto.
        -- unfold rwof. destruct (sty (adat a)); [reflexivity| |]. destruct Hty as [u Eu]. rewrite Eu. reflexivity.
           cbn [rw_spec]. now rewrite E.
        -- unfold T. rewrite (phase_lin _ _ sop_refl _ _ _ H1). repeat split; auto.
           ++ rewrite hold_lin, H4. destruct (hx (adat a) t) as [[|]|]; congruence.
           ++ rewrite hold_at_lin, H5. destruct (hx (adat a) t) as [[|]|]; congruence.
  - destruct HT as (w&->&->&H4&[HT|(H1&H2&H3&H6)]); [destruct HT; congruence|].
    assert (Em : mem t (sow (adat a)) = true).
    { unfold hx in H3. destruct (mem t (sow (adat a))); [reflexivity|discriminate]. }
    assert (E : ado sseg a t (if w then WLock else SLock) (if w then LW3 else LS3) b =
                mkA (adat a) (upd (athr a) t (ADone (if w then WLock else SLock) SOk)) (unmark [] (amark a)) ([] ++ ahist a)).
    { unfold ado. destruct w; cbn [sseg]; unfold sloop; rewrite Em; reflexivity. }
    rewrite E. apply inv_same; simpl; auto; try tauto. apply (i_un a HI).
    destruct w; repeat split; auto.
Qed.

Lemma inv_step : forall a lb a', Inv a -> ass a lb = Some a' -> no_reacquire (ahist a') -> unmixed (ahist a') -> Inv a'.
Proof.
  intros a [t o|t b|t] a' HI Hs Hn Hum; simpl in Hs.
  - destruct (athr a t) eqn:Et; try discriminate. injection Hs as <-. cbn [ahist] in *.
    pose proof (i_thr a HI t) as HT. rewrite Et in HT. simpl in HT. destruct HT as (H1&H2&H3&H4).
    change (ECall t o :: ahist a) with ([ECall t o] ++ ahist a). apply inv_same; auto.
    + intros e [<-|[]]; reflexivity.
    + intros o' r [Ee|[]]; discriminate.
    + intros p [Ee|[]]; discriminate.
    + apply (i_un a HI).
    + cbn [app]. unfold T. rewrite (phase_call _ _ _ _ _ H1). repeat split; auto.
      assert (Hha : hold_at o (ECall t o :: ahist a) t = hold (ahist a) t).
      { simpl. rewrite Nat.eqb_refl, sop_refl. reflexivity. }
      destruct o; cbn [sentry]; simpl in Hn.
      * left. destruct Hn as [Hn _]. repeat split; auto. congruence.
      * left. destruct Hn as [Hn _]. repeat split; auto. congruence.
      * right; left. repeat split; auto; [|congruence]. simpl. rewrite Nat.eqb_refl. now rewrite H2.
      * left. destruct Hn as [Hn _]. repeat split; auto. congruence.
      * left. destruct Hn as [Hn _]. repeat split; auto. congruence.
      * right; right. repeat split; auto; [|congruence]. simpl. rewrite Nat.eqb_refl. now rewrite H2.
  - destruct (athr a t) as [|o l|o l|o r] eqn:Et; try discriminate.
    + injection Hs as <-. apply inv_ado; auto.
    + destruct (amark a t) eqn:Em; [discriminate|]. injection Hs as <-. apply inv_ado; auto.
  - destruct (athr a t) as [|o l|o l|o r] eqn:Et; try discriminate. injection Hs as <-.
    pose proof (i_thr a HI t) as HT. rewrite Et in HT. simpl in HT. destruct HT as (H1&H2&H3&H4).
    change (ERet t o r :: ahist a) with ([ERet t o r] ++ ahist a). apply inv_same; auto.
    + intros e [<-|[]]; reflexivity.
    + intros o' r' [Ee|[]]; discriminate.
    + intros p [Ee|[]]; discriminate.
    + cbn [app rw_unlocks_ok]. pose proof (i_un a HI). destruct o; auto; destruct r; tauto.
    + cbn [app]. unfold T. rewrite (phase_ret _ _ sop_refl sres_refl _ _ H1).
      repeat split; auto. destruct o, r; cbn [hold]; rewrite ?Nat.eqb_refl; try tauto;
      destruct H4; congruence.
Qed.

Lemma log_lin_app : forall lin (h : list sev), exists es, log_lin lin h = es ++ h.
Proof.
  induction lin as [|x lin IH]; intros h; [exists []; reflexivity|]. destruct (IH (ELin (fst (fst x)) (snd (fst x)) (snd x) :: h)) as [es E].
  eexists (es ++ [_]). rewrite <- app_assoc. exact E.
Qed.
Lemma log_xs_app : forall t xs (h : list sev), exists es, log_xs t xs h = es ++ h.
Proof.
  induction xs as [|x lin IH]; intros h; [exists []; reflexivity|]. destruct (IH (EAux t x :: h)) as [es E].
  eexists (es ++ [_]). rewrite <- app_assoc. exact E.
Qed.
Lemma ado_hist : forall (a : A) t o l b, exists es, ahist (ado sseg a t o l b) = es ++ ahist a.
Proof.
  intros a t o l b. unfold ado.
  destruct (sseg t o l b (adat a)) as [d l'|d xs l'|d lin gr r]; cbn [ahist];
    [exists []; reflexivity|apply log_xs_app|apply log_lin_app].
Qed.
Lemma astep_hist : forall (a : A) lb a', ass a lb = Some a' -> exists es, ahist a' = es ++ ahist a.
Proof.
  intros a [t o|t b|t] a' Hs; simpl in Hs; destruct (athr a t); try discriminate.
  - injection Hs as <-. eexists [_]. reflexivity.
  - injection Hs as <-. apply ado_hist.
  - destruct (amark a t); [discriminate|]. injection Hs as <-. apply ado_hist.
  - injection Hs as <-. eexists [_]. reflexivity.
Qed.

Lemma reach_inv : forall ls a, run ass asi ls = Some a -> no_reacquire (ahist a) -> unmixed (ahist a) -> Inv a.
Proof.
  intros ls a.
  apply (run_inv ass (fun a => no_reacquire (ahist a) -> unmixed (ahist a) -> Inv a)).
  - intros _ _. apply inv_init.
  - intros a1 lb a2 IH Hs Hn Hu. eapply inv_step; eauto.
    destruct (astep_hist _ _ _ Hs) as [es E]. rewrite E in *. apply IH; [eapply nra_app|eapply unmixed_app]; eauto.
Qed.

Lemma sh_reach : forall ls s, run sstep sinit ls = Some s -> no_reacquire (fhist s) -> unmixed (fhist s) ->
  exists a, R s a /\ Inv a.
Proof.
  intros ls s Hr Hn Hu. destruct (fine_refines_atomic _ _ _ _ Hr) as (ls'&a&Ha&HR).
  exists a. split; [exact HR|]. eapply reach_inv; [exact Ha| |]; now rewrite <- (r_hist HR).
Qed.

(** Consequences. *)
Lemma inv_hold_hx : forall a t b, Inv a -> hold (ahist a) t = Some b -> hx (adat a) t = Some b.
Proof.
  intros a t b HI H. pose proof (i_thr a HI t) as HT. unfold T in HT.
  destruct (athr a t) as [|o l|o l|o r].
  - destruct HT as (_&E&_). congruence.
  - destruct HT as (_&_&_&[(_&E&_)|[(_&_&E&_)|(_&_&E&_)]]); [congruence| |];
      destruct (hx (adat a) t) as [[|]|]; congruence.
  - destruct HT as (w&_&_&E&_). congruence.
  - destruct HT as (_&_&_&HT). destruct o, r; try contradiction; destruct HT as [E E']; congruence.
Qed.

Lemma sh_exclusion : forall a t u b, Inv a -> hold (ahist a) t = Some true -> hold (ahist a) u = Some b -> u = t.
Proof.
  intros a t u b HI Ht Hu. apply (inv_hold_hx a t true HI) in Ht. apply (inv_hold_hx a u b HI) in Hu.
  pose proof (i_ty a HI) as Hty. unfold hx in *.
  destruct (mem t (sow (adat a))) eqn:E1; [|discriminate]. destruct (mem u (sow (adat a))) eqn:E2; [|discriminate].
  destruct (sty (adat a)); try discriminate. destruct Hty as [v Ev]. rewrite Ev in *.
  apply mem_in in E1. apply mem_in in E2. simpl in *. intuition congruence.
Qed.

Lemma sh_lin : forall a, Inv a -> rw_linearizable (ahist a).
Proof.
  intros a HI. split.
  - intros t. pose proof (i_thr a HI t) as HT. unfold T in HT. destruct (athr a t) as [|o l|o l|o r].
    + destruct HT as (->&_). discriminate.
    + destruct HT as (->&_). discriminate.
    + destruct HT as (w&_&_&_&[(_&_&_&->)|(_&_&_&->)]); discriminate.
    + destruct HT as (->&_). discriminate.
  - pose proof (i_seq a HI) as H. unfold rw_state in H. rewrite H. discriminate.
Qed.

Lemma sh_free_empty : forall a, Inv a -> rw_state (ahist a) = Some Free -> sline (ahist a) = Some [].
Proof.
  intros a HI H. rewrite (i_seq a HI) in H. rewrite (i_line a HI). pose proof (i_ty a HI) as Hty.
  unfold rwof in H. destruct (sty (adat a)).
  - destruct Hty as [_ ->]. reflexivity.
  - destruct Hty as [u E]. rewrite E in H. discriminate.
  - discriminate.
Qed.

Lemma sh_quiet : forall a, Inv a -> aquiet sentry sseg a ->
  forall t, phase (ahist a) t <> Some PIdle ->
  exists w : bool, phase (ahist a) t = Some (PPending (if w then WLock else SLock)) /\ In (w, t) (sq (adat a)) /\
  exists o, hold (ahist a) o <> None /\ phase (ahist a) o = Some PIdle.
Proof.
  intros a HI HQ.
  assert (Hall : forall t, athr a t = AOut \/ (exists o l, athr a t = AParked o l /\ amark a t = true)).
  { intros t. destruct (HQ t) as [H1 H2]. specialize (H1 false). simpl in H1, H2.
    destruct (athr a t) as [|o l|o l|o r]; try discriminate; auto.
    destruct (amark a t); [eauto|discriminate]. }
  intros t Hp. pose proof (i_thr a HI t) as HT.
  destruct (Hall t) as [E|(o&l&E&Em)]; rewrite E in HT; simpl in HT; [tauto|].
  rewrite Em in HT. destruct HT as (w&->&->&_&[(_&Hi&Ho&HP)|HT]); [|destruct HT; discriminate].
  exists w. split; [exact HP|]. split; [exact Hi|].
  pose proof (i_ty a HI) as Hty.
  assert (Hv : exists v, In v (sow (adat a)) /\ sty (adat a) <> TUnlocked).
  { destruct (sty (adat a)).
    - destruct Hty as [_ Hq]. rewrite Hq in Hi. contradiction.
    - destruct Hty as [v Ev]. exists v. rewrite Ev. split; [now left|discriminate].
    - destruct (sow (adat a)) as [|v l]; [congruence|]. exists v. split; [now left|discriminate]. }
  destruct Hv as (v&Hv&Hnu). exists v. pose proof (i_thr a HI v) as HTv.
  assert (Hxv : hx (adat a) v <> None).
  { unfold hx. apply mem_in in Hv. rewrite Hv. destruct (sty (adat a)); congruence. }
  destruct (Hall v) as [E'|(o'&l'&E'&Em')]; rewrite E' in HTv; simpl in HTv.
  - destruct HTv as (Hpv&->&_). auto.
  - rewrite Em' in HTv. destruct HTv as (w'&_&_&_&[HT'|HT']); [|destruct HT'; discriminate].
    destruct HT' as (_&_&?&_); congruence.
Qed.

(** Programs with a single writer never meet the bad situation. *)
Record Q1 (w : tid) (a : A) : Prop := mkQ1 {
  q_line : forall x, In (true, x) (sq (adat a)) -> sq (adat a) = [(true, w)];
  q_rd : forall x, In (false, x) (sq (adat a)) -> sty (adat a) = TUnique;
  q_own : sty (adat a) = TUnique -> sow (adat a) = [w];
  q_thr : forall t o, (exists l, athr a t = AReady o l \/ athr a t = AParked o l) -> o = WLock \/ o = WTry -> t = w
}.

Lemma sw_tail : forall w e h, single_writer w (e :: h) -> single_writer w h.
Proof. intros w [t []|t o r|t o r|t x] h H; simpl in H; tauto. Qed.
Lemma sw_app : forall w es h, single_writer w (es ++ h) -> single_writer w h.
Proof. induction es; intros h H; auto. apply IHes. eapply sw_tail. exact H. Qed.

Lemma unmixed_no_rel : forall lin h, unmixed h ->
  (forall x, In x lin -> snd (fst x) <> WUnlock /\ snd (fst x) <> SUnlock) -> unmixed (log_lin lin h).
Proof.
  induction lin as [|x lin IH]; intros h Hu Hn; [exact Hu|]. apply IH.
  - simpl. destruct (snd x); auto. split; auto. destruct (Hn x (or_introl eq_refl)). tauto.
  - intros y Hy. apply Hn. now right.
Qed.

Lemma sw_unmixed_ado : forall w a t o l b, Inv a -> Q1 w a -> unmixed (ahist a) ->
  unmixed (ahist (ado sseg a t o l b)).
Proof.
  intros w a t o l b HI HQ Hu. unfold ado.
  assert (Hrel : forall o', unmixed (log_lin ((t, o', SOk) :: glin (snd (wake_up_waiters (mkSd (sty (adat a)) (erase t (sow (adat a))) (sq (adat a)))))) (ahist a))).
  { intros o'. simpl log_lin. apply unmixed_no_rel.
    - simpl. split; [|exact Hu]. intros _ _ q Eq. rewrite (i_line a HI) in Eq. injection Eq as <-.
      unfold front_ok. destruct (sq (adat a)) as [|([|], v) q'] eqn:E; auto.
      intros ([|], y) Hx; [|reflexivity]. exfalso. rewrite <- E in Hx. pose proof (q_line w a HQ y Hx) as E'. congruence.
    - intros x Hx. unfold glin in Hx. apply in_map_iff in Hx. destruct Hx as (y&<-&_). simpl. destruct (fst y); split; discriminate. }
  assert (Hrel' : forall o', match srel t o' (adat a) with
      | SFin d lin gr r => unmixed (log_lin lin (ahist a)) | _ => True end).
  { intros o'. specialize (Hrel o'). unfold srel.
    destruct (wake_up_waiters (mkSd (sty (adat a)) (erase t (sow (adat a))) (sq (adat a)))) as [d' gs]. exact Hrel. }
  assert (Hsp : forall w', match spark w' t (adat a) with
      | SPark d xs l' => unmixed (log_xs t xs (ahist a)) | SFin d lin gr r => unmixed (log_lin lin (ahist a)) | _ => True end).
  { intros w'. unfold spark. destruct (mem t (sow (adat a))); exact Hu. }
  destruct l; cbn [sseg].
  - destruct (sow (adat a)) eqn:E; [simpl; split; [intros [|]; discriminate|exact Hu]|]. destruct b; [|exact Hu].
    specialize (Hsp true). destruct (spark true t (adat a)) eqn:E2; cbn [ahist]; auto.
  - destruct (sow (adat a)) eqn:E; [simpl; split; [intros [|]; discriminate|exact Hu]|]. destruct b; [|exact Hu].
    specialize (Hsp true). destruct (spark true t (adat a)) eqn:E2; cbn [ahist]; auto.
  - unfold sloop. destruct (mem t (sow (adat a))); exact Hu.
  - destruct (sow (adat a)) eqn:E; exact Hu.
  - destruct (match sty (adat a) with TUnique => mem t (sow (adat a)) | _ => false end); [|exact Hu].
    specialize (Hrel' WUnlock). destruct (srel t WUnlock (adat a)) eqn:E2; cbn [ahist]; auto.
    unfold srel in E2. destruct (wake_up_waiters _); discriminate.
  - destruct (is_sh (adat a)); [simpl; split; [intros [|]; discriminate|exact Hu]|]. destruct b; [|exact Hu].
    specialize (Hsp false). destruct (spark false t (adat a)) eqn:E2; cbn [ahist]; auto.
  - destruct (is_sh (adat a)); [simpl; split; [intros [|]; discriminate|exact Hu]|]. destruct b; [|exact Hu].
    specialize (Hsp false). destruct (spark false t (adat a)) eqn:E2; cbn [ahist]; auto.
  - unfold sloop. destruct (mem t (sow (adat a))); exact Hu.
  - destruct (is_sh (adat a)); exact Hu.
  - destruct (match sty (adat a) with TShared => mem t (sow (adat a)) | _ => false end); [|exact Hu].
    specialize (Hrel' SUnlock). destruct (srel t SUnlock (adat a)) eqn:E2; cbn [ahist]; auto.
    unfold srel in E2. destruct (wake_up_waiters _); discriminate.
Qed.

Definition Qd (w : tid) (d : sdat) : Prop :=
  (forall x, In (true, x) (sq d) -> sq d = [(true, w)]) /\
  (forall x, In (false, x) (sq d) -> sty d = TUnique) /\
  (sty d = TUnique -> sow d = [w]).

Lemma q1_upd : forall w a d t x m h, Q1 w a -> Qd w d ->
  (forall o l, (x = AReady o l \/ x = AParked o l) -> o = WLock \/ o = WTry -> t = w) ->
  Q1 w (mkA d (upd (athr a) t x) m h).
Proof.
  intros w a d t x m h [H1 H2 H3 H4] (D1&D2&D3) Hx. constructor; cbn [adat athr]; auto.
  intros u o (l&E) Ho. cmp u t; [eapply Hx; eauto|]. eapply H4; eauto.
Qed.

Lemma q1_d : forall w a, Q1 w a -> Qd w (adat a).
Proof. intros w a [H1 H2 H3 H4]. repeat split; auto. Qed.

Lemma qd_wtake : forall w d, Qd w d -> sow d = [] -> Qd w (mkSd TUnique (insert w (sow d)) (sq d)).
Proof.
  intros w d (D1&D2&D3) E. repeat split; cbn [sq sty sow]; auto. rewrite E. auto.
Qed.

Lemma qd_stake : forall w d t, Qd w d -> is_sh d = true -> Qd w (mkSd TShared (insert t (sow d)) (sq d)).
Proof.
  intros w d t (D1&D2&D3) E. repeat split; cbn [sq sty sow]; auto; [|discriminate].
  intros x Hx. apply D2 in Hx. unfold is_sh in E. rewrite Hx in E. discriminate.
Qed.

Lemma qd_rel : forall w d t, Qd w d -> In t (sow d) ->
  Qd w (fst (wake_up_waiters (mkSd (sty d) (erase t (sow d)) (sq d)))).
Proof.
  intros w d t (D1&D2&D3) Ht. unfold wake_up_waiters. cbn [sow sq sty].
  destruct (erase t (sow d)) as [|v ow] eqn:E.
  - destruct (sq d) as [|([|], v) q'] eqn:Eq.
    + repeat split; cbn; try contradiction; discriminate.
    + rewrite (D1 v (or_introl eq_refl)) in Eq. 
      pose proof (D1 v (or_introl eq_refl)) as E1. injection E1 as -> ->.
      repeat split; cbn; try contradiction.
    + assert (Hall : forall y : bool * tid, In y ((false, v) :: q') -> negb (fst y) = true).
      { intros ([|], y) Hy; [|reflexivity]. exfalso. pose proof (D1 y Hy). congruence. }
      rewrite remove_if_all by exact Hall. cbn [fst firstn skipn].
      repeat split; cbn [sq sty]; try contradiction; discriminate.
  - cbn [fst]. repeat split; cbn [sq sty sow]; auto.
    intros Hu. apply D3 in Hu. rewrite Hu in *. destruct Ht as [->|[]].
    unfold erase, without in E. simpl in E. rewrite Nat.eqb_refl in E. discriminate.
Qed.

Lemma hx_w : forall w a, Inv a -> Qd w (adat a) -> sty (adat a) = TUnique -> hx (adat a) w = Some true.
Proof.
  intros w a HI (_&_&D3) E. unfold hx. rewrite (D3 E), E. simpl. now rewrite Nat.eqb_refl.
Qed.

Lemma q1_ado : forall w a t o l b, Inv a -> Q1 w a ->
  (athr a t = AReady o l \/ (athr a t = AParked o l /\ amark a t = false)) -> Q1 w (ado sseg a t o l b).
Proof.
  intros w a t o l b HI HQ Ht.
  assert (Hw : o = WLock \/ o = WTry -> t = w).
  { intros Ho. apply (q_thr w a HQ t o); auto. exists l. tauto. }
  pose proof (q1_d w a HQ) as HD. pose proof (i_thr a HI t) as HT.
  assert (Hloop : forall w' : bool, l = (if w' then LW3 else LS3) -> Q1 w (ado sseg a t o l b)).
  { intros w' ->. unfold ado. destruct w'; cbn [sseg]; unfold sloop; destruct (mem t (sow (adat a)));
    apply q1_upd; auto; intros o' l' [E|E]; try discriminate; injection E as <- <-; exact Hw. }
  destruct Ht as [Ht|[Ht Hm]]; rewrite Ht in HT; simpl in HT.
  2:{ destruct HT as (w'&_&Hl&_). now apply (Hloop w'). }
  destruct HT as (H1&H2&H3&HT).
  assert (Hyield : forall l', acq_loc o l' -> Q1 w (mkA (adat a) (upd (athr a) t (AReady o l')) (amark a) (ahist a))).
  { intros l' _. apply q1_upd; auto. intros o' l0 [E|E]; try discriminate. injection E as <- <-. exact Hw. }
  assert (Hfin : forall d m h r, Qd w d -> Q1 w (mkA d (upd (athr a) t (ADone o r)) m h)).
  { intros d m h r Hd. apply q1_upd; auto. intros o' l0 [E|E]; discriminate. }
  assert (Hspk : forall w' : bool, o = (if w' then WLock else SLock) -> hx (adat a) t = None ->
     (w' = true -> sow (adat a) <> []) -> (w' = false -> is_sh (adat a) = false) ->
     Q1 w match spark w' t (adat a) with
       | SYield d l' => mkA d (upd (athr a) t (AReady o l')) (amark a) (ahist a)
       | SPark d xs l' => mkA d (upd (athr a) t (AParked o l')) (upd (amark a) t true) (log_xs t xs (ahist a))
       | SFin d lin gr r => mkA d (upd (athr a) t (ADone o r)) (unmark gr (amark a)) (log_lin lin (ahist a))
       end).
  { intros w' Eo Hx Hne Hsh. unfold spark. rewrite (proj2 (mem_nin _ _) (hx_none a t HI Hx)).
    apply q1_upd; auto; [|intros o' l0 [E|E]; try discriminate; injection E as <- <-; exact Hw].
    pose proof HD as (D1&D2&D3). destruct w'.
    - assert (Etw : t = w) by (apply Hw; auto). subst t.
      assert (Hq0 : sq (adat a) = []).
      { destruct (sq (adat a)) as [|([|], v) q'] eqn:Eq; [reflexivity| |].
        - pose proof (D1 v (or_introl eq_refl)) as E1. injection E1 as -> ->. exfalso. apply H3. now left.
        - exfalso. pose proof (hx_w w a HI HD (D2 v (or_introl eq_refl))). congruence. }
      rewrite Hq0. repeat split; cbn [sq sty sow app]; auto. intros x [E|[]]. discriminate.
    - assert (Eu : sty (adat a) = TUnique) by (specialize (Hsh eq_refl); unfold is_sh in Hsh; destruct (sty (adat a)); congruence).
      repeat split; cbn [sq sty sow]; auto. intros x Hix. exfalso. apply in_app_or in Hix.
      destruct Hix as [Hix|[E|[]]]; [|discriminate]. pose proof (D1 x Hix) as E1.
      assert (Hi : In (true, w) (sq (adat a))) by (rewrite E1; now left).
      destruct (in_line_thr a true w HI Hi) as (_&_&Hxw&_). rewrite (hx_w w a HI HD Eu) in Hxw. discriminate. }
  assert (Hrl : forall o', (match srel t o' (adat a) with SFin d lin gr r => In t (sow (adat a)) -> Qd w d | _ => False end)).
  { intros o'. unfold srel. pose proof (qd_rel w (adat a) t HD).
    destruct (wake_up_waiters (mkSd (sty (adat a)) (erase t (sow (adat a))) (sq (adat a)))) as [d' gs]. exact H. }
  destruct l; unfold ado; cbn [sseg];
      try (destruct HT as [(F&_)|[(_&F&_)|(_&F&_)]]; first [contradiction|discriminate]).
  - destruct HT as [(F&H4&H5)|[(_&F&_)|(_&F&_)]]; try discriminate. simpl in F. subst o.
    destruct (sow (adat a)) as [|v ow] eqn:E.
    + unfold wtake. rewrite (Hw (or_introl eq_refl)) at 1. apply Hfin. now apply qd_wtake.
    + destruct b; [apply (Hspk true); auto; discriminate|]. apply Hyield. reflexivity.
  - destruct HT as [(F&H4&H5)|[(_&F&_)|(_&F&_)]]; try discriminate. simpl in F. subst o.
    destruct (sow (adat a)) as [|v ow] eqn:E.
    + unfold wtake. rewrite (Hw (or_introl eq_refl)) at 1. apply Hfin. now apply qd_wtake.
    + destruct b; [apply (Hspk true); auto; discriminate|]. apply Hyield. reflexivity.
  - destruct HT as [(F&H4&H5)|[(_&F&_)|(_&F&_)]]; try discriminate. simpl in F. subst o.
    destruct (sow (adat a)) as [|v ow] eqn:E.
    + unfold wtake. rewrite (Hw (or_intror eq_refl)) at 1. apply Hfin. now apply qd_wtake.
    + now apply Hfin.
  - destruct HT as [(F&_)|[(->&_&H4&H5)|(_&F&_)]]; try contradiction; try discriminate.
    destruct (match sty (adat a) with TUnique => mem t (sow (adat a)) | _ => false end) eqn:E; [|now apply Hfin].
    specialize (Hrl WUnlock). destruct (srel t WUnlock (adat a)); try contradiction. apply Hfin. apply Hrl.
    destruct (sty (adat a)); try discriminate. now apply mem_in.
  - destruct HT as [(F&H4&H5)|[(_&F&_)|(_&F&_)]]; try discriminate. simpl in F. subst o.
    destruct (is_sh (adat a)) eqn:E; [apply Hfin; now apply qd_stake|].
    destruct b; [apply (Hspk false); auto; discriminate|]. apply Hyield. reflexivity.
  - destruct HT as [(F&H4&H5)|[(_&F&_)|(_&F&_)]]; try discriminate. simpl in F. subst o.
    destruct (is_sh (adat a)) eqn:E; [apply Hfin; now apply qd_stake|].
    destruct b; [apply (Hspk false); auto; discriminate|]. apply Hyield. reflexivity.
  - destruct HT as [(F&H4&H5)|[(_&F&_)|(_&F&_)]]; try discriminate. simpl in F. subst o.
    destruct (is_sh (adat a)) eqn:E; [apply Hfin; now apply qd_stake|now apply Hfin].
  - destruct HT as [(F&_)|[(_&F&_)|(->&_&H4&H5)]]; try contradiction; try discriminate.
    destruct (match sty (adat a) with TShared => mem t (sow (adat a)) | _ => false end) eqn:E; [|now apply Hfin].
    specialize (Hrl SUnlock). destruct (srel t SUnlock (adat a)); try contradiction. apply Hfin. apply Hrl.
    destruct (sty (adat a)); try discriminate. now apply mem_in.
Qed.

Lemma sw_reach : forall w ls a, run ass asi ls = Some a -> no_reacquire (ahist a) -> single_writer w (ahist a) ->
  Inv a /\ Q1 w a /\ unmixed (ahist a).
Proof.
  intros w ls a.
  apply (run_inv ass (fun a => no_reacquire (ahist a) -> single_writer w (ahist a) -> Inv a /\ Q1 w a /\ unmixed (ahist a))).
  - intros _ _. split; [apply inv_init|]. split; [|exact I]. constructor; simpl; try contradiction; try discriminate.
    intros t o (l&[E|E]); discriminate.
  - intros a1 lb a2 IH Hs Hn Hw.
    destruct (astep_hist _ _ _ Hs) as [es E].
    assert (IH' : Inv a1 /\ Q1 w a1 /\ unmixed (ahist a1)).
    { rewrite E in *. apply IH; [eapply nra_app|eapply sw_app]; eauto. }
    destruct IH' as (HI&HQ&Hu). clear E es.
    assert (Hu2 : unmixed (ahist a2)).
    { destruct lb as [t o|t b|t]; simpl in Hs; destruct (athr a1 t) as [|o0 l|o0 l|o0 r] eqn:Et; try discriminate.
      - injection Hs as <-. exact Hu.
      - injection Hs as <-. now apply sw_unmixed_ado with (w := w).
      - destruct (amark a1 t); [discriminate|]. injection Hs as <-. now apply sw_unmixed_ado with (w := w).
      - injection Hs as <-. exact Hu. }
    split; [eapply inv_step; eauto|]. split; [|exact Hu2].
    destruct lb as [t o|t b|t]; simpl in Hs; destruct (athr a1 t) as [|o0 l|o0 l|o0 r] eqn:Et; try discriminate.
    + injection Hs as <-. apply q1_upd; auto; [now apply q1_d|]. intros o' l' [E|E] Ho; [|discriminate].
      injection E as -> <-. simpl in Hw. destruct Ho; subst; tauto.
    + injection Hs as <-. apply q1_ado; auto.
    + destruct (amark a1 t) eqn:Em; [discriminate|]. injection Hs as <-. apply q1_ado; auto.
    + injection Hs as <-. apply q1_upd; auto; [now apply q1_d|]. intros o' l' [E|E]; discriminate.
Qed.

Lemma sw_unmixed : forall w ls s, run sstep sinit ls = Some s -> no_reacquire (fhist s) -> single_writer w (fhist s) ->
  unmixed (fhist s).
Proof.
  intros w ls s Hr Hn Hw. destruct (fine_refines_atomic _ _ _ _ Hr) as (ls'&a&Ha&HR).
  rewrite (r_hist HR) in *. now destruct (sw_reach w ls' a Ha Hn Hw) as (_&_&H).
Qed.

(** A parked coroutine that is neither queued nor an owner is lost. *)
Definition lost (t : tid) (o : sop) (s : fst_ sdat sop sres saux sloc) : Prop :=
  (exists l, fpcs s t = FPark o l) /\ fmark s t = true /\ ~ In t (sow (fdat s)) /\ ~ In t (map snd (sq (fdat s))) /\
  (forall u o' gr r, fpcs s u = FUn o' gr r -> ~ In t gr) /\
  phase (fhist s) t = Some (PPending o).

Lemma in_firstn : forall A (x : A) n l, In x (firstn n l) -> In x l.
Proof. intros B x n l H. rewrite <- (firstn_skipn n l). apply in_or_app. auto. Qed.
Lemma in_skipn : forall A (x : A) n l, In x (skipn n l) -> In x l.
Proof. intros B x n l H. rewrite <- (firstn_skipn n l). apply in_or_app. auto. Qed.

Lemma remove_loop_in : forall A (p : A -> bool) fuel l i j x,
  In x (fst (remove_loop p l i j fuel)) -> In x l.
Proof.
  intros B p fuel. induction fuel as [|f IH]; intros l i j x H; simpl in H; [exact H|].
  destruct (nth_error l i) as [y|] eqn:E; [|exact H]. destruct (p y); [eauto|].
  apply IH in H. unfold set_nth in H. apply in_app_or in H. destruct H as [H|[->|H]].
  - eapply in_firstn; eauto.
  - eapply nth_error_In; eauto.
  - eapply (in_skipn _ x (S j)). exact H.
Qed.
Lemma remove_if_in : forall A (p : A -> bool) l x, In x (fst (remove_if p l)) -> In x l.
Proof.
  intros B p l x H. unfold remove_if in H. destruct (Nat.eqb _ _); [exact H|]. eapply remove_loop_in; eauto.
Qed.

Lemma insert_in : forall u t l, In u (insert t l) -> u = t \/ In u l.
Proof. intros u t l H. unfold insert in H. destruct (mem t l); [auto|]. destruct H; auto. Qed.

Lemma wake_in : forall d t, ~ In t (sow d) -> ~ In t (map snd (sq d)) ->
  ~ In t (sow (fst (wake_up_waiters d))) /\ ~ In t (map snd (sq (fst (wake_up_waiters d)))) /\
  ~ In t (map snd (snd (wake_up_waiters d))).
Proof.
  intros d t H1 H2. unfold wake_up_waiters. destruct (sow d) as [|v ow] eqn:Eo.
  - destruct (sq d) as [|([|], v) q'] eqn:Eq.
    + cbn. tauto.
    + cbn in *. tauto.
    + pose proof (remove_if_in _ (fun x : bool * tid => negb (fst x)) ((false, v) :: q')) as Hr.
      destruct (remove_if (fun x : bool * tid => negb (fst x)) ((false, v) :: q')) as [l' it]. cbn [fst] in Hr.
      cbn [fst snd sow sq].
      assert (Hl : forall n, ~ In t (map snd (skipn n l')) /\ ~ In t (map snd (firstn n l'))).
      { intros n. split; intros Hi; apply in_map_iff in Hi; destruct Hi as (x&<-&Hi); apply H2; apply in_map.
        - apply Hr. eapply in_skipn; eauto.
        - apply Hr. eapply in_firstn; eauto. }
      split; [|split; apply Hl]. rewrite fold_insert_in. simpl. destruct (Hl it). tauto.
  - cbn [fst snd]. rewrite Eo. auto.
Qed.

Lemma seg_lost : forall u o l b d t, u <> t -> ~ In t (sow d) -> ~ In t (map snd (sq d)) ->
  match sseg u o l b d with
  | SYield d' _ => ~ In t (sow d') /\ ~ In t (map snd (sq d'))
  | SPark d' _ _ => ~ In t (sow d') /\ ~ In t (map snd (sq d'))
  | SFin d' lin gr r => ~ In t (sow d') /\ ~ In t (map snd (sq d')) /\ ~ In t gr /\ (forall x : tid * sop * sres, In x lin -> fst (fst x) <> t)
  end.
Proof.
  intros u o l b d t Hne H1 H2.
  assert (Hins : ~ In t (insert u (sow d))) by (intros Hi; apply insert_in in Hi; destruct Hi; auto).
  assert (Hspk : forall w, match spark w u d with
    | SYield d' _ => ~ In t (sow d') /\ ~ In t (map snd (sq d'))
    | SPark d' _ _ => ~ In t (sow d') /\ ~ In t (map snd (sq d'))
    | SFin d' lin gr r => ~ In t (sow d') /\ ~ In t (map snd (sq d')) /\ ~ In t gr /\ (forall x : tid * sop * sres, In x lin -> fst (fst x) <> t) end).
  { intros w. unfold spark. assert (~ In t (map snd (sq d ++ [(w, u)]))).
    { rewrite map_app, in_app_iff. simpl. intuition. }
    destruct (mem u (sow d)); cbn [sow sq]; repeat split; auto; intros x []. }
  assert (Hrl : forall o', match srel u o' d with
    | SFin d' lin gr r => ~ In t (sow d') /\ ~ In t (map snd (sq d')) /\ ~ In t gr /\ (forall x : tid * sop * sres, In x lin -> fst (fst x) <> t)
    | _ => False end).
  { intros o'. unfold srel. 
    pose proof (wake_in (mkSd (sty d) (erase u (sow d)) (sq d)) t) as Hw. cbn [sow sq] in Hw.
    destruct (wake_up_waiters (mkSd (sty d) (erase u (sow d)) (sq d))) as [d' gs]. cbn [fst snd] in Hw.
    destruct Hw as (W1&W2&W3); auto.
    { intros Hi. apply without_in in Hi. tauto. }
    repeat split; auto. intros x [<-|Hx]; [exact Hne|]. apply in_map_iff in Hx. destruct Hx as (y&<-&Hy). cbn.
    intros <-. apply W3. now apply in_map. }
  assert (Hfin : forall d' o' r', ~ In t (sow d') -> ~ In t (map snd (sq d')) ->
    ~ In t (sow d') /\ ~ In t (map snd (sq d')) /\ ~ In t (@nil tid) /\ (forall x : tid * sop * sres, In x [(u, o', r')] -> fst (fst x) <> t)).
  { intros d' o' r' K1 K2. repeat split; auto. intros x [<-|[]]. exact Hne. }
  destruct l; cbn [sseg].
  - destruct (sow d) eqn:E; [apply Hfin; cbn [sow sq]; rewrite ?E in *; auto|]. destruct b; [apply Hspk|rewrite E; auto].
  - destruct (sow d) eqn:E; [apply Hfin; cbn [sow sq]; rewrite ?E in *; auto|]. destruct b; [apply Hspk|rewrite E; auto].
  - unfold sloop. destruct (mem u (sow d)); repeat split; auto; intros x [].
  - destruct (sow d) eqn:E; apply Hfin; cbn [sow sq]; rewrite ?E in *; auto.
  - destruct (match sty d with TUnique => mem u (sow d) | _ => false end); [|apply Hfin; auto].
    specialize (Hrl WUnlock). destruct (srel u WUnlock d); tauto.
  - destruct (is_sh d); [apply Hfin; auto|]. destruct b; [apply Hspk|auto].
  - destruct (is_sh d); [apply Hfin; auto|]. destruct b; [apply Hspk|auto].
  - unfold sloop. destruct (mem u (sow d)); repeat split; auto; intros x [].
  - destruct (is_sh d); apply Hfin; auto.
  - destruct (match sty d with TShared => mem u (sow d) | _ => false end); [|apply Hfin; auto].
    specialize (Hrl SUnlock). destruct (srel u SUnlock d); tauto.
Qed.

Lemma phase_log_lin : forall lin (h : list sev) t, (forall x : tid * sop * sres, In x lin -> fst (fst x) <> t) -> phase (log_lin lin h) t = phase h t.
Proof.
  induction lin as [|x lin IH]; intros h t H; [reflexivity|]. simpl log_lin. 
  change (phase (log_lin lin (ELin (fst (fst x)) (snd (fst x)) (snd x) :: h)) t = phase h t).
  rewrite IH by (intros y Hy; apply H; now right). apply phase_other. simpl. apply H. now left.
Qed.
Lemma phase_log_xs : forall xs u (h : list sev) t, phase (log_xs u xs h) t = phase h t.
Proof.
  induction xs as [|x xs IH]; intros u h t; [reflexivity|].
  change (phase (log_xs u xs (EAux u x :: h)) t = phase h t). rewrite IH. apply phase_aux.
Qed.

Lemma lost_step : forall t o s lb s', lost t o s -> sstep s lb = Some s' -> lost t o s'.
Proof.
  intros t o s lb s' ((l&Hp)&Hm&Ho&Hq&Hg&Hph) Hs. unfold sstep in Hs.
  destruct lb as [u o'|u b]; simpl in Hs.
  - destruct (fpcs s u) eqn:Eu; try discriminate. injection Hs as <-.
    assert (Hne : u <> t) by congruence.
    unfold lost; cbn [fpcs fmark fdat fhist]. rewrite upd_other by congruence. rewrite phase_other by (simpl; congruence).
    repeat split; eauto. intros v o0 gr r E. cmp v u; [discriminate|]. eauto.
  - destruct (Nat.eq_dec u t) as [->|Hne].
    { rewrite Hp, Hm in Hs. discriminate. }
    assert (Hgen : forall sp d m p h, (sp, d, m, upd (fpcs s) u p, h) = (fspin s', fdat s', fmark s', fpcs s', fhist s') ->
       m t = true -> ~ In t (sow d) -> ~ In t (map snd (sq d)) -> (forall o0 gr r, p = FUn o0 gr r -> ~ In t gr) ->
       phase h t = Some (PPending o) -> lost t o s').
    { intros sp d m p h E K1 K2 K3 K4 K5. injection E as _ Ed Em Ep Eh. unfold lost. rewrite <- Ep, <- Ed, <- Em, <- Eh.
      rewrite upd_other by congruence. repeat split; eauto. intros v o0 gr r E0. cmp v u; [eauto|]. eauto. }
    destruct (fpcs s u) as [|o0 l0|o0 l0|o0 l0|o0 l0|o0 l0|o0 l0|o0 l0|o0 gr r] eqn:Eu; try discriminate.
    + destruct (fspin s); [discriminate|]. injection Hs as <-. eapply Hgen; [reflexivity| | | | |]; auto. discriminate.
    + pose proof (seg_lost u o0 l0 b (fdat s) t Hne Ho Hq) as HL.
      destruct (sseg u o0 l0 b (fdat s)) as [d l'|d xs l'|d lin gr r]; injection Hs as <-.
      * destruct HL. eapply Hgen; [reflexivity| | | | |]; auto. discriminate.
      * destruct HL. eapply Hgen; [reflexivity| | | | |]; auto; [discriminate|]. cbn [fhist]. now rewrite phase_log_xs.
      * destruct HL as (K1&K2&K3&K4). eapply Hgen; [reflexivity| | | | |]; auto; [congruence|]. cbn [fhist]. now rewrite phase_log_lin.
    + injection Hs as <-. eapply Hgen; [reflexivity| | | | |]; auto. discriminate.
    + destruct (fmark s u); [discriminate|]. injection Hs as <-. eapply Hgen; [reflexivity| | | | |]; auto. discriminate.
    + injection Hs as <-. eapply Hgen; [reflexivity| | | | |]; auto; [|discriminate]. cbn [fmark]; rewrite upd_other; auto.
    + injection Hs as <-. eapply Hgen; [reflexivity| | | | |]; auto. discriminate.
    + destruct (fmark s u); [discriminate|]. injection Hs as <-. eapply Hgen; [reflexivity| | | | |]; auto. discriminate.
    + pose proof (Hg u o0 gr r Eu) as Hgr. destruct gr as [|g gr]; injection Hs as <-.
      * eapply Hgen; [reflexivity| | | | |]; auto; [discriminate|]. cbn [fhist]; rewrite phase_other by (simpl; congruence). exact Hph.
      * eapply Hgen; [reflexivity| | | | |]; auto.
        -- cbn [fmark]; rewrite upd_other; [exact Hm|]. intros ->. apply Hgr. now left.
        -- intros o1 gr1 r1 E Hi. injection E as _ <- _. apply Hgr. now right.
Qed.

Lemma lost_forever : forall t o s ls s', lost t o s -> run sstep s ls = Some s' -> lost t o s'.
Proof.
  intros t o s ls s' H Hr. revert Hr. apply (run_inv sstep (lost t o)); auto. intros; eapply lost_step; eauto.
Qed.
