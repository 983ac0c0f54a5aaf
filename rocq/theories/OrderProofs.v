(** Invariant of the traces of the objects of OrderModel.v. *)
From Coq Require Import List Arith Bool Lia.
From Verif Require Import Base LinSpec Monitor FineModel FineProofs RaceSpec RaceLemmas OrderSpec OrderModel OrderEmb.
From Verif Require MutexSpec MutexModel MutexProofs MutexRaceModel MutexRace FineMutex.
Import ListNotations.

(** ** waiters__ of a condition variable *)
Definition wqs (tr : list oev) (c i : nat) : Prop := exists a, nth_error tr i = Some a /\ touches a (OWq c).
Definition CO (h : option tid) (tr : list oev) (c : nat) : Prop :=
  (h = None -> forall i, wqs tr c i -> carried tr (OCv c) i) /\ (forall t, h = Some t -> forall i, wqs tr c i -> knows tr t i) /\ ordered tr (OWq c).
Lemma wqs_snoc : forall tr e c i, ~ touches e (OWq c) -> wqs (tr ++ [e]) c i -> wqs tr c i.
Proof. intros tr e c i N (a&H&T). apply nth_snoc in H as [(_&H)|(_&->)]; [exists a; auto|tauto]. Qed.
Lemma co_neutral : forall h tr e c, ~ touches e (OWq c) -> ~ releases e (OCv c) -> CO h tr c -> CO h (tr ++ [e]) c.
Proof.
  intros h tr e c T R (A&B&O). split; [|split].
  - intros H i W. apply carried_more; auto. apply A; auto. eapply wqs_snoc; eauto.
  - intros t H i W. apply knows_more. apply B; auto. eapply wqs_snoc; eauto.
  - apply ordered_snoc; auto. intros i a _ (_&_&X&_). contradiction.
Qed.
Lemma co_fail : forall h tr u c, h <> None -> CO h tr c -> CO h (tr ++ [mkEv u (KUpd (OCv c))]) c.
Proof.
  intros h tr u c H (A&B&O). assert (T : ~ touches (mkEv u (KUpd (OCv c)) : oev) (OWq c)) by (unfold touches; simpl; intuition discriminate). split; [|split].
  - congruence.
  - intros t E i W. apply knows_more. apply B; auto. eapply wqs_snoc; eauto.
  - apply ordered_snoc; auto. intros i a _ (_&_&X&_). contradiction.
Qed.
Lemma co_take : forall tr t c, CO None tr c -> CO (Some t) (tr ++ [mkEv t (KUpd (OCv c))]) c.
Proof.
  intros tr t c (A&B&O). assert (T : ~ touches (mkEv t (KUpd (OCv c)) : oev) (OWq c)) by (unfold touches; simpl; intuition discriminate). split; [|split].
  - discriminate.
  - intros u E i W. injection E as <-. apply (acquire_knows tr (mkEv t (KUpd (OCv c))) (OCv c)); [now right|]. apply A; auto. eapply wqs_snoc; eauto.
  - apply ordered_snoc; auto. intros i a _ (_&_&X&_). contradiction.
Qed.
Lemma co_use : forall tr t c k, k = KRd (OWq c) \/ k = KWr (OWq c) -> CO (Some t) tr c -> CO (Some t) (tr ++ [mkEv t k]) c.
Proof.
  intros tr t c k K (A&B&O). split; [|split].
  - discriminate.
  - intros u E i (a&H&T). injection E as <-. apply nth_snoc in H as [(_&H)|(->&->)]; [apply knows_more, B; auto; exists a; auto|]. apply (knows_self tr (mkEv t k)).
  - apply ordered_snoc; auto. intros i a N (_&X&_). simpl. apply B; auto. exists a. auto.
Qed.
Lemma co_rel : forall tr t c, CO (Some t) tr c -> CO None (tr ++ [mkEv t (KRel (OCv c))]) c.
Proof.
  intros tr t c (A&B&O). assert (T : ~ touches (mkEv t (KRel (OCv c)) : oev) (OWq c)) by (unfold touches; simpl; intuition discriminate). split; [|split].
  - intros _ i W. apply (release_carried tr (mkEv t (KRel (OCv c))) (OCv c)); [now left|]. simpl. apply B; auto. eapply wqs_snoc; eauto.
  - discriminate.
  - apply ordered_snoc; auto. intros i a _ (_&_&X&_). contradiction.
Qed.
Definition away (c : nat) (k : kind osync oloc) : Prop := k <> KRd (OWq c) /\ k <> KWr (OWq c) /\ k <> KRel (OCv c) /\ k <> KUpd (OCv c).
Lemma co_away : forall ks h tr t c, Forall (away c) ks -> CO h tr c -> CO h (tr ++ obys t ks) c.
Proof.
  induction ks as [|k ks IH]; intros h tr t c F H; [simpl; now rewrite app_nil_r|]. inversion F as [|? ? (K1&K2&K3&K4) Fr]; subst.
  change (obys t (k :: ks)) with ([mkEv t k] ++ obys t ks). rewrite app_assoc. apply IH; auto. apply co_neutral; auto; unfold touches, releases; simpl; tauto.
Qed.
Lemma away_okind : forall ks c, Forall (away c) (map okind ks).
Proof. induction ks as [|k ks IH]; intros c; constructor; auto. destruct k as [[]|[]|[]|[]|[]]; repeat split; discriminate. Qed.
Lemma obys2 : forall (tr : list oev) t a b, tr ++ obys t [a; b] = (tr ++ [mkEv t a]) ++ [mkEv t b].
Proof. intros. rewrite <- app_assoc. reflexivity. Qed.

Local Arguments nth_error : simpl never.
Section Proofs.
  Variables (D Op Res Aux Loc : Type).
  Variable entry : Op -> Loc.
  Variable body : tid -> Loc -> bool -> D -> outcome D Res Aux Loc.
  Notation fst_ := (fst_ D Op Res Aux Loc).
  Notation FI := (@FI D Op Res Aux Loc).
  Notation ost := (ost D Op Res Aux Loc).
  Notation fstep := (fstep entry body).
  Notation ostep := (@ostep D Op Res Aux Loc entry body).

  Ltac aways := repeat (constructor; [repeat split; congruence|]); constructor.
  Lemma co_step : forall (s s' : fst_) t b tr d, FI s -> fstep s (FRun t b) = Some s' -> CO (cvl s d) tr d -> CO (cvl s' d) (tr ++ obys t (feffects s t b)) d.
  Proof.
    intros s s' t b tr d V E H. simpl in E. unfold feffects.
    assert (MU : forall k, (forall f f', k f = Some f' -> cvl f' = cvl f) -> mrun s t b k = Some s' -> cvl s' = cvl s).
    { intros k K X. apply mrun_inv in X as (m&_&[(_&->)|(_&X)]); [reflexivity|]. now apply K in X. }
    pose proof (f_cvl V) as CV.
    destruct (fpcs s t) as [|o c l|o c l|n o sg e|o e|w o c l|o r] eqn:P; simpl in E; try discriminate.
    - apply MU in E; [|intros f f' X; injection X as <-; reflexivity]. rewrite E. apply co_away; auto. apply away_okind.
    - injection E as <-. assert (X : cvl (seg body s t o l b) = cvl s) by (unfold seg; destruct (body t l b (fdat s)); reflexivity). rewrite X. apply co_away; auto. aways.
    - destruct n as [|c|c u|c l|c|c]; simpl in E.
      + destruct sg as [|[c|c] sg].
        * destruct e; simpl in E; [apply mcall_inv in E as (m&_&->)|injection E as <-|apply mcall_inv in E as (m&_&->)]; simpl; rewrite app_nil_r; exact H.
        * unfold take in E. destruct (cvl s c) eqn:C; [discriminate|]. injection E as <-. simpl. destruct (Nat.eq_dec d c) as [-> |N].
          -- rewrite upd_same. apply co_take. now rewrite <- C.
          -- rewrite upd_other by auto. apply (co_away [KUpd (OCv c)]); auto. aways.
        * unfold take in E. destruct (cvl s c) eqn:C; [discriminate|]. injection E as <-. simpl cvl. destruct (Nat.eq_dec d c) as [-> |N].
          -- rewrite upd_same. rewrite obys2. apply co_use; auto. apply co_take. now rewrite <- C.
          -- rewrite upd_other by auto. apply co_away; auto. aways.
      + assert (C : cvl s c = Some t) by (apply CV; rewrite P; reflexivity). assert (X : cvl s' = cvl s) by (destruct (wq s c); injection E as <-; reflexivity). rewrite X.
        destruct (Nat.eq_dec d c) as [-> |N]; [|destruct (wq s c); apply co_away; auto; aways]. rewrite C in H |- *. destruct (wq s c); [apply co_use; auto|]. rewrite obys2. apply co_use; auto. apply co_use; auto.
      + injection E as <-. apply (co_away [KUpd (OSet u)]); auto. aways.
      + assert (C : cvl s c = Some t) by (apply CV; rewrite P; reflexivity). assert (X : cvl s' = cvl s) by (destruct l; injection E as <-; reflexivity). rewrite X.
        destruct (Nat.eq_dec d c) as [-> |N]; [|destruct l; apply co_away; auto; aways]. rewrite C in H |- *. destruct l as [|u l]; [apply co_use; auto|]. rewrite obys2. apply (co_away [KUpd (OSet u)]); [aways|]. apply co_use; auto.
      + assert (C : cvl s c = Some t) by (apply CV; rewrite P; reflexivity). injection E as <-. simpl.
        destruct (Nat.eq_dec d c) as [-> |N]; [|apply (co_away [KWr (OWq c)]); auto; aways]. rewrite C in H |- *. apply co_use; auto.
      + assert (C : cvl s c = Some t) by (apply CV; rewrite P; reflexivity). injection E as <-. simpl.
        destruct (Nat.eq_dec d c) as [-> |N]; [rewrite upd_same; rewrite C in H; now apply co_rel|rewrite upd_other by auto; apply (co_away [KRel (OCv c)]); auto; aways].
    - assert (X : cvl s' = cvl s).
      { revert E. apply MU. intros f f' X. destruct e; [injection X as <-; reflexivity|discriminate|]. apply mcall_inv in X as (m&_&->). reflexivity. }
      rewrite X. apply co_away; auto. apply away_okind.
    - destruct w; simpl in E.
      + unfold take in E. destruct (cvl s c) eqn:C; [discriminate|]. injection E as <-. simpl. destruct (Nat.eq_dec d c) as [-> |N].
        * rewrite upd_same. apply co_take. now rewrite <- C.
        * rewrite upd_other by auto. apply (co_away [KUpd (OCv c)]); auto. aways.
      + assert (C : cvl s c = Some t) by (apply CV; rewrite P; reflexivity). apply mcall_inv in E as (m&_&->). cbn -[obys app].
        destruct (Nat.eq_dec d c) as [-> |N]; [|apply co_away; auto; aways]. rewrite C in H |- *. rewrite obys2. apply co_use; auto. apply co_use; auto.
      + apply MU in E; [|intros f f' X; injection X as <-; reflexivity]. rewrite E. apply co_away; auto. apply away_okind.
      + injection E as <-. apply (co_away [KUpd (OSet t)]); auto. aways.
      + assert (C : cvl s c = Some t) by (apply CV; rewrite P; reflexivity). injection E as <-. simpl.
        destruct (Nat.eq_dec d c) as [-> |N]; [rewrite upd_same; rewrite C in H; now apply co_rel|rewrite upd_other by auto; apply (co_away [KRel (OCv c)]); auto; aways].
      + destruct (ws s t); [|discriminate]. destruct (MutexModel.waiting (mx s) t); [discriminate|]. apply mcall_inv in E as (m&_&->). apply (co_away [KUpd (OSet t)]); auto. aways.
    - injection E as <-. simpl. now rewrite app_nil_r.
  Qed.

  (** ** The mutex *)
  Definition mreach (m : MutexModel.st) (tr : list oev) : Prop := exists ls, run MutexRaceModel.rstep MutexRaceModel.rinit ls = Some (MutexRaceModel.mkR m (proj tr)).
  Lemma mreach_more : forall m tr m' tr' ls, mreach m tr -> run MutexRaceModel.rstep (MutexRaceModel.mkR m (proj tr)) ls = Some (MutexRaceModel.mkR m' (proj tr')) -> mreach m' tr'.
  Proof. intros m tr m' tr' ls (l0&H) X. exists (l0 ++ ls). rewrite run_app, H. exact X. Qed.
  Lemma mreach_call : forall m tr t o m', mreach m tr -> MutexModel.step m (MutexModel.Call t o) = Some m' -> mreach m' tr.
  Proof. intros m tr t o m' H E. apply (mreach_more m tr m' tr [MutexRaceModel.RM (MutexModel.Call t o)]); auto. cbn [run MutexRaceModel.rstep MutexRaceModel.mx MutexRaceModel.trc]. now rewrite E. Qed.
  Lemma mreach_run : forall m tr t b m', mreach m tr -> MutexModel.step m (MutexModel.Run t b) = Some m' -> mreach m' (tr ++ obys t (map okind (MutexRaceModel.effects m t b))).
  Proof.
    intros m tr t b m' H E. eapply (mreach_more m tr m' _ [MutexRaceModel.RM (MutexModel.Run t b)]); auto. cbn [run MutexRaceModel.rstep MutexRaceModel.mx MutexRaceModel.trc]. rewrite E.
    cbn [option_map]. rewrite proj_app, proj_okind. reflexivity.
  Qed.
  Lemma mreach_skip : forall m tr es, proj es = [] -> mreach m tr -> mreach m (tr ++ es).
  Proof. intros m tr es E (ls&H). exists ls. now rewrite proj_app, E, app_nil_r. Qed.
  Lemma mreach_seg : forall m tr t, MutexProofs.NInv m -> FineMutex.link FineMutex.KH m t -> mreach m tr -> mreach m (tr ++ obys t [KRd ODat; KWr ODat]).
  Proof.
    intros m tr t (I&_) (P&O) H. eapply (mreach_more m tr m _ [MutexRaceModel.RUse t false; MutexRaceModel.RUse t true]); auto.
    assert (Hd : MutexSpec.holding (MutexModel.hist m) t = true).
    { rewrite (MutexProofs.i_hold _ I). unfold MutexProofs.holds_exp. rewrite P. now apply MutexProofs.is_owner_true. }
    cbn [run MutexRaceModel.rstep MutexRaceModel.mx MutexRaceModel.trc]. rewrite P, Hd. cbn [run MutexRaceModel.rstep MutexRaceModel.mx MutexRaceModel.trc]. rewrite P, Hd.
    rewrite proj_app. cbn. rewrite <- app_assoc. reflexivity.
  Qed.
  Lemma mx_step : forall (s s' : fst_) t b tr, FI s -> fstep s (FRun t b) = Some s' -> mreach (mx s) tr -> mreach (mx s') (tr ++ obys t (feffects s t b)).
  Proof.
    intros s s' t b tr V E H. simpl in E. unfold feffects. pose proof (f_link V t) as L.
    destruct (fpcs s t) as [|o c l|o c l|n o sg e|o e|w o c l|o r] eqn:P; simpl in E; try discriminate.
    - apply mrun_inv in E as (m&E&[(_&->)|(_&X)]); [|injection X as <-]; now apply mreach_run.
    - injection E as <-. assert (X : mx (seg body s t o l b) = mx s) by (unfold seg; destruct (body t l b (fdat s)); reflexivity). rewrite X.
      apply mreach_seg; auto. apply (f_mx V).
    - destruct n as [|c|c u|c l|c|c]; simpl in E.
      + destruct sg as [|[c|c] sg].
        * rewrite app_nil_r. destruct e; simpl in E; [apply mcall_inv in E as (m&E&->)|injection E as <-; exact H|apply mcall_inv in E as (m&E&->)]; simpl; eapply mreach_call; eauto.
        * unfold take in E. destruct (cvl s c) eqn:C; [discriminate|]. injection E as <-. apply mreach_skip; auto.
        * unfold take in E. destruct (cvl s c) eqn:C; [discriminate|]. injection E as <-. apply mreach_skip; auto.
      + assert (X : mx s' = mx s) by (destruct (wq s c); injection E as <-; reflexivity). rewrite X. apply mreach_skip; auto. destruct (wq s c); reflexivity.
      + injection E as <-. apply mreach_skip; auto.
      + assert (X : mx s' = mx s) by (destruct l; injection E as <-; reflexivity). rewrite X. apply mreach_skip; auto. destruct l; reflexivity.
      + injection E as <-. apply mreach_skip; auto.
      + injection E as <-. apply mreach_skip; auto.
    - apply mrun_inv in E as (m&E&[(_&->)|(_&X)]); [now apply mreach_run|]. destruct e; [injection X as <-; now apply mreach_run|discriminate|].
      apply mcall_inv in X as (m'&X&->). apply (mreach_call m _ t MutexSpec.OLock m'); [now apply mreach_run|exact X].
    - destruct w; simpl in E.
      + unfold take in E. destruct (cvl s c) eqn:C; [discriminate|]. injection E as <-. apply mreach_skip; auto.
      + apply mcall_inv in E as (m&E&->). apply mreach_skip; auto. eapply mreach_call; eauto.
      + apply mrun_inv in E as (m&E&[(_&->)|(_&X)]); [|injection X as <-]; now apply mreach_run.
      + injection E as <-. apply mreach_skip; auto.
      + injection E as <-. apply mreach_skip; auto.
      + destruct (ws s t); [|discriminate]. destruct (MutexModel.waiting (mx s) t); [discriminate|]. apply mcall_inv in E as (m&E&->). apply mreach_skip; auto. eapply mreach_call; eauto.
    - injection E as <-. rewrite app_nil_r. exact H.
  Qed.

  (** ** The history *)
  Definition seg_ev (e : LinSpec.ev Op Res Aux) : Prop := match e with ELin _ _ _ | EAux _ _ => True | _ => False end.
  Definition who (e : LinSpec.ev Op Res Aux) : tid := match e with ECall t _ | ELin t _ _ | ERet t _ _ | EAux t _ => t end.
  Definition pend (p : fpc Op Res Loc) : option (Op * Res) :=
    match p with FDone o r | FN _ o _ (ERe r) | FUn o (ERe r) => Some (o, r) | _ => None end.
  Lemma log_aux_map : forall (xs : list Aux) t (h : list (LinSpec.ev Op Res Aux)), log_aux t xs h = rev (map (EAux t) xs) ++ h.
  Proof.
    induction xs as [|x xs IH]; intros t h; [reflexivity|]. simpl. change (fold_left (fun h x => EAux t x :: h) xs (EAux t x :: h)) with (log_aux t xs (EAux t x :: h)).
    rewrite IH. now rewrite <- app_assoc.
  Qed.
  (** What a step adds: a call; a return; in a segment what t does there; nothing. *)
  Lemma fh_step : forall (s s' : fst_) t b, fstep s (FRun t b) = Some s' ->
    exists new, fhist s' = new ++ fhist s /\
      ((exists o r, fpcs s t = FDone o r /\ new = [ERet t o r]) \/
       (feffects s t b = [KRd ODat; KWr ODat] /\ (forall e, In e new -> seg_ev e /\ who e = t)) \/ new = []) /\
      (forall u o r, pend (fpcs s' u) = Some (o, r) -> pend (fpcs s u) = Some (o, r) \/ u = t /\ In (ELin t o r) new).
  Proof.
    intros s s' t b E. simpl in E. unfold feffects.
    assert (ST : forall p, fhist s' = fhist s -> fpcs s' = upd (fpcs s) t p -> (forall o r, pend p = Some (o, r) -> pend (fpcs s t) = Some (o, r)) ->
      exists new, fhist s' = new ++ fhist s /\
      ((exists o r, fpcs s t = FDone o r /\ new = [ERet t o r]) \/
       (feffects s t b = [KRd ODat; KWr ODat] /\ (forall e, In e new -> seg_ev e /\ who e = t)) \/ new = []) /\
      (forall u o r, pend (fpcs s' u) = Some (o, r) -> pend (fpcs s u) = Some (o, r) \/ u = t /\ In (ELin t o r) new)).
    { intros p H Q K. exists []. split; [exact H|]. split; [auto|]. intros u o r. rewrite Q. unfold upd. destruct (Nat.eqb_spec u t) as [-> |]; auto. }
    assert (ST0 : fhist s' = fhist s -> fpcs s' = fpcs s ->
      exists new, fhist s' = new ++ fhist s /\
      ((exists o r, fpcs s t = FDone o r /\ new = [ERet t o r]) \/
       (feffects s t b = [KRd ODat; KWr ODat] /\ (forall e, In e new -> seg_ev e /\ who e = t)) \/ new = []) /\
      (forall u o r, pend (fpcs s' u) = Some (o, r) -> pend (fpcs s u) = Some (o, r) \/ u = t /\ In (ELin t o r) new)).
    { intros H Q. exists []. split; [exact H|]. split; [auto|]. intros u o r. rewrite Q. auto. }
    unfold feffects in ST, ST0.
    destruct (fpcs s t) as [|o c l|o c l|n o sg e|o e|w o c l|o r] eqn:P; simpl in E; try discriminate.
    - apply mrun_inv in E as (m&E&[(_&->)|(_&X)]); [apply ST0; reflexivity|]. injection X as <-. eapply ST; [reflexivity|reflexivity|discriminate].
    - injection E as <-. unfold seg. destruct (body t l b (fdat s)) as [d xs sg r|d xs sg c' l'|d xs sg l'].
      + exists (ELin t o r :: rev (map (EAux t) xs)). simpl. rewrite log_aux_map. split; [reflexivity|]. split.
        * right. left. split; [reflexivity|]. intros e [<-|X]; [now split|]. apply in_rev in X. apply in_map_iff in X as (y&<-&_). now split.
        * intros u o' r'. unfold upd. destruct (Nat.eqb_spec u t) as [-> |]; auto. simpl. intros X. injection X as <- <-. auto.
      + exists (rev (map (EAux t) xs)). simpl. rewrite log_aux_map. split; [reflexivity|]. split.
        * right. left. split; [reflexivity|]. intros e X. apply in_rev in X. apply in_map_iff in X as (y&<-&_). now split.
        * intros u o' r'. unfold upd. destruct (Nat.eqb_spec u t) as [-> |]; auto. discriminate.
      + exists (rev (map (EAux t) xs)). simpl. rewrite log_aux_map. split; [reflexivity|]. split.
        * right. left. split; [reflexivity|]. intros e X. apply in_rev in X. apply in_map_iff in X as (y&<-&_). now split.
        * intros u o' r'. unfold upd. destruct (Nat.eqb_spec u t) as [-> |]; auto. discriminate.
    - destruct n as [|c|c u|c l|c|c]; simpl in E.
      + destruct sg as [|[c|c] sg].
        * destruct e; simpl in E; [apply mcall_inv in E as (m&E&->)|injection E as <-|apply mcall_inv in E as (m&E&->)]; (eapply ST; [reflexivity|reflexivity|now auto]).
        * unfold take in E. destruct (cvl s c) eqn:C; [discriminate|]. injection E as <-. eapply ST; [reflexivity|reflexivity|auto].
        * unfold take in E. destruct (cvl s c) eqn:C; [discriminate|]. injection E as <-. eapply ST; [reflexivity|reflexivity|auto].
      + destruct (wq s c) eqn:W; injection E as <-; (eapply ST; [reflexivity|reflexivity|auto]).
      + injection E as <-. eapply ST; [reflexivity|reflexivity|auto].
      + destruct l; injection E as <-; (eapply ST; [reflexivity|reflexivity|auto]).
      + injection E as <-. eapply ST; [reflexivity|reflexivity|auto].
      + injection E as <-. eapply ST; [reflexivity|reflexivity|auto].
    - apply mrun_inv in E as (m&E&[(_&->)|(_&X)]); [apply ST0; reflexivity|]. destruct e; [injection X as <-|discriminate|apply mcall_inv in X as (m'&X&->)];
        (eapply ST; [reflexivity|reflexivity|simpl; intuition discriminate]).
    - destruct w; simpl in E.
      + unfold take in E. destruct (cvl s c) eqn:C; [discriminate|]. injection E as <-. eapply ST; [reflexivity|reflexivity|discriminate].
      + apply mcall_inv in E as (m&E&->). eapply ST; [reflexivity|reflexivity|discriminate].
      + apply mrun_inv in E as (m&E&[(_&->)|(_&X)]); [apply ST0; reflexivity|]. injection X as <-. eapply ST; [reflexivity|reflexivity|discriminate].
      + injection E as <-. eapply ST; [reflexivity|reflexivity|discriminate].
      + injection E as <-. eapply ST; [reflexivity|reflexivity|discriminate].
      + destruct (ws s t); [|discriminate]. destruct (MutexModel.waiting (mx s) t); [discriminate|]. apply mcall_inv in E as (m&E&->). eapply ST; [reflexivity|reflexivity|discriminate].
    - injection E as <-. exists [ERet t o r]. simpl. split; [reflexivity|]. split; [left; eauto|]. intros u o' r'. unfold upd. destruct (Nat.eqb_spec u t) as [-> |]; auto. discriminate.
  Qed.

  (** ** Together *)
  Definition later (x y : LinSpec.ev Op Res Aux * nat) : Prop :=
    snd y <= snd x /\ (seg_ev (fst x) -> seg_ev (fst y) -> snd x = snd y /\ who (fst x) = who (fst y) \/ S (snd y) < snd x).
  Record OI (s : ost) : Prop := {
    o_fi : FI (fo s);
    o_mx : mreach (mx (fo s)) (trc s);
    o_cv : forall c, CO (cvl (fo s) c) (trc s) c;
    o_hist : map fst (marks s) = fhist (fo s);
    o_pos : forall e p, In (e, p) (marks s) -> p <= length (trc s);
    o_seg : forall e p, In (e, p) (marks s) -> seg_ev e ->
      nth_error (trc s) p = Some (mkEv (who e) (KRd ODat)) /\ nth_error (trc s) (S p) = Some (mkEv (who e) (KWr ODat));
    o_sort : ForallOrdPairs later (marks s);
    o_pend : forall t o r, pend (fpcs (fo s) t) = Some (o, r) -> exists p, In (ELin t o r, p) (marks s);
    o_ret : forall newer t o r q older, marks s = newer ++ (ERet t o r, q) :: older -> exists p, In (ELin t o r, p) older
  }.
  Lemma fop_app : forall (a b : list (LinSpec.ev Op Res Aux * nat)), ForallOrdPairs later a -> ForallOrdPairs later b -> (forall x y, In x a -> In y b -> later x y) -> ForallOrdPairs later (a ++ b).
  Proof.
    induction a as [|x a IH]; intros b A B H; simpl; auto. inversion A as [|? ? Fx Fa]; subst. constructor.
    - apply Forall_forall. intros y Y. apply in_app_iff in Y as [Y|Y]; [rewrite Forall_forall in Fx; auto|]. apply H; auto. now left.
    - apply IH; auto. intros; apply H; auto. now right.
  Qed.
  Lemma fop_same : forall (new : list (LinSpec.ev Op Res Aux)) n t, (forall e, In e new -> who e = t) -> ForallOrdPairs later (map (fun e => (e, n)) new).
  Proof.
    induction new as [|e new IH]; intros n t H; simpl; constructor.
    - apply Forall_forall. intros y Y. apply in_map_iff in Y as (e'&<-&I). split; simpl; auto. intros _ _. left. split; auto. rewrite (H e), (H e'); auto; [now right|now left].
    - apply IH with t. intros; apply H. now right.
  Qed.
  Lemma stamp_new : forall (s : ost) (f : fst_) new, fhist f = new ++ fhist (fo s) -> stamp s f = map (fun e => (e, length (trc s))) new ++ marks s.
  Proof.
    intros s f new H. unfold stamp. rewrite H, app_length. replace (length new + length (fhist (fo s)) - length (fhist (fo s))) with (length new + 0) by lia.
    rewrite firstn_app_2. simpl. now rewrite app_nil_r.
  Qed.
  (** Adding events of one step to the history. *)
  Lemma add_marks : forall (s : ost) f tr' new t, OI s -> FI f -> mreach (mx f) (trc s ++ tr') -> (forall c, CO (cvl f c) (trc s ++ tr') c) -> fhist f = new ++ fhist (fo s) ->
    (forall e, In e new -> who e = t) ->
    (forall e, In e new -> seg_ev e -> exists r, tr' = mkEv t (KRd ODat) :: mkEv t (KWr ODat) :: r) ->
    (forall u o r, pend (fpcs f u) = Some (o, r) -> pend (fpcs (fo s) u) = Some (o, r) \/ u = t /\ In (ELin t o r) new) ->
    (forall o r, In (ERet t o r) new -> new = [ERet t o r] /\ pend (fpcs (fo s) t) = Some (o, r)) ->
    (forall e, In e new -> match e with ERet u _ _ => u = t | _ => True end) ->
    OI (mkO f (trc s ++ tr') (stamp s f)).
  Proof.
    intros s f tr' new t [A B C H P G So Pe Re] V M K E W S Q T U. rewrite (stamp_new _ _ _ E). constructor; simpl; auto.
    - rewrite map_app, map_map, H. simpl. now rewrite map_id.
    - intros e p I. rewrite app_length. apply in_app_iff in I as [I|I]; [apply in_map_iff in I as (e'&X&_); injection X as _ <-; lia|]. pose proof (P e p I). lia.
    - intros e p I Sg. apply in_app_iff in I as [I|I].
      + apply in_map_iff in I as (e'&X&I). injection X as -> <-. destruct (S e I Sg) as (r&->). rewrite (W e I). rewrite !nth_error_app2 by lia.
        rewrite Nat.sub_diag. replace (Datatypes.S (length (trc s)) - length (trc s)) with 1 by lia. auto.
      + destruct (G e p I Sg). split; now apply nth_more.
    - apply fop_app; auto; [now apply fop_same with t|]. intros x y X Y. apply in_map_iff in X as (e&<-&X). destruct y as (e',p'). pose proof (P _ _ Y). split; simpl; auto.
      intros _ Sg. right. destruct (G _ _ Y Sg) as (_&N). assert (Datatypes.S p' < length (trc s)) by (apply nth_error_Some; congruence). lia.
    - intros u o r X. destruct (Q u o r X) as [Y|(->&Y)].
      + destruct (Pe u o r Y) as (p&I). exists p. apply in_app_iff. auto.
      + exists (length (trc s)). apply in_app_iff. left. apply in_map_iff. eauto.
    - intros newer u o r q older X.
      assert (Y : (exists n2, marks s = n2 ++ (ERet u o r, q) :: older) \/ exists n1 n2, map (fun e => (e, length (trc s))) new = n1 ++ (ERet u o r, q) :: n2 /\ older = n2 ++ marks s).
      { clear - X. revert newer X. generalize (map (fun e => (e, length (trc s))) new) as l. induction l as [|x l IH]; intros newer X; simpl in X; [left; eauto|].
        destruct newer as [|y newer]; simpl in X; injection X as -> X.
        - right. exists [], l. auto.
        - destruct (IH newer X) as [Y|(n1&n2&Z1&Z2)]; [auto|]. right. exists (y :: n1), n2. split; auto. simpl. now rewrite Z1. }
      destruct Y as [(n2&Y)|(n1&n2&Y&->)]; [eapply Re; eauto|].
      assert (I : In (ERet u o r) new). { assert (J : In (ERet u o r, q) (map (fun e => (e, length (trc s))) new)) by (rewrite Y; apply in_app_iff; right; now left). apply in_map_iff in J as (e&J&I). now injection J as -> _. }
      pose proof (U _ I) as Hu. simpl in Hu. subst u. destruct (T o r I) as (Z&Pd). destruct (Pe _ _ _ Pd) as (p&I2). exists p. apply in_app_iff. auto.
  Qed.
  Lemma oi_step : forall s l s', OI s -> ostep s l = Some s' -> OI s'.
  Proof.
    intros s [[t o|t b]|t|t x w] s' V E; cbn [OrderModel.ostep] in E.
    - destruct (fstep (fo s) (FCall t o)) as [f|] eqn:F; [|discriminate]. injection E as <-. pose proof (fi_step entry body _ (o_fi _ V) F) as FF. simpl in F.
      destruct (fpcs (fo s) t) eqn:P; try discriminate. apply mcall_inv in F as (m&F&->). rewrite <- (app_nil_r (trc s)) at 1. apply add_marks with (new := [ECall t o]) (t := t); auto.
      + rewrite app_nil_r. eapply mreach_call; [apply (o_mx _ V)|exact F].
      + intros c. rewrite app_nil_r. apply (o_cv _ V).
      + intros e [<-|[]]. reflexivity.
      + intros e [<-|[]] [].
      + intros u o' r. simpl. unfold upd. destruct (Nat.eqb_spec u t) as [-> |]; auto. discriminate.
      + intros o' r [X|[]]. discriminate.
      + intros e [<-|[]]. exact I.
    - destruct (fstep (fo s) (FRun t b)) as [f|] eqn:F; [|discriminate]. injection E as <-. pose proof (fi_step entry body _ (o_fi _ V) F) as FF.
      destruct (fh_step _ _ _ _ F) as (new&H&K&Pd). apply add_marks with (new := new) (t := t); auto.
      + apply mx_step; auto; apply V.
      + intros c. apply co_step with (s := fo s); auto; apply V.
      + intros e I. destruct K as [(o&r&_&->)|[(_&K)| ->]]; [destruct I as [<-|[]]; reflexivity|now apply K|destruct I].
      + intros e I Sg. destruct K as [(o&r&_&->)|[(K&_)| ->]]; [destruct I as [<-|[]]; destruct Sg|rewrite K; exists []; reflexivity|destruct I].
      + intros o r I. destruct K as [(o'&r'&Pc&->)|[(_&K)| ->]]; [|destruct (K _ I) as ([]&_)|destruct I]. destruct I as [X|[]]. injection X as -> ->. rewrite Pc. auto.
      + intros e I. destruct K as [(o'&r'&Pc&->)|[(_&K)| ->]]; [destruct I as [<-|[]]; reflexivity|destruct (K _ I) as (Sg&_); destruct e; auto; destruct Sg|destruct I].
    - destruct (ffails (fo s) t) as [l|] eqn:F; [|discriminate]. injection E as <-. destruct V as [A B C H P G So Pe Re]. constructor; simpl; auto.
      + assert (Z : l = OMu /\ MutexRaceModel.spinning (MutexModel.pcs (mx (fo s)) t) && MutexModel.spin (mx (fo s)) = true \/ exists c, l = OCv c).
        { unfold ffails in F. destruct (fpcs (fo s) t) as [|? ? ?|? ? ?|[] ? [|[] ?] ?|? ?|[] ? ? ?|? ?]; try discriminate;
            try (destruct (MutexRaceModel.spinning _ && _) eqn:Y; [|discriminate]; injection F as <-; now left); destruct (cvl (fo s) c); try discriminate; injection F as <-; right; eauto. }
        destruct Z as [(->&Z)|(c&->)]; [|now apply mreach_skip]. eapply (mreach_more _ _ _ _ [MutexRaceModel.RFail t]); [exact B|]. cbn [run MutexRaceModel.rstep MutexRaceModel.mx MutexRaceModel.trc]. rewrite Z, proj_app. reflexivity.
      + intros c. assert (Z : l = OMu \/ exists d, l = OCv d /\ cvl (fo s) d <> None).
        { unfold ffails in F. destruct (fpcs (fo s) t) as [|? ? ?|? ? ?|[] ? [|[] ?] ?|? ?|[] ? ? ?|? ?]; try discriminate;
            try (destruct (MutexRaceModel.spinning _ && _) eqn:Y; [|discriminate]; injection F as <-; now left); destruct (cvl (fo s) c0) eqn:Y; try discriminate; injection F as <-; right; exists c0; split; auto; congruence. }
        destruct Z as [-> |(d&->&Z)]; [apply (co_away [KUpd OMu]); auto; aways|]. destruct (Nat.eq_dec c d) as [-> |N]; [now apply co_fail|]. apply (co_away [KUpd (OCv d)]); auto. aways.
      + intros e p I. rewrite app_length. pose proof (P e p I). lia.
      + intros e p I Sg. destruct (G e p I Sg). split; now apply nth_more.
    - destruct (fpcs (fo s) t) eqn:Pt; try discriminate. injection E as <-. destruct V as [A B C H P G So Pe Re]. constructor; simpl; auto.
      + apply mreach_skip; auto. destruct w; reflexivity.
      + intros c. apply co_neutral; auto; unfold touches, releases; simpl; destruct w; intuition discriminate.
      + intros e p I. rewrite app_length. pose proof (P e p I). lia.
      + intros e p I Sg. destruct (G e p I Sg). split; now apply nth_more.
  Qed.
  Lemma oi_run : forall d ls s, run ostep (oinit Op Res Aux Loc d) ls = Some s -> OI s.
  Proof.
    intros d ls s. apply (run_inv ostep OI).
    - constructor; simpl; auto; try (intros; contradiction).
      + exact (fi_init Op body d).
      + exists []. reflexivity.
      + intros c. split; [intros _ [|i] (a&X&_); discriminate|split; [discriminate|apply ordered_nil]].
      + constructor.
      + discriminate.
      + intros [|? ?] t o r q older X; discriminate.
    - intros s0 l s1 V E. eapply oi_step; eauto.
  Qed.
  (** The object itself, without the trace. *)
  Lemma ostep_run : forall d ls s, run ostep (oinit Op Res Aux Loc d) ls = Some s -> exists ls', run fstep (finit Op Res Aux Loc d) ls' = Some (fo s).
  Proof.
    intros d ls s. apply (run_inv ostep (fun s => exists ls', run fstep (finit Op Res Aux Loc d) ls' = Some (fo s))).
    - exists []. reflexivity.
    - intros s0 [[t o|t b]|t|t x w] s1 (l0&H) E; cbn [OrderModel.ostep] in E.
      + destruct (fstep (fo s0) (FCall t o)) as [f|] eqn:F; [|discriminate]. injection E as <-. exists (l0 ++ [FCall t o]). rewrite run_app, H. cbn [run]. now rewrite F.
      + destruct (fstep (fo s0) (FRun t b)) as [f|] eqn:F; [|discriminate]. injection E as <-. exists (l0 ++ [FRun t b]). rewrite run_app, H. cbn [run]. now rewrite F.
      + destruct (ffails (fo s0) t); [|discriminate]. injection E as <-. eauto.
      + destruct (fpcs (fo s0) t); try discriminate. injection E as <-. eauto.
  Qed.

  Lemma oi_order : forall s x, OI s -> (forall y, x <> OCl y) -> ordered (trc s) x.
  Proof.
    intros s x V N. destruct (o_mx _ V) as (ls&R). destruct (o_fi _ V) as [(I&Nr) _ _ _ _ _ _].
    assert (M : forall y, ordered (trc s) (oname y)). { intros y. apply ordered_emb. exact (MutexRace.r_ord _ (MutexRace.reach_RI _ _ R Nr) y). }
    destruct x as [| |c| |y]; [exact (M MutexRaceModel.XOwner)|exact (M MutexRaceModel.XQueue)|apply (o_cv _ V c)|exact (M MutexRaceModel.XData)|]. now destruct (N y).
  Qed.
  Lemma fop_split : forall (m : list (LinSpec.ev Op Res Aux * nat)) a x b y c, ForallOrdPairs later m -> m = a ++ x :: b ++ y :: c -> later x y.
  Proof.
    induction m as [|z m IH]; intros a x b y c F E; [destruct a; discriminate|]. inversion F as [|? ? Fz Fm]; subst. destruct a as [|z' a]; simpl in E; injection E as -> E.
    - rewrite Forall_forall in Fz. apply Fz. rewrite E. apply in_app_iff. right. now left.
    - eapply IH; eauto.
  Qed.
  Lemma split_lt : forall (A : Type) (m n1 n2 r1 r2 : list A) x y, m = n1 ++ x :: r1 -> m = n2 ++ y :: r2 -> length r1 < length r2 -> exists b, r2 = b ++ x :: r1.
  Proof.
    induction m as [|z m IH]; intros n1 n2 r1 r2 x y E1 E2 L; [destruct n1; discriminate|]. destruct n2 as [|z2 n2]; simpl in E2; injection E2 as -> E2.
    - destruct n1 as [|z1 n1]; simpl in E1; injection E1 as -> E1; [subst; lia|]. exists n1. congruence.
    - destruct n1 as [|z1 n1]; simpl in E1; injection E1 as -> E1; [|eapply IH; eauto]. assert (Q : length r1 = length (n2 ++ y :: r2)) by congruence. rewrite app_length in Q. simpl in Q. lia.
  Qed.
  (** What was done before an event that is older. *)
  Lemma oi_passes : forall s e1 p1 o1 e2 p2 o2, OI s -> at_ (marks s) e1 p1 o1 -> at_ (marks s) e2 p2 o2 -> length o1 < length o2 -> seg_ev e1 -> seg_ev e2 ->
    passes (trc s) (who e1) p1 (who e2) p2.
  Proof.
    intros s e1 p1 o1 e2 p2 o2 V (n1&r1&E1&->) (n2&r2&E2&->) L S1 S2. rewrite !map_length in L. destruct (split_lt _ _ _ _ _ _ _ _ E1 E2 L) as (b&->).
    destruct (fop_split _ _ _ _ _ _ (o_sort _ V) E2) as (Le&Se). simpl in *. specialize (Se S2 S1).
    assert (I1 : In (e1, p1) (marks s)) by (rewrite E1; apply in_app_iff; right; now left). assert (I2 : In (e2, p2) (marks s)) by (rewrite E2; apply in_app_iff; right; now left).
    destruct (o_seg _ V _ _ I1 S1) as (_&N1). destruct (o_seg _ V _ _ I2 S2) as (N2&_).
    intros i j a b' Li Lj Na Ta Nb Tb. destruct (Nat.eq_dec (who e1) (who e2)) as [Eq|Ne].
    - eapply hb_po; [|exact Na|exact Nb|congruence]. lia.
    - destruct Se as [(_&Se)|Se]; [congruence|].
      assert (X : hb (trc s) (S p1) p2).
      { apply (oi_order s ODat V ltac:(discriminate) (S p1) p2 _ _ Se N1 N2). split; [exact Ne|]. split; [now right|]. split; [now left|]. now left. }
      assert (Y : hb (trc s) i (S p1)) by (eapply hb_po; [|exact Na|exact N1|exact Ta]; lia).
      assert (Z : hb (trc s) i p2) by (eapply hb_tr; eauto).
      destruct (Nat.eq_dec j p2) as [-> |Nj]; [exact Z|]. eapply hb_tr; [exact Z|]. eapply hb_po; [|exact N2|exact Nb|symmetry; exact Tb]. lia.
  Qed.
  Lemma at_hist : forall s e p older, OI s -> at_ (marks s) e p older -> exists newer, fhist (fo s) = newer ++ e :: older.
  Proof. intros s e p older V (n&r&E&->). exists (map fst n). rewrite <- (o_hist _ V), E, map_app. reflexivity. Qed.
  Lemma in_at : forall (m : list (LinSpec.ev Op Res Aux * nat)) e p, In (e, p) m -> exists older, at_ m e p older.
  Proof. intros m e p I. apply in_split in I as (a&b&->). exists (map fst b), a, b. auto. Qed.
  Lemma at_in : forall (m : list (LinSpec.ev Op Res Aux * nat)) e p o, at_ m e p o -> In (e, p) m.
  Proof. intros m e p o (a&b&->&_). apply in_app_iff. right. now left. Qed.
  (** A return comes after the effect. *)
  Lemma oi_return : forall s t o r q older, OI s -> at_ (marks s) (ERet t o r) q older -> exists p older', at_ (marks s) (ELin t o r) p older' /\ p <= q /\ length older' < length older.
  Proof.
    intros s t o r q older V (n&rest&E&->). destruct (o_ret _ V _ _ _ _ _ _ E) as (p&I). apply in_split in I as (a&b&->). exists p, (map fst b). split; [|split].
    - exists (n ++ (ERet t o r, q) :: a), b. split; auto. rewrite E, <- app_assoc. reflexivity.
    - apply (fop_split _ _ _ _ _ _ (o_sort _ V) E).
    - rewrite map_app, app_length. simpl. rewrite !map_length. lia.
  Qed.
  Lemma passes_later : forall (tr : list oev) t p u q q', passes tr t p u q -> q <= q' -> passes tr t p u q'.
  Proof. intros tr t p u q q' H L i j a b Li Lj. apply H; auto. lia. Qed.
  (** Of two events in a history one is older. *)
  Lemma at_cmp : forall (m : list (LinSpec.ev Op Res Aux * nat)) e1 p1 o1 e2 p2 o2, at_ m e1 p1 o1 -> at_ m e2 p2 o2 ->
    length o1 < length o2 \/ (e1 = e2 /\ p1 = p2 /\ o1 = o2) \/ exists b, o1 = b ++ e2 :: o2.
  Proof.
    intros m e1 p1 o1 e2 p2 o2 (n1&r1&E1&->) (n2&r2&E2&->). rewrite !map_length. destruct (Nat.lt_trichotomy (length r1) (length r2)) as [L|[L|L]]; auto.
    - right. left. rewrite E1 in E2. clear E1. revert n2 E2. induction n1 as [|x n1 IH]; intros [|y n2] E; simpl in E.
      + injection E as -> -> ->. auto.
      + injection E as _ E. rewrite E, app_length in L. simpl in L. lia.
      + injection E as _ E. rewrite <- E, app_length in L. simpl in L. lia.
      + injection E as _ E. eauto.
    - right. right. destruct (split_lt _ _ _ _ _ _ _ _ E2 E1 L) as (b&->). exists (map fst b). rewrite map_app. reflexivity.
  Qed.
End Proofs.
