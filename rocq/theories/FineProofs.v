(** Proofs for FineModel.v: the simulation by Monitor.v. *)
From Coq Require Import List Arith Bool Lia.
From Verif Require Import Base LinSpec LinLemmas Monitor MonitorProofs FineModel.
From Verif Require MutexSpec MutexModel MutexProofs FineMutex.
Import ListNotations.
Set Implicit Arguments.

Section FP.
  Variables (D Op Res Aux Loc : Type).
  Variable entry : Op -> Loc.
  Variable body : tid -> Loc -> bool -> D -> outcome D Res Aux Loc.
  Notation fst_ := (fst_ D Op Res Aux Loc).
  Notation fpc := (fpc Op Res Loc).
  Notation fstep := (fstep entry body).
  Notation mst := (mst D Op Res Aux Loc).
  Notation link := FineMutex.link.
  Definition teq {A : Type} (_ _ : A) : bool := true.
  Lemma teq_refl : forall (A : Type) (o : A), teq o o = true. Proof. reflexivity. Qed.
  Notation WF := (@WF D Op Res Aux Loc teq teq).

  Definition cls (p : fpc) : FineMutex.cls :=
    match p with
    | FOut | FDone _ _ | FW W4 _ _ _ | FW W5 _ _ _ | FW W6 _ _ _ => FineMutex.KN
    | FLck _ _ _ => FineMutex.KL
    | FSeg _ _ _ | FN _ _ _ _ | FW W1 _ _ _ | FW W2 _ _ _ => FineMutex.KH
    | FUn _ _ | FW W3 _ _ _ => FineMutex.KU
    end.
  (** The cv_lock__ a coroutine holds. *)
  Definition holdc (p : fpc) : option nat :=
    match p with
    | FN (N2 c) _ _ _ | FN (N3 c _) _ _ _ | FN (A2 c _) _ _ _ | FN (A3 c) _ _ _ | FN (N4 c) _ _ _
    | FW W2 _ c _ | FW W3 _ c _ | FW W4 _ c _ | FW W5 _ c _ => Some c
    | _ => None
    end.
  (** The waiters that nobody has woken yet: of the holder of cv_lock__ and waiters__. *)
  Definition pqp (p : fpc) (q : list tid) : list tid :=
    match p with FN (A2 _ l) _ _ _ => l | FN (A3 _) _ _ _ => [] | FN (N3 _ u) _ _ _ => u :: q | _ => q end.
  Definition pq (s : fst_) (c : nat) : list tid := match cvl s c with Some h => pqp (fpcs s h) (wq s c) | None => wq s c end.
  Definition inw (p : fpc) (w : list nat) (c : nat) : Prop :=
    match p with
    | FW W3 _ d _ | FW W4 _ d _ | FW W5 _ d _ => d = c
    | FW W6 _ d _ => d = c /\ w = [c]
    | _ => False
    end.
  Definition wsok (p : fpc) (w : list nat) : Prop :=
    match p with FW W5 _ c _ => w = [c] | FW W6 _ c _ => w = [] \/ w = [c] | _ => w = [] end.

  Record FI (s : fst_) : Prop := {
    f_mx : MutexProofs.NInv (mx s);
    f_link : forall t, link (cls (fpcs s t)) (mx s) t;
    f_cvl : forall c t, cvl s c = Some t <-> holdc (fpcs s t) = Some c;
    f_un : forall t o c l, fpcs s t <> FUn o (EWa c l);
    f_ws : forall t, wsok (fpcs s t) (ws s t);
    f_nd : forall c, NoDup (pq s c);
    f_pq : forall c t, In t (pq s c) <-> inw (fpcs s t) (ws s t) c
  }.

  Lemma fi_init : forall d, FI (finit Op Res Aux Loc d).
  Proof.
    intros d. constructor; simpl; intros; try discriminate; auto.
    - split; [exact MutexProofs.inv_init|exact I].
    - split; [reflexivity|discriminate].
    - split; intros H; discriminate H.
    - constructor.
    - unfold pq. simpl. tauto.
  Qed.

  (** A step of t that changes only its place and the mutex. *)
  Lemma fi_plain : forall (s s' : fst_) t p, FI s ->
    fpcs s' = upd (fpcs s) t p -> cvl s' = cvl s -> wq s' = wq s -> ws s' = ws s ->
    MutexProofs.NInv (mx s') -> link (cls p) (mx s') t -> (forall u, u <> t -> link (cls (fpcs s u)) (mx s) u -> link (cls (fpcs s u)) (mx s') u) ->
    holdc p = holdc (fpcs s t) -> (forall q, holdc p <> None -> pqp p q = pqp (fpcs s t) q) -> (forall o c l, p <> FUn o (EWa c l)) -> wsok p (ws s t) ->
    (forall c, inw p (ws s t) c <-> inw (fpcs s t) (ws s t) c) -> FI s'.
  Proof.
    intros s s' t p V P C Q W M L LO H PQ NU WS IW.
    assert (PE : forall c, pq s' c = pq s c).
    { intros c. unfold pq. rewrite C, P, Q. destruct (cvl s c) as [h|] eqn:X; auto.
      destruct (Nat.eq_dec h t) as [->|N]; [|now rewrite upd_other]. rewrite upd_same. apply PQ.
      rewrite H. apply (f_cvl V) in X. congruence. }
    constructor; auto; rewrite ?P, ?C, ?W.
    - intros u. destruct (Nat.eq_dec u t) as [->|N]; [now rewrite upd_same|]. rewrite upd_other by auto. apply LO; auto. apply (f_link V).
    - intros c u. rewrite (f_cvl V). destruct (Nat.eq_dec u t) as [->|N]; [now rewrite upd_same, H|]. now rewrite upd_other.
    - intros u. destruct (Nat.eq_dec u t) as [->|N]; [rewrite upd_same; auto|]. rewrite upd_other by auto. apply (f_un V).
    - intros u. destruct (Nat.eq_dec u t) as [->|N]; [now rewrite upd_same|]. rewrite upd_other by auto. apply (f_ws V).
    - intros c. rewrite PE. apply (f_nd V).
    - intros c u. rewrite PE, (f_pq V). destruct (Nat.eq_dec u t) as [->|N]; [now rewrite upd_same, IW|]. now rewrite upd_other.
  Qed.

  (** Steps that change a condition variable, not the mutex. *)
  Lemma fi_cv : forall (s s' : fst_) t p, FI s ->
    fpcs s' = upd (fpcs s) t p -> mx s' = mx s -> cls p = cls (fpcs s t) -> (forall o c l, p <> FUn o (EWa c l)) ->
    (forall c u, cvl s' c = Some u <-> holdc (upd (fpcs s) t p u) = Some c) ->
    (forall u, wsok (upd (fpcs s) t p u) (ws s' u)) -> (forall c, NoDup (pq s' c)) ->
    (forall c u, In u (pq s' c) <-> inw (upd (fpcs s) t p u) (ws s' u) c) -> FI s'.
  Proof.
    intros s s' t p V P M K NU C W ND PQ. constructor; rewrite ?P, ?M; auto; try apply V.
    - intros u. destruct (Nat.eq_dec u t) as [->|N]; [rewrite upd_same, K|rewrite upd_other by auto]; apply (f_link V).
    - intros u. destruct (Nat.eq_dec u t) as [->|N]; [rewrite upd_same; auto|]. rewrite upd_other by auto. apply (f_un V).
  Qed.

  Lemma hold_uniq : forall s, FI s -> forall t u c, holdc (fpcs s t) = Some c -> holdc (fpcs s u) = Some c -> t = u.
  Proof. intros s V t u c A B. apply (f_cvl V) in A. apply (f_cvl V) in B. congruence. Qed.

  (** cv_lock__ of c is taken. *)
  Lemma fi_take : forall (s : fst_) t c p s', FI s -> take s t c p = Some s' -> holdc (fpcs s t) = None -> holdc p = Some c -> cls p = cls (fpcs s t) ->
    (forall o c l, p <> FUn o (EWa c l)) -> pqp p (wq s c) = wq s c -> (forall w, wsok (fpcs s t) w -> wsok p w) ->
    (forall w d, inw p w d <-> inw (fpcs s t) w d) -> FI s'.
  Proof.
    intros s t c p s' V E H0 H1 K NU PQ WS IW. unfold take in E. destruct (cvl s c) eqn:C; [discriminate|]. injection E as <-.
    assert (PE : forall d, pq (setp (setl s c (Some t)) t p) d = pq s d).
    { intros d. unfold pq. simpl. destruct (Nat.eq_dec d c) as [->|N].
      - rewrite upd_same, upd_same, C. auto.
      - rewrite upd_other by auto. destruct (cvl s d) as [h|] eqn:X; auto.
        destruct (Nat.eq_dec h t) as [->|N2]; [|now rewrite upd_other]. apply (f_cvl V) in X. congruence. }
    apply (@fi_cv s _ t p); auto; simpl.
    - intros d u. destruct (Nat.eq_dec d c) as [->|N].
      + rewrite upd_same. destruct (Nat.eq_dec u t) as [->|N]; [rewrite upd_same; tauto|]. rewrite upd_other by auto. split; [congruence|].
        intros X. apply (f_cvl V) in X. congruence.
      + rewrite upd_other by auto. rewrite (f_cvl V). destruct (Nat.eq_dec u t) as [->|N2]; [rewrite upd_same, H0, H1|now rewrite upd_other by auto].
        split; congruence.
    - intros u. pose proof (f_ws V u). destruct (Nat.eq_dec u t) as [->|N]; [rewrite upd_same; auto|]. now rewrite upd_other.
    - intros d. rewrite PE. apply (f_nd V).
    - intros d u. rewrite PE, (f_pq V). destruct (Nat.eq_dec u t) as [->|N]; [now rewrite upd_same, IW|]. now rewrite upd_other.
  Qed.
  (** cv_lock__ of c is released. *)
  Lemma fi_rel : forall (s : fst_) t c p, FI s -> holdc (fpcs s t) = Some c -> holdc p = None -> cls p = cls (fpcs s t) ->
    (forall o c l, p <> FUn o (EWa c l)) -> pqp (fpcs s t) (wq s c) = wq s c -> wsok p (ws s t) ->
    (forall d, inw p (ws s t) d <-> inw (fpcs s t) (ws s t) d) -> FI (setp (setl s c None) t p).
  Proof.
    intros s t c p V H0 H1 K NU PQ WS IW. pose proof H0 as C. apply (f_cvl V) in C.
    assert (PE : forall d, pq (setp (setl s c None) t p) d = pq s d).
    { intros d. unfold pq. simpl. destruct (Nat.eq_dec d c) as [->|N].
      - rewrite upd_same, C. auto.
      - rewrite upd_other by auto. destruct (cvl s d) as [h|] eqn:X; auto.
        destruct (Nat.eq_dec h t) as [->|N2]; [|now rewrite upd_other]. apply (f_cvl V) in X. congruence. }
    apply (@fi_cv s _ t p); auto; simpl.
    - intros d u. destruct (Nat.eq_dec d c) as [->|N].
      + rewrite upd_same. destruct (Nat.eq_dec u t) as [->|N]; [rewrite upd_same; split; congruence|]. rewrite upd_other by auto. split; [congruence|].
        intros X. destruct N. eapply hold_uniq; eauto.
      + rewrite upd_other by auto. rewrite (f_cvl V). destruct (Nat.eq_dec u t) as [->|N2]; [rewrite upd_same|now rewrite upd_other by auto].
        split; congruence.
    - intros u. pose proof (f_ws V u). destruct (Nat.eq_dec u t) as [->|N]; [rewrite upd_same; auto|]. now rewrite upd_other.
    - intros d. rewrite PE. apply (f_nd V).
    - intros d u. rewrite PE, (f_pq V). destruct (Nat.eq_dec u t) as [->|N]; [now rewrite upd_same, IW|]. now rewrite upd_other.
  Qed.
  (** The holder t of cv_lock__ of c wakes u. *)
  Lemma fi_leave : forall (s : fst_) t u c p, FI s -> holdc (fpcs s t) = Some c -> holdc p = Some c -> cls p = FineMutex.KH -> cls (fpcs s t) = FineMutex.KH ->
    pqp (fpcs s t) (wq s c) = u :: pqp p (wq s c) -> wsok p (ws s t) -> (forall w d, inw p w d <-> inw (fpcs s t) w d) -> (forall w d, ~ inw p w d) ->
    FI (setp (leave s u c) t p).
  Proof.
    intros s t u c p V H0 H1 K0 K1 PQ WS IW NI. pose proof H0 as C. apply (f_cvl V) in C.
    assert (PC : pq s c = u :: pqp p (wq s c)) by (unfold pq; now rewrite C).
    assert (PE : forall d, pq (setp (leave s u c) t p) d = if Nat.eq_dec d c then pqp p (wq s c) else pq s d).
    { intros d. unfold pq. simpl. destruct (Nat.eq_dec d c) as [->|N].
      - rewrite C, upd_same. reflexivity.
      - destruct (cvl s d) as [h|] eqn:X; auto.
        destruct (Nat.eq_dec h t) as [->|N2]; [|now rewrite upd_other]. apply (f_cvl V) in X. congruence. }
    assert (UT : u <> t). { intros ->. apply (NI (ws s t) c). apply IW. apply (f_pq V). rewrite PC. now left. }
    assert (U : exists o l, fpcs s u = FW W6 o c l /\ ws s u = [c]).
    { assert (X : inw (fpcs s u) (ws s u) c) by (apply (f_pq V); rewrite PC; now left).
      assert (Y : holdc (fpcs s u) <> Some c) by (intros Y; apply UT; eapply hold_uniq; eauto).
      destruct (fpcs s u) as [| | | | |[] o d l|]; simpl in X; try contradiction; try (subst d; simpl in Y; congruence).
      destruct X as [-> X]. eauto. }
    destruct U as (o&l&U&UW). pose proof (f_nd V c) as ND. rewrite PC in ND. inversion ND as [|? ? N1 N2]; subst.
    assert (FL : filter (fun x => negb (c =? x)) (ws s u) = []) by (rewrite UW; simpl; now rewrite Nat.eqb_refl).
    apply (@fi_cv s _ t p); auto; simpl.
    - congruence.
    - intros ? ? ? ->. discriminate.
    - intros d v. rewrite (f_cvl V). destruct (Nat.eq_dec v t) as [->|N]; [now rewrite upd_same, H0, H1|]. now rewrite upd_other.
    - intros v. pose proof (f_ws V v). destruct (Nat.eq_dec v t) as [->|N].
      + rewrite upd_same, (upd_other (ws s)) by auto. auto.
      + rewrite upd_other by auto. destruct (Nat.eq_dec v u) as [->|N3]; [|now rewrite upd_other]. rewrite upd_same, FL, U. simpl. auto.
    - intros d. rewrite PE. destruct (Nat.eq_dec d c); auto. apply (f_nd V).
    - intros d v. rewrite PE. destruct (Nat.eq_dec v u) as [->|N3].
      + rewrite upd_same, FL, upd_other, U by auto. simpl. destruct (Nat.eq_dec d c) as [->|N4]; [split; [tauto|intros [_ X]; discriminate]|].
        rewrite (f_pq V), U. simpl. split; [intros [-> _]; congruence|intros [_ X]; discriminate].
      + rewrite (upd_other (ws s)) by auto. transitivity (In v (pq s d)).
        * destruct (Nat.eq_dec d c) as [->|]; [|tauto]. rewrite PC. simpl. intuition congruence.
        * rewrite (f_pq V). destruct (Nat.eq_dec v t) as [->|N]; [now rewrite upd_same, IW|]. now rewrite upd_other.
  Qed.

  Lemma mcall_inv : forall (s : fst_) t o p s', mcall s t o p = Some s' ->
    exists m, MutexModel.step (mx s) (MutexModel.Call t o) = Some m /\ s' = setp (setm s m) t p.
  Proof. intros s t o p s' E. unfold mcall in E. destruct (MutexModel.step _ _); [|discriminate]. injection E as <-. eauto. Qed.
  Lemma mrun_inv : forall (s : fst_) t b k s', mrun s t b k = Some s' ->
    exists m, MutexModel.step (mx s) (MutexModel.Run t b) = Some m /\
      ((MutexModel.pcs m t <> MutexModel.Idle /\ s' = setm s m) \/ (MutexModel.pcs m t = MutexModel.Idle /\ k (setm s m) = Some s')).
  Proof.
    intros s t b k s' E. unfold mrun in E. match type of E with (if ?x then _ else _) = _ => destruct x; [|discriminate] end.
    destruct (MutexModel.step _ _) as [m|]; [|discriminate]. exists m. split; auto.
    destruct (MutexModel.pcs m t) eqn:X; try (injection E as <-; left; split; [congruence|reflexivity]). right. auto.
  Qed.

  Lemma upd_id : forall (A : Type) (f : nat -> A) t u, upd f t (f t) u = f u.
  Proof. intros A f t u. unfold upd. destruct (Nat.eqb_spec u t) as [->|]; auto. Qed.

  (** A step inside a method of the mutex. *)
  Lemma fi_mut : forall (s : fst_) t b m, FI s -> MutexModel.step (mx s) (MutexModel.Run t b) = Some m -> (cls (fpcs s t) = FineMutex.KL \/ cls (fpcs s t) = FineMutex.KU) ->
    MutexProofs.NInv m /\ (forall u k, u <> t -> link k (mx s) u -> link k m u) /\
    (if match MutexModel.pcs m t with MutexModel.Idle => true | _ => false end
     then link (match cls (fpcs s t) with FineMutex.KL => FineMutex.KH | _ => FineMutex.KN end) m t else link (cls (fpcs s t)) m t).
  Proof.
    intros s t b m V E K. pose proof (f_link V t) as L. split; [eapply FineMutex.step_ninv; eauto; apply V|]. split.
    - intros u k N X. eapply FineMutex.step_other; eauto; [apply V|]. destruct K as [K|K]; rewrite K in L; auto.
    - destruct K as [K|K]; rewrite K in *; [eapply FineMutex.step_lock|eapply FineMutex.step_unlock]; eauto; apply V.
  Qed.
  (** A step inside that does not return. *)
  Lemma fi_mut_in : forall (s : fst_) t b m, FI s -> MutexModel.step (mx s) (MutexModel.Run t b) = Some m -> (cls (fpcs s t) = FineMutex.KL \/ cls (fpcs s t) = FineMutex.KU) ->
    MutexModel.pcs m t <> MutexModel.Idle -> FI (setm s m).
  Proof.
    intros s t b m V E K N. destruct (fi_mut _ _ V E K) as (NI&LO&L).
    assert (L' : link (cls (fpcs s t)) m t) by (destruct (MutexModel.pcs m t); auto; congruence).
    constructor; simpl; auto; try apply V.
    intros u. destruct (Nat.eq_dec u t) as [->|X]; auto. apply LO; auto. apply (f_link V).
  Qed.
  (** A step that ends the call of the mutex. *)
  Lemma fi_mut_out : forall (s : fst_) t b m p, FI s -> MutexModel.step (mx s) (MutexModel.Run t b) = Some m -> (cls (fpcs s t) = FineMutex.KL \/ cls (fpcs s t) = FineMutex.KU) ->
    MutexModel.pcs m t = MutexModel.Idle -> cls p = match cls (fpcs s t) with FineMutex.KL => FineMutex.KH | _ => FineMutex.KN end ->
    holdc p = holdc (fpcs s t) -> (forall q, holdc p <> None -> pqp p q = pqp (fpcs s t) q) -> (forall o c l, p <> FUn o (EWa c l)) -> wsok p (ws s t) ->
    (forall c, inw p (ws s t) c <-> inw (fpcs s t) (ws s t) c) -> FI (setp (setm s m) t p).
  Proof.
    intros s t b m p V E K N CP H PQ NU WS IW. destruct (fi_mut _ _ V E K) as (NI&LO&L). rewrite N in L.
    apply (@fi_plain s _ t p); simpl; auto. rewrite CP. auto.
  Qed.
  (** A call of the mutex. *)
  Lemma fi_call : forall (s : fst_) t (o : MutexSpec.mop) m p, FI s -> MutexModel.step (mx s) (MutexModel.Call t o) = Some m ->
    (o = MutexSpec.OLock /\ cls (fpcs s t) = FineMutex.KN /\ cls p = FineMutex.KL \/ o = MutexSpec.OUnlock /\ cls (fpcs s t) = FineMutex.KH /\ cls p = FineMutex.KU) ->
    holdc p = holdc (fpcs s t) -> (forall q, holdc p <> None -> pqp p q = pqp (fpcs s t) q) -> (forall o c l, p <> FUn o (EWa c l)) -> wsok p (ws s t) ->
    (forall c, inw p (ws s t) c <-> inw (fpcs s t) (ws s t) c) -> FI (setp (setm s m) t p).
  Proof.
    intros s t o m p V E K H PQ NU WS IW. pose proof (f_link V t) as L.
    assert (X : MutexProofs.NInv m /\ link (cls p) m t).
    { destruct K as [(->&K1&K2)|(->&K1&K2)]; rewrite K1 in L; rewrite K2.
      - destruct (FineMutex.call_lock _ _ (f_mx V) L) as (m'&A&B&C). rewrite E in A. injection A as <-. auto.
      - destruct (FineMutex.call_unlock _ _ (f_mx V) L) as (m'&A&B&C). rewrite E in A. injection A as <-. auto. }
    destruct X as [X Y]. apply (@fi_plain s _ t p); simpl; auto. intros u N Z. eapply FineMutex.call_other; eauto.
  Qed.
  Lemma fi_log : forall (s : fst_) h, FI s -> FI (logf s h).
  Proof. intros s h []. constructor; auto. Qed.
  Lemma fi_dat : forall (s : fst_) d cs h, FI s -> cs = fpcs s -> FI (mkF (mx s) d (cvl s) (wq s) (ws s) cs h).
  Proof. intros s d cs h [] ->. constructor; auto. Qed.

  (** The holder t of cv_lock__ of c changes waiters__, not the set of those not woken. *)
  Lemma fi_setq : forall (s : fst_) t c q p, FI s -> holdc (fpcs s t) = Some c -> holdc p = Some c -> cls p = cls (fpcs s t) ->
    (forall o c l, p <> FUn o (EWa c l)) -> pqp p q = pqp (fpcs s t) (wq s c) -> (forall w, wsok (fpcs s t) w -> wsok p w) ->
    (forall w d, inw p w d <-> inw (fpcs s t) w d) -> FI (setp (setq s c q) t p).
  Proof.
    intros s t c q p V H0 H1 K NU PQ WS IW. pose proof H0 as C. apply (f_cvl V) in C.
    assert (PE : forall d, pq (setp (setq s c q) t p) d = pq s d).
    { intros d. unfold pq. simpl. destruct (Nat.eq_dec d c) as [->|N].
      - rewrite C, !upd_same. auto.
      - rewrite (upd_other (wq s)) by auto. destruct (cvl s d) as [h|] eqn:X; auto.
        destruct (Nat.eq_dec h t) as [->|N2]; [|now rewrite upd_other]. apply (f_cvl V) in X. congruence. }
    apply (@fi_cv s _ t p); auto; simpl.
    - intros d u. rewrite (f_cvl V). destruct (Nat.eq_dec u t) as [->|N2]; [now rewrite upd_same, H0, H1|now rewrite upd_other by auto].
    - intros u. pose proof (f_ws V u). destruct (Nat.eq_dec u t) as [->|N]; [rewrite upd_same; auto|]. now rewrite upd_other.
    - intros d. rewrite PE. apply (f_nd V).
    - intros d u. rewrite PE, (f_pq V). destruct (Nat.eq_dec u t) as [->|N]; [now rewrite upd_same, IW|]. now rewrite upd_other.
  Qed.
  Lemma fi_ext : forall (s s' : fst_), FI s -> mx s' = mx s -> (forall c, cvl s' c = cvl s c) -> (forall c, wq s' c = wq s c) ->
    (forall t, ws s' t = ws s t) -> (forall t, fpcs s' t = fpcs s t) -> FI s'.
  Proof.
    intros s s' V M C Q W P.
    assert (PE : forall d, pq s' d = pq s d). { intros d. unfold pq. rewrite C, Q. destruct (cvl s d); rewrite ?P; auto. }
    constructor; rewrite ?M; try apply V; intros; rewrite ?P, ?C, ?W, ?PE; try apply V.
  Qed.
  (** wait, line 61 and the call of unlock in line 62. *)
  Lemma fi_push : forall (s : fst_) t o c l m, FI s -> fpcs s t = FW W2 o c l -> MutexModel.step (mx s) (MutexModel.Call t MutexSpec.OUnlock) = Some m ->
    FI (setp (setm (setq s c (wq s c ++ [t])) m) t (FW W3 o c l)).
  Proof.
    intros s t o c l m V P E. pose proof (f_link V t) as L. rewrite P in L. simpl cls in L.
    destruct (FineMutex.call_unlock _ _ (f_mx V) L) as (m'&A&B&X). rewrite E in A. injection A as <-.
    assert (C : cvl s c = Some t) by (apply (f_cvl V); now rewrite P).
    assert (PC : pq s c = wq s c) by (unfold pq; now rewrite C, P).
    assert (NI : forall d, ~ In t (pq s d)). { intros d Y. apply (f_pq V) in Y. rewrite P in Y. destruct Y. }
    assert (PE : forall d, pq (setp (setm (setq s c (wq s c ++ [t])) m) t (FW W3 o c l)) d = if Nat.eq_dec d c then pq s c ++ [t] else pq s d).
    { intros d. unfold pq at 1. simpl. destruct (Nat.eq_dec d c) as [->|N].
      - now rewrite C, !upd_same, PC.
      - unfold pq. destruct (cvl s d) as [h|] eqn:Z; auto; rewrite (upd_other (wq s)) by auto; auto.
        destruct (Nat.eq_dec h t) as [->|N2]; [|now rewrite upd_other]. apply (f_cvl V) in Z. rewrite P in Z. simpl in Z. congruence. }
    constructor; simpl; auto.
    - intros u. destruct (Nat.eq_dec u t) as [->|N]; [now rewrite upd_same|]. rewrite upd_other by auto.
      eapply FineMutex.call_other; eauto. apply (f_link V).
    - intros d u. rewrite (f_cvl V). destruct (Nat.eq_dec u t) as [->|N]; [rewrite upd_same, P; tauto|]. now rewrite upd_other.
    - intros u. destruct (Nat.eq_dec u t) as [->|N]; [rewrite upd_same; discriminate|]. rewrite upd_other by auto. apply (f_un V).
    - intros u. pose proof (f_ws V u) as W. destruct (Nat.eq_dec u t) as [->|N]; [rewrite upd_same; now rewrite P in W|]. rewrite upd_other by auto. auto.
    - intros d. rewrite PE. destruct (Nat.eq_dec d c) as [->|]; [|apply V]. apply NoDup_snoc; auto. apply V.
    - intros d u. rewrite PE. destruct (Nat.eq_dec u t) as [->|N].
      + rewrite upd_same. simpl. destruct (Nat.eq_dec d c) as [->|N]; [rewrite in_app_iff; simpl; tauto|].
        split; [intros Y; destruct (NI d Y)|intros ->; congruence].
      + rewrite upd_other, <- (f_pq V) by auto. destruct (Nat.eq_dec d c) as [->|]; [|tauto]. rewrite in_app_iff. simpl. intuition congruence.
  Qed.
  (** wait, line 63. *)
  Lemma fi_enter : forall (s : fst_) t o c l, FI s -> fpcs s t = FW W4 o c l -> FI (setp (enter s t c) t (FW W5 o c l)).
  Proof.
    intros s t o c l V P. pose proof (f_ws V t) as W. rewrite P in W. simpl in W.
    assert (C : cvl s c = Some t) by (apply (f_cvl V); now rewrite P).
    assert (PE : forall d, pq (setp (enter s t c) t (FW W5 o c l)) d = pq s d).
    { intros d. unfold pq. simpl. destruct (cvl s d) as [h|] eqn:X; auto.
      destruct (Nat.eq_dec h t) as [->|N2]; [rewrite upd_same, P; reflexivity|]. now rewrite upd_other by auto. }
    apply (@fi_cv s _ t (FW W5 o c l)); auto; simpl; try rewrite W; simpl.
    - now rewrite P.
    - discriminate.
    - intros d u. rewrite (f_cvl V). destruct (Nat.eq_dec u t) as [->|N]; [rewrite upd_same, P; tauto|]. now rewrite upd_other.
    - intros u. pose proof (f_ws V u). destruct (Nat.eq_dec u t) as [->|N]; [rewrite !upd_same; reflexivity|]. now rewrite !upd_other by auto.
    - intros d. rewrite PE. apply V.
    - intros d u. rewrite PE, (f_pq V). destruct (Nat.eq_dec u t) as [->|N]; [rewrite !upd_same, P; simpl; tauto|]. now rewrite !upd_other by auto.
  Qed.

  Ltac fine P := simpl; rewrite ?P; simpl; intros; try discriminate; try tauto; auto.

  Lemma fi_step : forall s x s', FI s -> fstep s x = Some s' -> FI s'.
  Proof.
    intros s [t o|t b] s' V E; simpl in E.
    - destruct (fpcs s t) eqn:P; try discriminate. apply mcall_inv in E. destruct E as (m&E&->).
      pose proof (f_ws V t) as W. rewrite P in W. simpl in W.
      apply (@fi_call (logf s (ECall t o :: fhist s)) t MutexSpec.OLock m); auto using fi_log; fine P.
    - pose proof (f_ws V t) as W. destruct (fpcs s t) as [|o c l|o c l|n o sg e|o e|w o c l|o r] eqn:P; try discriminate; simpl in W.
      + apply mrun_inv in E. destruct E as (m&E&[[N ->]|[N E2]]).
        * eapply fi_mut_in; eauto. rewrite P. now left.
        * injection E2 as <-. eapply fi_mut_out; eauto; fine P.
      + injection E as <-.
        assert (X : forall sg e d h, FI (mkF (mx s) d (cvl s) (wq s) (ws s) (upd (fpcs s) t (FN N0 o sg e)) h)).
        { intros sg e d h. pose proof (f_link V t) as L. rewrite P in L.
          apply (@fi_plain s _ t (FN N0 o sg e)); auto; try apply V; fine P; try congruence. }
        unfold seg. destruct (body t l b (fdat s)); apply X.
      + destruct n as [|c|c u|c l|c|c]; simpl in E.
        * destruct sg as [|[c|c] r].
          -- destruct e as [r|c l|l].
             ++ apply mcall_inv in E. destruct E as (m&E&->). eapply fi_call; eauto; fine P.
             ++ injection E as <-. pose proof (f_link V t) as L. rewrite P in L.
                apply (@fi_plain s _ t (FW W1 o c l)); auto; try apply V; fine P; try congruence.
             ++ apply mcall_inv in E. destruct E as (m&E&->). eapply fi_call; eauto; fine P.
          -- eapply fi_take; eauto; fine P.
          -- eapply fi_take; eauto; fine P.
        * destruct (wq s c) as [|u r] eqn:Q; injection E as <-.
          -- pose proof (f_link V t) as L. rewrite P in L. apply (@fi_plain s _ t (FN (N4 c) o sg e)); auto; try apply V; fine P.
          -- eapply fi_setq; fine P.
        * injection E as <-. eapply fi_leave; eauto; fine P.
        * destruct l as [|u l]; injection E as <-.
          -- pose proof (f_link V t) as L. rewrite P in L. apply (@fi_plain s _ t (FN (A3 c) o sg e)); auto; try apply V; fine P.
          -- eapply fi_leave; eauto; fine P.
        * injection E as <-. eapply fi_setq; fine P.
        * injection E as <-. eapply fi_rel; fine P.
      + apply mrun_inv in E. destruct E as (m&E&[[N ->]|[N E2]]).
        * eapply fi_mut_in; eauto. rewrite P. now right.
        * destruct e as [r|c l|l]; [|destruct (f_un V t P)|].
          -- injection E2 as <-. eapply fi_mut_out; eauto; fine P.
          -- assert (V' : FI (setp (setm s m) t FOut)) by (eapply fi_mut_out; eauto; fine P).
             apply mcall_inv in E2. destruct E2 as (m2&E2&->).
             apply fi_ext with (s := setp (setm (setp (setm s m) t FOut) m2) t (FLck o None l)); auto.
             ++ eapply fi_call; eauto; simpl; rewrite ?upd_same; simpl; auto; try discriminate; try tauto.
             ++ intros u. simpl. unfold upd. destruct (Nat.eqb u t); auto.
      + destruct w; simpl in E.
        * eapply fi_take; eauto; fine P.
        * apply mcall_inv in E. destruct E as (m&E&->). eapply fi_push; eauto.
        * apply mrun_inv in E. destruct E as (m&E&[[N ->]|[N E2]]).
          -- eapply fi_mut_in; eauto. rewrite P. now right.
          -- injection E2 as <-. eapply fi_mut_out; eauto; fine P.
        * injection E as <-. now apply fi_enter.
        * injection E as <-. eapply fi_rel; fine P. rewrite W. split; [intros [-> _]|intros ->]; auto.
        * destruct (ws s t) eqn:Q; [|discriminate]. destruct (MutexModel.waiting _ _); [discriminate|].
          apply mcall_inv in E. destruct E as (m&E&->). eapply fi_call; eauto; fine P. split; [tauto|]. intros [_ X]. rewrite Q in X. discriminate.
      + injection E as <-. apply fi_log. pose proof (f_link V t) as L. rewrite P in L. apply (@fi_plain s _ t FOut); auto; try apply V; fine P.
  Qed.

  (** ** Simulation *)

  (** Executing a segment: between its effect on the data and its end. *)
  Definition nonid (p : fpc) : bool := match p with FN _ _ _ _ | FW W1 _ _ _ | FW W2 _ _ _ => true | _ => false end.
  (** What the rest of the segment does to waiters__ of c. *)
  Definition sg1 (c : nat) (l : list tid) (g : sig) : list tid :=
    match g with SOne d => if c =? d then tl l else l | SAll d => if c =? d then [] else l end.
  Definition pn (n : npc) (c : nat) (l : list tid) : list tid :=
    match n with N2 d => if c =? d then tl l else l | A2 d _ | A3 d => if c =? d then [] else l | _ => l end.
  Definition pe (t : tid) (e : fin Res Loc) (c : nat) (l : list tid) : list tid :=
    match e with EWa d _ => if c =? d then l ++ [t] else l | _ => l end.
  Definition papp (t : tid) (p : fpc) (c : nat) (l : list tid) : list tid :=
    match p with
    | FN n _ sg e => pe t e c (fold_left (sg1 c) sg (pn n c l))
    | FW W1 _ d _ | FW W2 _ d _ => if c =? d then l ++ [t] else l
    | _ => l
    end.
  Definition trel (p : fpc) (y : tst Op Res Loc) : Prop :=
    match p with
    | FOut => y = TOut
    | FLck o None l | FSeg o None l => y = TReady o l
    | FLck o (Some c) l | FSeg o (Some c) l => y = TWoken c o l
    | FN _ o _ (ERe r) | FUn o (ERe r) => y = TDone o r
    | FN _ o _ (EAg l) | FUn o (EAg l) => y = TReady o l
    | FN _ o _ (EWa c l) | FUn o (EWa c l) => y = TWait c o l
    | FW W1 o c l | FW W2 o c l => y = TWait c o l
    | FW _ o c l => y = TWait c o l \/ y = TWoken c o l
    | FDone o r => y = TDone o r
    end.
  Record R (s : fst_) (a : mst) : Prop := {
    r_wf : WF a;
    r_dat : dat a = fdat s;
    r_hist : mhist a = fhist s;
    r_thr : forall t, trel (fpcs s t) (ths a t);
    r_act : forall t, nonid (fpcs s t) = true -> forall c, qs a c = papp t (fpcs s t) c (wq s c);
    r_idle : (forall t, nonid (fpcs s t) = false) -> forall c, qs a c = wq s c
  }.

  Lemma r_init : forall d, R (finit Op Res Aux Loc d) (minit Op Res Aux Loc d).
  Proof. intros d. constructor; simpl; auto; try discriminate. apply wf_init. Qed.

  Lemma kh_one : forall (s : fst_) t u, FI s -> cls (fpcs s t) = FineMutex.KH -> cls (fpcs s u) = FineMutex.KH -> t = u.
  Proof. intros s t u V A B. pose proof (f_link V t) as X. pose proof (f_link V u) as Y. rewrite A in X. rewrite B in Y. destruct X, Y. congruence. Qed.
  Lemma nonid_kh : forall p, nonid p = true -> cls p = FineMutex.KH.
  Proof. intros p H. destruct p as [| | | | |[]|]; simpl in *; congruence. Qed.
  Lemma nonid_no : forall (s : fst_) t u, FI s -> cls (fpcs s t) = FineMutex.KH -> u <> t -> nonid (fpcs s u) = false.
  Proof. intros s t u V A N. destruct (nonid (fpcs s u)) eqn:X; auto. destruct N. eapply kh_one; eauto. now apply nonid_kh. Qed.
  Lemma papp_id : forall t p c l, nonid p = false -> papp t p c l = l.
  Proof. intros t p c l H. destruct p as [| | | | |[]|]; simpl in *; congruence. Qed.
  Lemma nonid_dec : forall (s : fst_) t, FI s -> cls (fpcs s t) = FineMutex.KH -> nonid (fpcs s t) = false -> forall u, nonid (fpcs s u) = false.
  Proof. intros s t V K N u. destruct (Nat.eq_dec u t) as [->|]; auto. eapply nonid_no; eauto. Qed.

  (** A step that Monitor.v does not see. *)
  Lemma sim_stutter : forall (s s' : fst_) a t p, FI s -> R s a -> fpcs s' = upd (fpcs s) t p -> fdat s' = fdat s -> fhist s' = fhist s ->
    trel p (ths a t) -> (forall c, papp t p c (wq s' c) = papp t (fpcs s t) c (wq s c)) ->
    (nonid (fpcs s t) = false -> nonid p = false /\ wq s' = wq s) -> R s' a.
  Proof.
    intros s s' a t p V [RW RD RH RT RA RI] P D' H' TR PP NN. constructor; auto; try congruence; rewrite P.
    - intros u. destruct (Nat.eq_dec u t) as [->|N]; [now rewrite upd_same|now rewrite upd_other].
    - intros u X c. destruct (Nat.eq_dec u t) as [->|N].
      + rewrite upd_same in *. rewrite PP. apply RA. destruct (nonid (fpcs s t)) eqn:Y; auto. destruct NN; auto. congruence.
      + rewrite upd_other in * by auto. destruct NN as [_ ->]; auto.
        apply nonid_no with (t := u) (u := t) in V; auto. now apply nonid_kh.
    - intros X c. pose proof (X t) as Y. rewrite upd_same in Y. destruct (nonid (fpcs s t)) eqn:Z.
      + rewrite (RA t Z), <- PP. now apply papp_id.
      + destruct NN as [_ ->]; auto. apply RI. intros u. destruct (Nat.eq_dec u t) as [->|N]; auto.
        specialize (X u). now rewrite upd_other in X.
  Qed.

  Lemma sg1_incl : forall sg c l u, In u (fold_left (sg1 c) sg l) -> In u l.
  Proof.
    induction sg as [|g sg IH]; intros c l u X; simpl in X; auto. apply IH in X.
    destruct g as [d|d]; simpl in X; destruct (c =? d); auto; try destruct X. destruct l; [destruct X|now right].
  Qed.
  Lemma sg1_fst : forall sg c p, fst (sigq sg c p) = fold_left (sg1 c) sg (fst p).
  Proof.
    induction sg as [|g sg IH]; intros c p; auto. unfold sigq in *. simpl. rewrite IH. f_equal.
    destruct g as [d|d]; simpl; destruct (c =? d); auto.
  Qed.

  (** Who is in waiters__ of Monitor.v is not woken, or the one executing a segment that will end in a wait. *)
  Lemma qs_pq : forall s a, FI s -> R s a -> forall c u, In u (qs a c) -> nonid (fpcs s u) = false -> In u (pq s c).
  Proof.
    intros s a V RR c u I N.
    assert (W : forall h, nonid (fpcs s h) = true -> In u (pn (match fpcs s h with FN n _ _ _ => n | _ => N0 end) c (wq s c)) -> In u (pq s c)).
    { intros h X Y. unfold pq. destruct (cvl s c) as [k|] eqn:C.
      - apply (f_cvl V) in C. destruct (fpcs s k) as [| | |n o sg e| |w o d l|] eqn:P; simpl in *; try discriminate.
        + assert (k = h) as -> by (eapply kh_one; eauto; [now rewrite P|now apply nonid_kh]). rewrite P in Y. simpl in *.
          destruct n; simpl in *; try discriminate; auto; injection C as ->; rewrite Nat.eqb_refl in Y; try contradiction.
          destruct (wq s c); auto. now right.
        + destruct (fpcs s h) as [| | |n' o' sg' e'| |[] o' d' l'|] eqn:P'; simpl in *; try discriminate; auto.
          destruct n'; simpl in Y; auto; destruct (c =? _); auto; try contradiction. destruct (wq s c); auto. now right.
      - destruct (fpcs s h) as [| | |n' o' sg' e'| |[] o' d' l'|] eqn:P'; simpl in *; try discriminate; auto.
        destruct n'; simpl in Y; auto; destruct (c =? _); auto; try contradiction. destruct (wq s c); auto. now right. }
    assert (DEC : (exists h, nonid (fpcs s h) = true) \/ forall h, nonid (fpcs s h) = false).
    { destruct (MutexModel.owner (mx s)) as [h|] eqn:O.
      - destruct (nonid (fpcs s h)) eqn:X; [eauto|]. right. intros k. destruct (nonid (fpcs s k)) eqn:Y; auto.
        pose proof (f_link V k) as L. rewrite (nonid_kh _ Y) in L. destruct L as [_ L]. assert (k = h) as -> by congruence. congruence.
      - right. intros k. destruct (nonid (fpcs s k)) eqn:Y; auto. pose proof (f_link V k) as L. rewrite (nonid_kh _ Y) in L. destruct L. congruence. }
    destruct DEC as [(h&H)|H].
    - rewrite (r_act RR h H) in I. apply (W h H). assert (UH : u <> h) by congruence.
      destruct (fpcs s h) as [| | |n o sg e| |[] o d l|] eqn:P; simpl in *; try discriminate.
      + unfold pe in I. destruct e; try (now apply sg1_incl in I). destruct (c =? c0); [|now apply sg1_incl in I].
        apply in_app_or in I. destruct I as [I|[->|[]]]; [now apply sg1_incl in I|congruence].
      + destruct (c =? d); auto. apply in_app_or in I. destruct I as [I|[->|[]]]; auto; congruence.
      + destruct (c =? d); auto. apply in_app_or in I. destruct I as [I|[->|[]]]; auto; congruence.
    - rewrite (r_idle RR H) in I. unfold pq. destruct (cvl s c) as [k|] eqn:C; auto. specialize (H k).
      destruct (fpcs s k) as [| | | | |[]|]; simpl in *; try discriminate; auto.
  Qed.

  Lemma trel_woken : forall p y, nonid p = false -> (forall o c l, p <> FUn o (EWa c l)) -> trel p y -> trel p (woken y).
  Proof.
    intros p y N NU T. destruct p as [|o [c|] l|o [c|] l|n o sg e|o [r|c l|l]|[] o c l|o r]; simpl in *; try discriminate; subst; auto;
      try (destruct T; subst; simpl; auto). destruct (NU o c l eq_refl).
  Qed.

  Notation mstep := (mstep entry body).

  Lemma sim_seg : forall s a t o c l b, FI s -> R s a -> fpcs s t = FSeg o c l -> FI (seg body s t o l b) ->
    exists a', mstep a (MRun t b) = Some a' /\ R (seg body s t o l b) a'.
  Proof.
    intros s a t o c l b V RR P V'. pose proof (r_thr RR t) as T. rewrite P in T. simpl in T.
    assert (T' : ths a t = TReady o l \/ exists c, ths a t = TWoken c o l) by (destruct c; eauto).
    assert (E : exists a', mstep a (MRun t b) = Some a') by (destruct T' as [X|[d X]]; simpl; rewrite X; eauto).
    destruct E as (a'&E). exists a'. split; auto.
    pose proof (run_self _ _ _ _ _ E T') as TS.
    pose proof (@wf_step D Op Res Aux Loc teq teq (@teq_refl Op) (@teq_refl Res) entry body a (MRun t b) a' (r_wf RR) E) as W'.
    destruct (@run_post D Op Res Aux Loc teq teq entry body a t b a' (r_wf RR) E) as (o'&l'&T2&X).
    assert (o' = o /\ l' = l) as [-> ->] by (destruct T' as [A|[d A]], T2 as [B|[d' B]]; split; congruence).
    pose proof (r_dat RR) as RD. pose proof (r_hist RR) as RH. rewrite RD in X, TS.
    assert (NO : forall u, nonid (fpcs s u) = false) by (apply nonid_dec with (t := t); auto; now rewrite P).
    pose proof (r_idle RR NO) as QI.
    assert (OT : forall x, thr_post a a' t x -> forall u, u <> t -> trel (fpcs s u) (ths a' u)).
    { intros x TP u N. refine (TP (fun u y => u <> t -> trel (fpcs s u) y) _ _ _ u N); auto.
      - intros v y Y M. apply trel_woken; auto. apply (f_un V).
      - intros v M _. apply (r_thr RR).
      - congruence. }
    assert (G : forall d h sg e x, dat a' = d -> mhist a' = h -> thr_post a a' t x -> trel (FN N0 o sg e) (ths a' t) ->
      (forall d, qs a' d = pe t e d (fold_left (sg1 d) sg (qs a d))) -> R (mkF (mx s) d (cvl s) (wq s) (ws s) (upd (fpcs s) t (FN N0 o sg e)) h) a').
    { intros d h sg e x GD GH TP GT GQ. constructor; simpl; auto.
      - intros u. destruct (Nat.eq_dec u t) as [->|N]; [rewrite upd_same; auto|]. rewrite upd_other by auto. eauto.
      - intros u Y d'. destruct (Nat.eq_dec u t) as [->|N]; [rewrite upd_same; simpl; now rewrite GQ, QI|].
        rewrite upd_other in Y by auto. rewrite NO in Y. discriminate.
      - intros Y. specialize (Y t). rewrite upd_same in Y. discriminate. }
    assert (FQ : forall d (l1 l2 p : list tid), (qs a' d, l1) = (p, l2) -> qs a' d = p) by (intros; congruence).
    unfold seg. destruct (body t l b (fdat s)) as [d xs sg r|d xs sg d' l'|d xs sg l']; destruct X as (X1&X2&X3&X4); rewrite RH in X2.
    - eapply G; eauto. intros d0. specialize (X4 d0). simpl. pose proof (f_equal fst X4) as Y. rewrite sg1_fst in Y. exact Y.
    - eapply G; eauto. intros d0. specialize (X4 d0). simpl in *. apply FQ in X4. rewrite X4, sg1_fst. reflexivity.
    - eapply G; eauto. intros d0. specialize (X4 d0). simpl. pose proof (f_equal fst X4) as Y. rewrite sg1_fst in Y. exact Y.
  Qed.

  Definition simto (a : mst) (s' : fst_) : Prop := exists ls a', run mstep a ls = Some a' /\ R s' a'.
  Lemma sim0 : forall a s', R s' a -> simto a s'.
  Proof. intros a s' H. exists [], a. auto. Qed.

  Ltac stut s V RR P := apply sim0; eapply (@sim_stutter s); [exact V|exact RR|reflexivity|reflexivity|reflexivity| | |]; simpl; rewrite ?P; simpl; auto; try discriminate; try tauto.

  Lemma sim_step : forall s a x s', FI s -> R s a -> fstep s x = Some s' -> simto a s'.
  Proof.
    intros s a x s' V RR E. pose proof (fi_step _ V E) as V'. destruct x as [t o|t b]; simpl in E; pose proof (r_thr RR t) as T.
    - destruct (fpcs s t) eqn:P; try discriminate. apply mcall_inv in E. destruct E as (m&E&->). simpl in T.
      exists [MCall t o]. eexists. split; [simpl; rewrite T; reflexivity|]. pose proof RR as [RW RD RH RT RA RI]. constructor; simpl; auto; try congruence.
      + eapply (@wf_step D Op Res Aux Loc teq teq (@teq_refl Op) (@teq_refl Res) entry body a (MCall t o)); eauto. simpl. now rewrite T.
      + intros u. destruct (Nat.eq_dec u t) as [->|N]; [now rewrite !upd_same|now rewrite !upd_other by auto].
      + intros u. destruct (Nat.eq_dec u t) as [->|N]; [rewrite upd_same; discriminate|rewrite upd_other by auto; auto].
      + intros X. apply RI. intros u. specialize (X u). destruct (Nat.eq_dec u t) as [->|N]; [now rewrite P|now rewrite upd_other in X].
    - destruct (fpcs s t) as [|o c l|o c l|n o sg e|o e|w o c l|o r] eqn:P; try discriminate; simpl in T.
      + apply mrun_inv in E. destruct E as (m&E&[[N ->]|[N E2]]).
        * apply sim0. destruct RR. constructor; auto.
        * injection E2 as <-. stut s V RR P.
      + injection E as <-. destruct (sim_seg _ b V RR P V') as (a'&A&B). exists [MRun t b], a'. split; auto. simpl. simpl in A. now rewrite A.
      + destruct n as [|c|c u|c l|c|c]; simpl in E.
        * destruct sg as [|[c|c] r].
          -- destruct e as [r|c l|l].
             ++ apply mcall_inv in E. destruct E as (m&E&->). stut s V RR P.
             ++ injection E as <-. stut s V RR P.
             ++ apply mcall_inv in E. destruct E as (m&E&->). stut s V RR P.
          -- unfold take in E. destruct (cvl s c); [discriminate|]. injection E as <-. stut s V RR P.
          -- unfold take in E. destruct (cvl s c); [discriminate|]. injection E as <-. stut s V RR P.
        * destruct (wq s c) as [|u r] eqn:Q; injection E as <-.
          -- stut s V RR P. intros d. destruct (Nat.eqb_spec d c) as [->|]; auto. now rewrite Q.
          -- stut s V RR P. intros d. unfold upd. destruct (Nat.eqb_spec d c) as [->|]; auto. now rewrite Q.
        * injection E as <-. stut s V RR P.
        * destruct l as [|u l]; injection E as <-; stut s V RR P.
        * injection E as <-. stut s V RR P.
        * injection E as <-. stut s V RR P.
      + apply mrun_inv in E. destruct E as (m&E&[[N ->]|[N E2]]).
        * apply sim0. destruct RR. constructor; auto.
        * destruct e as [r|c l|l]; [|destruct (f_un V t P)|].
          -- injection E2 as <-. stut s V RR P.
          -- apply mcall_inv in E2. destruct E2 as (m2&E2&->). stut s V RR P.
      + destruct w; simpl in E.
        * unfold take in E. destruct (cvl s c); [discriminate|]. injection E as <-. stut s V RR P.
        * apply mcall_inv in E. destruct E as (m&E&->). stut s V RR P. intros d. unfold upd. destruct (Nat.eqb_spec d c) as [->|]; auto.
        * apply mrun_inv in E. destruct E as (m&E&[[N ->]|[N E2]]).
          -- apply sim0. destruct RR. constructor; auto.
          -- injection E2 as <-. stut s V RR P.
        * injection E as <-. stut s V RR P.
        * injection E as <-. stut s V RR P.
        * destruct (ws s t) eqn:Q; [|discriminate]. destruct (MutexModel.waiting _ _); [discriminate|].
          apply mcall_inv in E. destruct E as (m&E&->). stut s V RR P. destruct T as [T|T]; auto. exfalso.
          assert (I : In t (qs a c)) by (apply (w_q (r_wf RR)); eauto).
          apply (qs_pq V RR) in I; [|now rewrite P]. apply (f_pq V) in I. rewrite P, Q in I. destruct I as [_ I]. discriminate.
      + injection E as <-. exists [MLeave t]. eexists. split; [simpl; rewrite T; reflexivity|].
        pose proof RR as [RW RD RH RT RA RI]. constructor; simpl; auto; try congruence.
        * eapply (@wf_step D Op Res Aux Loc teq teq (@teq_refl Op) (@teq_refl Res) entry body a (MLeave t)); eauto. simpl. now rewrite T.
        * intros u. destruct (Nat.eq_dec u t) as [->|N]; [now rewrite !upd_same|now rewrite !upd_other by auto].
        * intros u. destruct (Nat.eq_dec u t) as [->|N]; [rewrite upd_same; discriminate|rewrite upd_other by auto; auto].
        * intros X. apply RI. intros u. specialize (X u). destruct (Nat.eq_dec u t) as [->|N]; [now rewrite P|now rewrite upd_other in X].
  Qed.

  Lemma sim_run : forall d ls s, run fstep (finit Op Res Aux Loc d) ls = Some s ->
    FI s /\ exists ls' a, run mstep (minit Op Res Aux Loc d) ls' = Some a /\ R s a.
  Proof.
    intros d ls s H. refine (run_inv fstep (fun s => FI s /\ exists ls' a, run mstep (minit Op Res Aux Loc d) ls' = Some a /\ R s a) _ _ _ ls H).
    - split; [apply fi_init|]. exists [], (minit Op Res Aux Loc d). split; auto. apply r_init.
    - intros s1 x s2 [V (l1&a&A&RR)] E. split; [eapply fi_step; eauto|]. destruct (sim_step _ V RR E) as (l2&a'&B&RR').
      exists (l1 ++ l2), a'. split; auto. now rewrite run_app, A.
  Qed.

  (** ** When nothing moves *)
  Lemma quiet_mx : forall s, FI s -> fquiet entry body s -> forall t b, MutexModel.step (mx s) (MutexModel.Run t b) = None.
  Proof.
    intros s V Q t b. destruct (MutexModel.step (mx s) (MutexModel.Run t b)) as [m|] eqn:E; auto. exfalso.
    pose proof (f_link V t) as L. pose proof (f_ws V t) as W. specialize (Q t b). simpl in Q.
    assert (NI : MutexModel.pcs (mx s) t <> MutexModel.Idle) by (intros X; simpl in E; unfold MutexModel.step_run in E; rewrite X in E; discriminate).
    assert (K : cls (fpcs s t) = FineMutex.KL \/ cls (fpcs s t) = FineMutex.KU).
    { destruct (cls (fpcs s t)); auto; destruct L; contradiction. }
    destruct (fi_mut _ _ V E K) as (NV&_&L').
    assert (G : forall k, (forall X, MutexModel.pcs m t = MutexModel.Idle -> k = X -> X (setm s m) <> None) -> ws s t = [] -> mrun s t b k <> None).
    { intros k GK GW. unfold mrun. rewrite GW, E.
      assert (Y : match MutexModel.pcs (mx s) t with MutexModel.LkYield | MutexModel.LkPark => true | MutexModel.UnRet false => false | _ => true end = true).
      { destruct (cls (fpcs s t)); simpl in L; try (destruct L; contradiction); destruct (MutexModel.pcs (mx s) t); auto; try contradiction; try discriminate; match goal with r : bool |- _ => destruct r; auto end. }
      rewrite Y. destruct (MutexModel.pcs m t) eqn:Z; try discriminate. apply GK; auto. }
    destruct (fpcs s t) as [|o c l|o c l|n o sg e|o e|[] o c l|o r] eqn:P; simpl in K, Q, W; try (destruct K; discriminate).
    - revert Q. apply G; auto. intros X _ <-. discriminate.
    - revert Q. apply G; auto. intros X Z <-. destruct e as [r|c l|l]; try discriminate; [destruct (f_un V t P)|].
      rewrite Z in L'. simpl in L'. unfold mcall. simpl. destruct (FineMutex.call_lock _ _ NV L') as (m'&A&_). simpl in A. rewrite A. discriminate.
    - revert Q. apply G; auto. intros X _ <-. discriminate.
  Qed.

  Lemma quiet_pc : forall s, FI s -> fquiet entry body s -> forall t, fpcs s t = FOut \/ exists o c l, fpcs s t = FW W6 o c l /\ ws s t = [c].
  Proof.
    intros s V Q. pose proof (quiet_mx V Q) as QM. pose proof (FineMutex.quiet _ (f_mx V) QM) as QT.
    assert (NH : forall t, cls (fpcs s t) <> FineMutex.KU).
    { intros t K. pose proof (f_link V t) as L. rewrite K in L. simpl in L. destruct (QT t) as [X|[X _]]; [now rewrite X in L|].
      destruct (MutexModel.pcs (mx s) t); simpl in *; try contradiction; discriminate. }
    assert (NT : forall t c p, take s t c p = None -> cls (fpcs s t) = FineMutex.KH -> holdc (fpcs s t) = None -> False).
    { intros t c p X K H. unfold take in X. destruct (cvl s c) as [h|] eqn:C; [|discriminate]. apply (f_cvl V) in C.
      assert (TH : h <> t) by congruence. pose proof (Q h true) as Y. simpl in Y.
      destruct (fpcs s h) as [| | |n o sg e| |w o d l|] eqn:P; simpl in C; try discriminate.
      - apply TH. eapply kh_one; eauto. now rewrite P.
      - destruct w; try discriminate; simpl in Y; try discriminate.
        + apply TH. eapply kh_one; eauto. now rewrite P.
        + apply (NH h). now rewrite P. }
    assert (MC : forall t p, cls (fpcs s t) = FineMutex.KH -> forall s1, mx s1 = mx s -> @mcall D Op Res Aux Loc s1 t MutexSpec.OUnlock p = None -> False).
    { intros t p K s1 M X. pose proof (f_link V t) as L. rewrite K in L. destruct (FineMutex.call_unlock _ _ (f_mx V) L) as (m'&A&_).
      unfold mcall in X. rewrite M, A in X. discriminate. }
    assert (KH : forall t, cls (fpcs s t) <> FineMutex.KH).
    { intros t K. pose proof (Q t true) as Y. simpl in Y.
      destruct (fpcs s t) as [|o c l|o c l|n o sg e|o e|[] o c l|o r] eqn:P; simpl in K, Y; try discriminate.
      - destruct n as [|c|c u|c [|u l]|c|c]; simpl in Y; try discriminate.
        + destruct sg as [|[c|c] r].
          * destruct e; try discriminate; eapply MC; eauto; now rewrite P.
          * eapply NT; eauto; now rewrite P.
          * eapply NT; eauto; now rewrite P.
        + destruct (wq s c); discriminate.
      - eapply NT; eauto; now rewrite P.
      - eapply MC with (t := t); [now rewrite P| |exact Y]. reflexivity. }
    assert (NL : forall t, cls (fpcs s t) <> FineMutex.KL).
    { intros t K. pose proof (f_link V t) as L. rewrite K in L. simpl in L. destruct (QT t) as [X|(_&h&O&X)]; [now rewrite X in L|].
      pose proof (f_link V h) as LH. specialize (KH h). specialize (NH h). destruct (cls (fpcs s h)); simpl in LH; try congruence.
      - destruct LH. congruence.
      - rewrite X in LH. discriminate. }
    intros t. specialize (KH t). specialize (NH t). specialize (NL t). pose proof (Q t true) as Y. simpl in Y. pose proof (f_ws V t) as W. pose proof (f_link V t) as L.
    destruct (fpcs s t) as [|o c l|o c l|n o sg e|o e|[] o c l|o r] eqn:P; simpl in *; try congruence; auto; try discriminate.
    right. exists o, c, l. split; auto. destruct W as [W|W]; auto. exfalso. rewrite W in Y.
    rewrite (FineMutex.idle_nowait _ _ (f_mx V) (proj1 L)) in Y. unfold mcall in Y.
    destruct (FineMutex.call_lock _ _ (f_mx V) L) as (m'&A&_). simpl in A, Y. rewrite A in Y. discriminate.
  Qed.

  Lemma quiet_sim : forall s a, FI s -> R s a -> fquiet entry body s -> quiescent entry body a.
  Proof.
    intros s a V RR Q. pose proof (quiet_pc V Q) as P.
    assert (NO : forall u, nonid (fpcs s u) = false) by (intros u; destruct (P u) as [->|(o&c&l&->&_)]; reflexivity).
    assert (T : forall t, ths a t = TOut \/ exists c o l, ths a t = TWait c o l).
    { intros t. pose proof (r_thr RR t) as T. destruct (P t) as [X|(o&c&l&X&W)]; rewrite X in T; simpl in T; auto.
      right. exists c. apply (w_q (r_wf RR)). rewrite (r_idle RR NO). assert (I : In t (pq s c)) by (apply (f_pq V); rewrite X; simpl; auto).
      unfold pq in I. destruct (cvl s c) as [h|] eqn:C; auto. apply (f_cvl V) in C. destruct (P h) as [Y|(?&?&?&Y&_)]; rewrite Y in C; discriminate. }
    intros t. destruct (T t) as [X|(c&o&l&X)]; split; intros; simpl; rewrite X; reflexivity.
  Qed.

  (** Every execution is matched by one of Monitor.v. *)
  Theorem fine_sim : forall d ls s, run fstep (finit Op Res Aux Loc d) ls = Some s ->
    exists ls' a, run mstep (minit Op Res Aux Loc d) ls' = Some a /\ mhist a = fhist s /\ dat a = fdat s /\
      (fquiet entry body s -> quiescent entry body a).
  Proof.
    intros d ls s H. destruct (sim_run _ _ H) as (V&ls'&a&A&RR). exists ls', a. split; auto. split; [apply (r_hist RR)|].
    split; [apply (r_dat RR)|]. now apply quiet_sim.
  Qed.
End FP.
