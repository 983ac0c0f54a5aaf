(** Invariant of the traces of SpinRaceModel.v: what was done under the spin lock, and under the mutex, is known to whoever comes next. *)
From Coq Require Import List Arith Bool Lia.
From Verif Require Import Base RaceSpec RaceLemmas SpinInv LinSpec SpinObj SpinObjProofs SpinRaceModel.
Import ListNotations.
Set Implicit Arguments.

Section P.
  Variables (D Op Res Aux Loc : Type).
  Variable entry : Op -> Loc.
  Variable seg : tid -> Op -> Loc -> bool -> D -> sout D Op Res Aux Loc.
  Variable may : list (ev Op Res Aux) -> tid -> bool -> bool.
  Variable d0 : D.
  Notation F := (fst_ D Op Res Aux Loc).
  Notation fstep := (@fstep D Op Res Aux Loc entry seg).
  Notation pstep := (pstep entry seg may).
  Notation pst := (pst D Op Res Aux Loc).
  Notation "'inv0' s" := (spin_inv (fspin s) (fun t => incs (fpcs s t))) (at level 10, s at level 9).

  (** Known to whoever is inside, or to whoever comes next. *)
  Definition pub (s : F) (tr : list pev) (i : nat) : Prop :=
    (fspin s = false -> carried tr PSpin i) /\ forall w, incs (fpcs s w) = true -> knows tr w i.

  (** ** The spin lock. *)
  Lemma fstep_spin : forall s l s', fstep s l = Some s' -> inv0 s -> inv0 s'.
  Proof.
    intros s [t o|t b] s' H I; simpl in H.
    - destruct (fpcs s t) eqn:E; try discriminate. injection H as <-. eapply spin_upd; [exact I|]. rewrite E. now apply sm_stay.
    - destruct (fpcs s t) as [|o l|o l|o l|o l|o l|o l|o l|o gr r] eqn:E; try discriminate.
      + destruct (fspin s) eqn:Es; [discriminate|]. injection H as <-. eapply spin_upd; [exact I|]. rewrite E. now apply sm_acq.
      + destruct (seg t o l b (fdat s)); injection H as <-; (eapply spin_upd; [exact I|]); rewrite E; now apply sm_stay.
      + injection H as <-. eapply spin_upd; [exact I|]. rewrite E. now apply sm_rel.
      + destruct (fmark s t); [discriminate|]. injection H as <-. eapply spin_upd; [exact I|]. rewrite E. now apply sm_stay.
      + injection H as <-. eapply spin_upd; [exact I|]. rewrite E. now apply sm_stay.
      + injection H as <-. eapply spin_upd; [exact I|]. rewrite E. now apply sm_rel.
      + destruct (fmark s t); [discriminate|]. injection H as <-. eapply spin_upd; [exact I|]. rewrite E. now apply sm_stay.
      + destruct gr as [|g gr]; injection H as <-; (eapply spin_upd; [exact I|]); rewrite E; [now apply sm_rel|now apply sm_stay].
  Qed.
  Lemma spin_init : inv0 (finit Op Res Aux Loc d0).
  Proof. repeat split; simpl; discriminate. Qed.

  Lemma pub_in : forall s tr t i, inv0 s -> incs (fpcs s t) = true -> knows tr t i -> pub s tr i.
  Proof.
    intros s tr t i (A&B&_) C K. split; [intros E; pose proof (A t C); congruence|]. intros w W. now rewrite (B w t W C).
  Qed.
  Lemma pub_out : forall s tr t i, incs (fpcs s t) = true -> pub s tr i -> knows tr t i.
  Proof. intros s tr t i C (_&K). auto. Qed.
  (** Steps that leave the spin lock alone. *)
  Lemma pub_same : forall s s' tr es i, fspin s' = fspin s -> (forall w, incs (fpcs s' w) = incs (fpcs s w)) ->
    (forall e, In e es -> ~ releases e PSpin) -> pub s tr i -> pub s' (tr ++ es) i.
  Proof.
    intros s s' tr es i Es Ei N (A&B). split.
    - rewrite Es. intros E. specialize (A E). clear - N A. revert tr A. induction es as [|e es IH]; intros tr A; [now rewrite app_nil_r|].
      replace (tr ++ e :: es) with ((tr ++ [e]) ++ es) by now rewrite <- app_assoc. apply IH; [intros; apply N; now right|].
      apply carried_more; auto. apply N. now left.
    - intros w W. apply knows_more, B. now rewrite <- Ei.
  Qed.
  Lemma incs_upd : forall (f : tid -> fpc Op Res Loc) t p w, incs p = incs (f t) -> incs (upd f t p w) = incs (f w).
  Proof. intros f t p w E. unfold upd. destruct (Nat.eqb w t) eqn:Et; auto. apply Nat.eqb_eq in Et. now subst. Qed.

  Definition news (s : F) (l : plbl Op) : list pev :=
    match l with
    | PM (SCall _ _) => []
    | PM (SRun t _) => map (mkEv t) (peffects (fpcs s t) t)
    | PFail t => [mkEv t (KUpd PSpin)]
    | PUse t x w => [mkEv t (if w then KWr (PData x) else KRd (PData x))]
    end.
  Lemma pstep_trc : forall s l s', pstep s l = Some s' -> trc s' = trc s ++ news (po s) l.
  Proof.
    intros s [[t o|t b]|t|t x w] s' H; unfold SpinRaceModel.pstep in H.
    - destruct (fstep (po s) (SCall t o)); [|discriminate]. injection H as <-. simpl. now rewrite app_nil_r.
    - destruct (fstep (po s) (SRun t b)); [|discriminate]. injection H as <-. reflexivity.
    - destruct (fpcs (po s) t); try discriminate. destruct (fspin (po s)); [|discriminate]. injection H as <-. reflexivity.
    - destruct (fpcs (po s) t); try discriminate. destruct (may _ _ _); [|discriminate]. injection H as <-. reflexivity.
  Qed.
  Lemma pstep_po : forall s l s', pstep s l = Some s' ->
    match l with PM l => fstep (po s) l = Some (po s') | _ => po s' = po s end.
  Proof.
    intros s [[t o|t b]|t|t x w] s' H; unfold SpinRaceModel.pstep in H.
    - destruct (fstep (po s) (SCall t o)); [|discriminate]. now injection H as <-.
    - destruct (fstep (po s) (SRun t b)); [|discriminate]. now injection H as <-.
    - destruct (fpcs (po s) t); try discriminate. destruct (fspin (po s)); [|discriminate]. now injection H as <-.
    - destruct (fpcs (po s) t); try discriminate. destruct (may _ _ _); [|discriminate]. now injection H as <-.
  Qed.

  Lemma pub_step : forall s l s' i, pstep s l = Some s' -> inv0 (po s) -> pub (po s) (trc s) i -> pub (po s') (trc s') i.
  Proof.
    intros s l s' i H I P. rewrite (pstep_trc _ _ H).
    assert (I' : inv0 (po s')).
    { pose proof (pstep_po _ _ H) as G. destruct l; [eapply fstep_spin; eauto|rewrite G; auto|rewrite G; auto]. }
    pose proof (pstep_po _ _ H) as G. destruct l as [[t o|t b]|t|t x w].
    - simpl in G. destruct (fpcs (po s) t) eqn:E; try discriminate. injection G as G. rewrite <- G in *. apply pub_same with (po s); auto; simpl.
      + intros w. apply incs_upd. now rewrite E.
    - simpl in G. unfold news. destruct (fpcs (po s) t) as [|o l|o l|o l|o l|o l|o l|o l|o gr r] eqn:E; try discriminate.
      + destruct (fspin (po s)) eqn:Es; [discriminate|]. injection G as G. rewrite <- G in *. apply pub_in with t; auto; simpl; [now rewrite upd_same|].
        apply (acquire_knows (trc s) (mkEv t (KUpd PSpin)) PSpin); [now right|]. now apply P.
      + assert (K : knows (trc s) t i) by (eapply pub_out; [now rewrite E|eauto]).
        apply pub_in with t; auto; [|now apply knows_more]. destruct (seg t o l b (fdat (po s))); injection G as G; rewrite <- G; simpl; now rewrite upd_same.
      + assert (K : knows (trc s) t i) by (eapply pub_out; [now rewrite E|eauto]). injection G as G. rewrite <- G in *. split; simpl.
        * intros _. apply (release_carried (trc s) (mkEv t (KRel PSpin)) PSpin); [now left|auto].
        * intros w W. destruct I' as (I'&_). specialize (I' w W). discriminate.
      + destruct (fmark (po s) t); [discriminate|]. injection G as G. rewrite <- G in *. apply pub_same with (po s); auto; simpl.
        * intros w. apply incs_upd. now rewrite E.
        * intros e [<-|[]] [R|R]; discriminate.
      + injection G as G. rewrite <- G in *. apply pub_same with (po s); auto; simpl.
        * intros w. apply incs_upd. now rewrite E.
        * intros e [<-|[]] [R|R]; discriminate.
      + assert (K : knows (trc s) t i) by (eapply pub_out; [now rewrite E|eauto]). injection G as G. rewrite <- G in *. split; simpl.
        * intros _. apply (release_carried (trc s) (mkEv t (KRel PSpin)) PSpin); [now left|auto].
        * intros w W. destruct I' as (I'&_). specialize (I' w W). discriminate.
      + destruct (fmark (po s) t); [discriminate|]. injection G as G. rewrite <- G in *. apply pub_same with (po s); auto; simpl.
        * intros w. apply incs_upd. now rewrite E.
        * intros e [<-|[]] [R|R]; discriminate.
      + destruct gr as [|g gr]; injection G as G; rewrite <- G in *.
        * assert (K : knows (trc s) t i) by (eapply pub_out; [now rewrite E|eauto]). split; simpl.
          -- intros _. apply (release_carried (trc s) (mkEv t (KRel PSpin)) PSpin); [now left|auto].
          -- intros w W. destruct I' as (I'&_). specialize (I' w W). discriminate.
        * apply pub_same with (po s); auto; simpl.
          -- intros w. apply incs_upd. now rewrite E.
          -- intros e [<-|[]] [R|R]; discriminate.
    - rewrite G in *. destruct P as (A&B). split.
      + intros E. exfalso. clear - H E. unfold SpinRaceModel.pstep in H. destruct (fpcs (po s) t); try discriminate. rewrite E in H. discriminate.
      + intros w W. apply knows_more. auto.
    - rewrite G in *. apply pub_same with (po s); auto. intros e [<-|[]] [R|R]; destruct w; discriminate.
  Qed.

  Lemma proj_run : forall ls s, run pstep (pinit Op Res Aux Loc d0) ls = Some s -> exists ls, run fstep (finit Op Res Aux Loc d0) ls = Some (po s).
  Proof.
    intros ls s. apply (run_inv pstep (fun s => exists ls, run fstep (finit Op Res Aux Loc d0) ls = Some (po s))); [now exists []|].
    clear. intros s l s' (ls&Hr) H. pose proof (pstep_po _ _ H) as G. destruct l; [|rewrite G; eauto|rewrite G; eauto].
    exists (ls ++ [l]). rewrite run_app, Hr. simpl. now rewrite G.
  Qed.

  (** ** The members of the mutex. *)
  Definition obj (tr : list pev) (i : nat) : Prop := exists a, nth_error tr i = Some a /\ touches a PObj.
  Record OI (s : pst) : Prop := mkOI { o_spin : inv0 (po s); o_pub : forall i, obj (trc s) i -> pub (po s) (trc s) i; o_ord : ordered (trc s) PObj }.

  Lemma quiet_app : forall (P : pev -> Prop) tr es i, (forall e, In e es -> ~ P e) ->
    (exists a, nth_error (tr ++ es) i = Some a /\ P a) -> exists a, nth_error tr i = Some a /\ P a.
  Proof.
    intros P tr es i N (a&H&Pa). exists a. split; auto. destruct (Nat.lt_ge_cases i (length tr)) as [L|L].
    - now rewrite nth_error_app1 in H.
    - rewrite nth_error_app2 in H by lia. apply nth_error_In in H. exfalso. eapply N; eauto.
  Qed.
  Lemma ordered_quiet : forall tr es x, (forall e : pev, In e es -> ~ touches e x) -> ordered tr x -> ordered (tr ++ es) x.
  Proof.
    intros tr es x N O i j a b L A B C. destruct (Nat.lt_ge_cases j (length tr)) as [Lj|Lj].
    - apply hb_more. rewrite nth_error_app1 in B by lia. rewrite nth_error_app1 in A by lia. eapply O; eauto.
    - rewrite nth_error_app2 in B by lia. apply nth_error_In in B. exfalso. apply (N _ B). apply C.
  Qed.

  Lemma oi_init : OI (pinit Op Res Aux Loc d0).
  Proof.
    constructor; simpl; [apply spin_init| |apply ordered_nil]. intros [|i] (a&H&_); discriminate.
  Qed.
  Lemma oi_step : forall s l s', OI s -> pstep s l = Some s' -> OI s'.
  Proof.
    intros s l s' [I P O] H.
    assert (I' : inv0 (po s')).
    { pose proof (pstep_po _ _ H) as G. destruct l; [eapply fstep_spin; eauto|rewrite G; auto|rewrite G; auto]. }
    pose proof (pstep_trc _ _ H) as T.
    assert (Q : (forall e, In e (news (po s) l) -> ~ touches e PObj) -> OI s').
    { intros N. constructor; auto.
      - intros i Hi. eapply pub_step; eauto. apply P. rewrite T in Hi. eapply quiet_app; [exact N|exact Hi].
      - rewrite T. apply ordered_quiet; auto. }
    destruct l as [[t o|t b]|t|t x w].
    - apply Q. intros e [].
    - destruct (fpcs (po s) t) as [|o l|o l|o l|o l|o l|o l|o l|o gr r] eqn:E;
        try (apply Q; unfold news; rewrite E; intros e N; simpl in N; destruct N as [<-|[]]; intros [C|C]; discriminate).
      + apply Q; unfold news; rewrite E; intros e [].
      + clear Q. assert (K : forall i, obj (trc s) i -> knows (trc s) t i) by (intros i Hi; eapply pub_out; [now rewrite E|eauto]).
        assert (C' : incs (fpcs (po s') t) = true).
        { pose proof (pstep_po _ _ H) as G. simpl in G. rewrite E in G. destruct (seg t o l b (fdat (po s))); injection G as <-; simpl; now rewrite upd_same. }
        assert (T' : trc s' = (trc s ++ [mkEv t (KRd PObj)]) ++ [mkEv t (KWr PObj)]).
        { rewrite T. unfold news. rewrite E. simpl. now rewrite <- app_assoc. }
        assert (K1 : forall i, obj (trc s ++ [mkEv t (KRd PObj)]) i -> knows (trc s ++ [mkEv t (KRd PObj)]) t i).
        { intros i (a&N&Ta). apply nth_snoc in N as [(_&N)|(->&->)]; [apply knows_more, K; exists a; auto|]. apply (knows_self (trc s) (mkEv t (KRd PObj))). }
        constructor; auto.
        * intros i Hi. apply pub_in with t; auto. rewrite T' in *. destruct Hi as (a&N&Ta).
          apply nth_snoc in N as [(_&N)|(->&->)]; [apply knows_more, K1; exists a; auto|]. apply (knows_self _ (mkEv t (KWr PObj))).
        * rewrite T'. apply ordered_snoc; [apply ordered_snoc; auto|]; intros i a N (_&Ta&_); [apply K|apply K1]; exists a; auto.
      + destruct gr as [|g gr]; apply Q; unfold news; rewrite E; intros e [<-|[]] [C|C]; discriminate.
    - apply Q. intros e [<-|[]] [C|C]; discriminate.
    - apply Q. intros e [<-|[]] [C|C]; destruct w; discriminate.
  Qed.
  Lemma oi_run : forall ls s, run pstep (pinit Op Res Aux Loc d0) ls = Some s -> OI s.
  Proof. intros ls s. apply (run_inv pstep OI); [apply oi_init|intros; eapply oi_step; eauto]. Qed.

  (** ** The data of the clients.  [hx d t]: the mode in which t has the mutex; [wl]: the places where a coroutine waits to be told. *)
  Variable hx : D -> tid -> option bool.
  Variable wl : Loc -> bool.
  Definition told (p : fpc Op Res Loc) : bool :=
    match p with
    | FOut | FUn _ _ _ => true
    | FWant _ l | FIn _ l | FRelY _ l | FYield _ l | FMark _ l | FRelP _ l | FPark _ l => negb (wl l)
    end.
  Definition has (s : F) (t : tid) : option bool := if told (fpcs s t) then hx (fdat s) t else None.

  Variable C : list (ev Op Res Aux) -> Prop.
  Hypothesis C_more : forall es h, C (es ++ h) -> C h.
  Definition J (s : F) : Prop := (exists ls, run fstep (finit Op Res Aux Loc d0) ls = Some s) /\ C (fhist s).
  Hypothesis H_entry : forall o, wl (entry o) = false.
  Hypothesis H_init : forall t, hx d0 t = None.
  Hypothesis H_use : forall s t w, J s -> fpcs s t = FOut -> may (fhist s) t w = true ->
    exists w', hx (fdat s) t = Some w' /\ (w = true -> w' = true).
  Hypothesis H_excl : forall s t u, J s -> hx (fdat s) t = Some true -> hx (fdat s) u <> None -> u = t.
  (** What a block of t does to the modes. *)
  Definition seg_ok (s s' : F) (t : tid) : Prop :=
    (forall u, u <> t -> hx (fdat s') u = hx (fdat s) u \/ (has s u = None /\ told (fpcs s u) = false)) /\
    (hx (fdat s') t = None \/ (hx (fdat s') t = hx (fdat s) t /\ told (fpcs s' t) = told (fpcs s t)) \/
     (has s t = None /\ exists w : bool, hx (fdat s') t = Some w /\ forall v, if w then has s v = None else has s v <> Some true)).
  Hypothesis H_seg : forall s t o l b s', J s -> J s' -> fpcs s t = FIn o l -> fstep s (SRun t b) = Some s' -> seg_ok s s' t.

  Definition wr (tr : list pev) (t : tid) (i : nat) : Prop := exists x, nth_error tr i = Some (mkEv t (KWr (PData x))).
  Definition rd (tr : list pev) (t : tid) (i : nat) : Prop := exists x, nth_error tr i = Some (mkEv t (KRd (PData x))).
  Record CI (s : pst) : Prop := mkCI {
    c_o : OI s;
    c_wr : forall t i, wr (trc s) t i -> pub (po s) (trc s) i \/ has (po s) t = Some true;
    c_rd : forall t i, rd (trc s) t i -> pub (po s) (trc s) i \/ has (po s) t <> None;
    c_kw : forall u t i, has (po s) u <> None -> wr (trc s) t i -> knows (trc s) u i;
    c_kr : forall u t i, has (po s) u = Some true -> rd (trc s) t i -> knows (trc s) u i;
    c_ord : forall x, ordered (trc s) (PData x)
  }.

  Lemma ci_init : CI (pinit Op Res Aux Loc d0).
  Proof.
    constructor; simpl; [apply oi_init|intros t [|i] (x&H); discriminate|intros t [|i] (x&H); discriminate| | |intros; apply ordered_nil].
    - intros u t [|i] _ (x&H); discriminate.
    - intros u t [|i] _ (x&H); discriminate.
  Qed.
  Lemma hist_more : forall s l s', fstep s l = Some s' -> exists es, fhist s' = es ++ fhist s.
  Proof.
    assert (A : forall t xs (h : list (ev Op Res Aux)), exists es, log_xs t xs h = es ++ h).
    { intros t xs. unfold log_xs. induction xs as [|x xs IH]; intros h; simpl; [now exists []|].
      destruct (IH (EAux t x :: h)) as (es&->). exists (es ++ [EAux t x]). now rewrite <- app_assoc. }
    assert (B : forall lin (h : list (ev Op Res Aux)), exists es, log_lin lin h = es ++ h).
    { intros lin. unfold log_lin. induction lin as [|((u,o),r) lin IH]; intros h; simpl; [now exists []|].
      destruct (IH (ELin u o r :: h)) as (es&->). exists (es ++ [ELin u o r]). now rewrite <- app_assoc. }
    intros s [t o|t b] s' H; simpl in H.
    - destruct (fpcs s t); try discriminate. injection H as <-. now exists [ECall t o].
    - destruct (fpcs s t) as [|o l|o l|o l|o l|o l|o l|o l|o gr r]; try discriminate.
      + destruct (fspin s); [discriminate|]. injection H as <-. now exists [].
      + destruct (seg t o l b (fdat s)); injection H as <-; simpl; [now exists []|apply A|apply B].
      + injection H as <-. now exists [].
      + destruct (fmark s t); [discriminate|]. injection H as <-. now exists [].
      + injection H as <-. now exists [].
      + injection H as <-. now exists [].
      + destruct (fmark s t); [discriminate|]. injection H as <-. now exists [].
      + destruct gr as [|g gr]; injection H as <-; [now exists [ERet t o r]|now exists []].
  Qed.

  (** Events that do not touch the data. *)
  Lemma no_data : forall s l, (forall t x w, l <> PUse t x w) -> forall e x, In e (news s l) -> ~ touches e (PData x).
  Proof.
    intros s [[t o|t b]|t|t x w] N e y He; simpl in He; [destruct He| | |now destruct (N t x w)].
    - apply in_map_iff in He as (k&<-&Hk). unfold peffects in Hk. intros [Q|Q]; simpl in Q; subst k;
        destruct (fpcs s t) as [|o l|o l|o l|o l|o l|o l|o l|o [|g gr] r]; simpl in Hk; intuition discriminate.
    - destruct He as [<-|[]]. intros [Q|Q]; discriminate.
  Qed.
  Lemma wr_old : forall s l tr t i, (forall t x w, l <> PUse t x w) -> wr (tr ++ news s l) t i -> wr tr t i.
  Proof.
    intros s l tr t i N (x&H). exists x. destruct (quiet_app (fun e => touches e (PData x)) tr (news s l) i) as (a&A&_).
    - intros e He. now apply no_data with s l.
    - exists (mkEv t (KWr (PData x))). split; auto. now right.
    - assert (L : i < length tr) by (apply nth_error_Some; congruence). now rewrite nth_error_app1 in H.
  Qed.
  Lemma rd_old : forall s l tr t i, (forall t x w, l <> PUse t x w) -> rd (tr ++ news s l) t i -> rd tr t i.
  Proof.
    intros s l tr t i N (x&H). exists x. destruct (quiet_app (fun e => touches e (PData x)) tr (news s l) i) as (a&A&_).
    - intros e He. now apply no_data with s l.
    - exists (mkEv t (KRd (PData x))). split; auto. now left.
    - assert (L : i < length tr) by (apply nth_error_Some; congruence). now rewrite nth_error_app1 in H.
  Qed.

  (** Steps after which everyone has what they had. *)
  Lemma ci_keep : forall s l s', CI s -> pstep s l = Some s' -> (forall t x w, l <> PUse t x w) ->
    (forall u, has (po s') u = has (po s) u) -> CI s'.
  Proof.
    intros s l s' [O W R KW KR OD] H N E. pose proof (pstep_trc _ _ H) as T. constructor.
    - eapply oi_step; eauto.
    - intros t i Hw. rewrite T in Hw. apply wr_old in Hw; auto. rewrite E. destruct (W _ _ Hw) as [P|P]; auto. left. eapply pub_step; eauto. apply O.
    - intros t i Hw. rewrite T in Hw. apply rd_old in Hw; auto. rewrite E. destruct (R _ _ Hw) as [P|P]; auto. left. eapply pub_step; eauto. apply O.
    - intros u t i. rewrite E, T. intros Hu Hw. apply wr_old in Hw; auto. apply knows_more. eauto.
    - intros u t i. rewrite E, T. intros Hu Hw. apply rd_old in Hw; auto. apply knows_more. eauto.
    - intros x. rewrite T. apply ordered_quiet; auto. intros e He. now apply no_data with (po s) l.
  Qed.

  Lemma own_known : forall (tr : list pev) t i e, nth_error tr i = Some e -> thr e = t -> knows tr t i.
  Proof. intros tr t i e H E. exists i, e. auto. Qed.

  Lemma ci_seg : forall s t b s' o l, CI s -> pstep s (PM (SRun t b)) = Some s' -> fpcs (po s) t = FIn o l -> J (po s) -> J (po s') -> CI s'.
  Proof.
    intros s t b s' o l [O W R KW KR OD] H E Js Js'. pose proof (pstep_trc _ _ H) as T. pose proof (pstep_po _ _ H) as G.
    assert (SO : seg_ok (po s) (po s') t) by (eapply H_seg; [exact Js|exact Js'|exact E|exact G]). destruct SO as (U&Tt).
    assert (In_ : incs (fpcs (po s') t) = true).
    { clear - G E. simpl in G. rewrite E in G. destruct (seg t o l b (fdat (po s))); injection G as <-; simpl; now rewrite upd_same. }
    assert (In0 : incs (fpcs (po s) t) = true) by now rewrite E.
    assert (Pc : forall u, u <> t -> fpcs (po s') u = fpcs (po s) u).
    { clear - G E. intros u Hu. simpl in G. rewrite E in G. destruct (seg t o l b (fdat (po s))); injection G as <-; simpl; now rewrite upd_other. }
    assert (O' : OI s') by (eapply oi_step; eauto).
    assert (N : forall t0 x w, @PM Op (SRun t b) <> PUse t0 x w) by discriminate.
    assert (Hu : forall u, u <> t -> has (po s') u = has (po s) u).
    { intros u Nu. unfold has. rewrite Pc by auto. destruct (U u Nu) as [X|(X&Y)]; [now rewrite X|]. now rewrite Y. }
    assert (Hp : forall i, pub (po s) (trc s) i -> pub (po s') (trc s') i) by (intros i; eapply pub_step; eauto; apply O).
    assert (Ht : has (po s') t = None \/ has (po s') t = has (po s) t \/
                 (has (po s) t = None /\ exists w : bool, has (po s') t = Some w /\ forall v, if w then has (po s) v = None else has (po s) v <> Some true)).
    { unfold has at 1 2 3 5. destruct Tt as [X|[(X&Y)|(X&w&Y&Z)]].
      - left. rewrite X. now destruct (told _).
      - right. left. now rewrite X, Y.
      - destruct (told (fpcs (po s') t)); [|auto]. right. right. split; [exact X|]. exists w. auto. }
    clear U Tt.
    (* what t has done itself is known to whoever comes next *)
    assert (Own : forall i e, nth_error (trc s) i = Some e -> thr e = t -> pub (po s') (trc s') i).
    { intros i e Hi He. apply pub_in with t; [apply O'|auto|]. rewrite T. apply knows_more. eapply own_known; eauto. }
    constructor; auto.
    - intros u i Hw. rewrite T in Hw. apply wr_old in Hw; auto. destruct (W _ _ Hw) as [P|P]; auto.
      destruct (Nat.eq_dec u t) as [-> |Nu]; [|right; now rewrite Hu]. left. destruct Hw as (x&Hw). eapply Own; eauto.
    - intros u i Hw. rewrite T in Hw. apply rd_old in Hw; auto. destruct (R _ _ Hw) as [P|P]; auto.
      destruct (Nat.eq_dec u t) as [-> |Nu]; [|right; now rewrite Hu]. left. destruct Hw as (x&Hw). eapply Own; eauto.
    - intros u v i Hh Hw. rewrite T in Hw. apply wr_old in Hw; auto. destruct (Nat.eq_dec u t) as [-> |Nu]; [|rewrite Hu in Hh by auto; rewrite T; apply knows_more; eauto].
      destruct Ht as [X|[X|(X&w&Y&Z)]]; [congruence|rewrite X in Hh; rewrite T; apply knows_more; eauto|].
      destruct (W _ _ Hw) as [P|P]; [eapply pub_out; [exact In_|apply Hp; exact P]|]. exfalso. specialize (Z v). destruct w; simpl in Z; congruence.
    - intros u v i Hh Hw. rewrite T in Hw. apply rd_old in Hw; auto. destruct (Nat.eq_dec u t) as [-> |Nu]; [|rewrite Hu in Hh by auto; rewrite T; apply knows_more; eauto].
      destruct Ht as [X|[X|(X&w&Y&Z)]]; [congruence|rewrite X in Hh; rewrite T; apply knows_more; eauto|].
      destruct (R _ _ Hw) as [P|P]; [eapply pub_out; [exact In_|apply Hp; exact P]|]. exfalso. specialize (Z v). destruct w; simpl in Z; congruence.
    - intros x. rewrite T. apply ordered_quiet; auto. intros e He. now apply no_data with (po s) (PM (SRun t b)).
  Qed.

  Lemma ci_use : forall s t x w s', CI s -> pstep s (PUse t x w) = Some s' -> J (po s) -> CI s'.
  Proof.
    intros s t x w s' [O W R KW KR OD] H Js. pose proof (pstep_trc _ _ H) as T. pose proof (pstep_po _ _ H) as G. simpl in G.
    assert (O' : OI s') by (eapply oi_step; eauto).
    assert (Hx : exists w', has (po s) t = Some w' /\ (w = true -> w' = true)).
    { clear - H H_use Js. unfold SpinRaceModel.pstep in H. destruct (fpcs (po s) t) eqn:E; try discriminate. destruct (may _ _ _) eqn:M; [|discriminate].
      unfold has. rewrite E. simpl. eauto. }
    destruct Hx as (w'&Hx&Hw').
    assert (Hp : forall i, pub (po s) (trc s) i -> pub (po s') (trc s') i) by (intros i; eapply pub_step; eauto; apply O).
    set (e := mkEv t (if w then KWr (PData x) else KRd (PData x)) : pev) in *. change (news (po s) (PUse t x w)) with [e] in T.
    assert (Last : knows (trc s') t (length (trc s))) by (rewrite T; exact (knows_self (trc s) e)).
    assert (Ex : forall u v, has (po s) u = Some true -> has (po s) v <> None -> v = u).
    { intros u v. unfold has. destruct (told (fpcs (po s) u)); [|discriminate]. destruct (told (fpcs (po s) v)); [|congruence]. apply H_excl; auto. }
    constructor; auto; try rewrite G.
    - intros u i (y&Hi). rewrite T in Hi. apply nth_snoc in Hi as [(_&Hi)|(->&Hi)].
      + destruct (W u i) as [P|P]; [now exists y|left; rewrite <- G; auto|auto].
      + right. unfold e in Hi. injection Hi as -> Hi. destruct w; [|discriminate]. now rewrite Hx, Hw'.
    - intros u i (y&Hi). rewrite T in Hi. apply nth_snoc in Hi as [(_&Hi)|(->&Hi)].
      + destruct (R u i) as [P|P]; [now exists y|left; rewrite <- G; auto|auto].
      + right. unfold e in Hi. injection Hi as -> Hi. congruence.
    - intros u v i Hu (y&Hi). rewrite T in Hi. apply nth_snoc in Hi as [(_&Hi)|(->&Hi)].
      + rewrite T. apply knows_more. apply (KW u v); auto. now exists y.
      + unfold e in Hi. injection Hi as -> Hi. destruct w; [|discriminate]. rewrite (Ex t u); auto. now rewrite Hx, Hw'.
    - intros u v i Hu (y&Hi). rewrite T in Hi. apply nth_snoc in Hi as [(_&Hi)|(->&Hi)].
      + rewrite T. apply knows_more. apply (KR u v); auto. now exists y.
      + unfold e in Hi. injection Hi as -> Hi. rewrite <- (Ex u t) by (auto; congruence). exact Last.
    - intros y. rewrite T. apply ordered_snoc; auto. intros i a Hi (_&Ta&Te&Cf). change (thr e) with t. destruct a as [v k]. unfold touches in Ta. simpl in Ta.
      destruct Ta as [-> | ->].
      + destruct Cf as [Cf|Cf]; [discriminate|]. apply (KR t v); [|now exists y]. unfold e in Cf. destruct w; [|discriminate]. now rewrite Hx, Hw'.
      + apply (KW t v); [congruence|now exists y].
  Qed.

  Lemma ci_step : forall s l s', CI s -> J (po s) -> J (po s') -> pstep s l = Some s' -> CI s'.
  Proof.
    intros s l s' I Js Js' H. pose proof (pstep_po _ _ H) as G. destruct l as [[t o|t b]|t|t x w].
    - apply (ci_keep I H); [discriminate|]. intros u. simpl in G. destruct (fpcs (po s) t) eqn:E; try discriminate. injection G as <-.
      unfold has. simpl. destruct (Nat.eq_dec u t) as [-> |Nu]; [|now rewrite upd_other]. rewrite upd_same, E. simpl. now rewrite H_entry.
    - destruct (fpcs (po s) t) as [|o l|o l|o l|o l|o l|o l|o l|o gr r] eqn:E;
        try (apply (ci_keep I H); [discriminate|]; intros u; simpl in G; rewrite E in G;
             repeat match goal with H : context[if ?c then _ else _] |- _ => destruct c; try discriminate H end;
             injection G as <-; unfold has; simpl; (destruct (Nat.eq_dec u t) as [-> |Nu]; [now rewrite upd_same, E|now rewrite upd_other]); fail).
      + simpl in G. rewrite E in G. discriminate.
      + eapply ci_seg; eauto.
      + apply (ci_keep I H); [discriminate|]. intros u. simpl in G. rewrite E in G. destruct gr as [|g gr]; injection G as <-; unfold has; simpl;
          (destruct (Nat.eq_dec u t) as [-> |Nu]; [now rewrite upd_same, E|now rewrite upd_other]).
    - apply (ci_keep I H); [discriminate|]. intros u. now rewrite G.
    - eapply ci_use; eauto.
  Qed.
  Theorem clients_ordered : forall ls s, run pstep (pinit Op Res Aux Loc d0) ls = Some s -> C (fhist (po s)) -> CI s.
  Proof.
    assert (A : forall ls s, run pstep (pinit Op Res Aux Loc d0) ls = Some s -> (exists ls, run fstep (finit Op Res Aux Loc d0) ls = Some (po s)) /\ (C (fhist (po s)) -> CI s)).
    { intros ls s. apply (run_inv pstep (fun s => (exists ls, run fstep (finit Op Res Aux Loc d0) ls = Some (po s)) /\ (C (fhist (po s)) -> CI s))).
      - split; [now exists []|]. intros _. apply ci_init.
      - clear ls s. intros s l s' ((ls&Hr)&I) H. pose proof (pstep_po _ _ H) as G.
        assert (Hr' : exists ls, run fstep (finit Op Res Aux Loc d0) ls = Some (po s')).
        { destruct l; [|rewrite G; eauto|rewrite G; eauto]. exists (ls ++ [l]). rewrite run_app, Hr. simpl. now rewrite G. }
        split; auto. intros Cs'. assert (Cs : C (fhist (po s))).
        { destruct l; [|now rewrite <- G|now rewrite <- G]. destruct (hist_more _ _ G) as (es&Eh). rewrite Eh in Cs'. eauto. }
        eapply ci_step; [auto|split; eauto|split; auto|exact H]. }
    intros ls s H Cs. now apply (proj2 (A ls s H)).
  Qed.
End P.
