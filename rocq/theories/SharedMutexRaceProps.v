(** Property C98, second half: does co_shared_mutex order the accesses of its holders in the C++ sense? *)
From Coq Require Import List Arith Bool Lia.
From Verif Require Import Base RaceSpec RaceLemmas RaceCheck SpinInv LinSpec SharedMutexSpec SpinObj SpinObjProofs SharedMutexModel SharedMutexProofs SpinRaceModel SpinRace.
Import ListNotations.

(** The rule for clients: data is written while holding the mutex exclusively, read while holding it in either mode. *)
Definition smay (h : list sev) (t : tid) (w : bool) : bool :=
  match hold h t with Some true => true | Some false => negb w | None => false end.
Definition spstep := pstep sentry sseg smay.
Definition spinit := pinit sop sres saux sloc sd0.

Definition swl (l : sloc) : bool := match l with LW3 | LS3 => true | _ => false end.
Definition sgood (h : list sev) : Prop := no_reacquire h /\ unmixed h.
Local Notation J := (J sentry sseg sd0 sgood).
Local Notation Fs := (fst_ sdat sop sres saux sloc).
Local Notation has_ := (@has sdat sop sres saux sloc hx swl).

Lemma sgood_app : forall es h, sgood (es ++ h) -> sgood h.
Proof. intros es h (A&B). split; [eapply nra_app|eapply unmixed_app]; eauto. Qed.
Lemma s_reach : forall s, J s -> exists a, R s a /\ Inv a.
Proof. intros s ((ls&H)&A&B). eapply sh_reach; eauto. Qed.
Lemma s_use : forall s t w, J s -> fpcs s t = FOut -> smay (fhist s) t w = true ->
  exists w', hx (fdat s) t = Some w' /\ (w = true -> w' = true).
Proof.
  intros s t w Js E M. destruct (s_reach s Js) as (a&HR&HI). unfold smay in M. rewrite (r_hist HR) in M. rewrite (r_dat HR).
  destruct (hold (ahist a) t) as [b|] eqn:Eh; [|discriminate]. exists b. split; [now apply inv_hold_hx|]. intros ->. now destruct b.
Qed.
Lemma hx_excl : forall a t u, Inv a -> hx (adat a) t = Some true -> hx (adat a) u <> None -> u = t.
Proof.
  intros a t u HI Ht Hu. pose proof (i_ty a HI) as Hty. unfold hx in *. destruct (mem t (sow (adat a))) eqn:E1; [|discriminate].
  destruct (mem u (sow (adat a))) eqn:E2; [|congruence]. destruct (sty (adat a)); try discriminate. destruct Hty as (v&Ev). rewrite Ev in *.
  apply mem_in in E1. apply mem_in in E2. simpl in *. intuition congruence.
Qed.
Lemma s_excl : forall s t u, J s -> hx (fdat s) t = Some true -> hx (fdat s) u <> None -> u = t.
Proof. intros s t u Js. destruct (s_reach s Js) as (a&HR&HI). rewrite (r_dat HR). now apply hx_excl. Qed.

Lemma has_hx : forall (s : Fs) u, hx (fdat s) u = None -> has_ s u = None.
Proof. intros s u E. unfold has. rewrite E. now destruct (told _ _). Qed.
(** Nothing changes for the others, and t has nothing (or goes on as before). *)
Lemma s_keep : forall (s s' : Fs) t, sty (fdat s') = sty (fdat s) -> sow (fdat s') = sow (fdat s) ->
  (hx (fdat s) t = None \/ told swl (fpcs s' t) = told swl (fpcs s t)) -> seg_ok hx swl s s' t.
Proof.
  intros s s' t A B T. assert (E : forall u, hx (fdat s') u = hx (fdat s) u) by (intros u; unfold hx; now rewrite A, B). split.
  - intros u _. left. apply E.
  - rewrite E. destruct T as [T|T]; auto.
Qed.
(** t gets the mutex. *)
Lemma s_wtake : forall (s s' : Fs) t q, sow (fdat s) = [] -> fdat s' = mkSd TUnique (insert t (sow (fdat s))) q -> seg_ok hx swl s s' t.
Proof.
  intros s s' t q O E. rewrite O in E. assert (N : forall u, hx (fdat s) u = None) by (intros u; unfold hx; now rewrite O). split.
  - intros u Nu. left. rewrite N, E. unfold hx. simpl. destruct (Nat.eqb u t) eqn:X; [apply Nat.eqb_eq in X; congruence|reflexivity].
  - right. right. split; [now apply has_hx|]. exists true. split; [|intros v; now apply has_hx]. rewrite E. unfold hx. simpl. now rewrite Nat.eqb_refl.
Qed.
Lemma s_stake : forall (s s' : Fs) t q, is_sh (fdat s) = true -> hx (fdat s) t = None -> (sty (fdat s) = TUnlocked -> sow (fdat s) = []) ->
  fdat s' = mkSd TShared (insert t (sow (fdat s))) q -> seg_ok hx swl s s' t.
Proof.
  intros s s' t q Sh N U E.
  assert (M : mem t (sow (fdat s)) = false).
  { unfold hx in N. unfold is_sh in Sh. destruct (mem t (sow (fdat s))) eqn:X; auto. destruct (sty (fdat s)); try discriminate. rewrite U in X by auto. discriminate. }
  split.
  - intros u Nu. left. rewrite E. unfold hx, insert. simpl. rewrite M. simpl. destruct (Nat.eqb u t) eqn:X; [apply Nat.eqb_eq in X; congruence|]. simpl.
    unfold is_sh in Sh. fold (mem u (sow (fdat s))). destruct (sty (fdat s)); try discriminate; auto. rewrite U by auto. reflexivity.
  - right. right. split; [now apply has_hx|]. exists false. split.
    + rewrite E. unfold hx, insert. simpl. rewrite M. simpl. now rewrite Nat.eqb_refl.
    + intros v. unfold has, hx, is_sh in *. destruct (told _ _); [|discriminate]. destruct (mem v _); [|discriminate]. destruct (sty (fdat s)); discriminate.
Qed.

(** A parked coroutine has not been told. *)
Lemma in_line_untold : forall (s : Fs) a w u, R s a -> Inv a -> In (w, u) (sq (fdat s)) -> told swl (fpcs s u) = false.
Proof.
  intros s a w u HR HI H. pose proof (i_thr a HI u) as HT. pose proof (r_thr HR u) as Th. unfold T in HT. rewrite (r_dat HR) in H.
  assert (Hi : In u (map snd (sq (adat a)))) by (apply in_map_iff; now exists (w, u)).
  destruct (athr a u) as [|o1 l1|o1 l1|o1 r1]; [exfalso; apply HT, Hi|exfalso; apply HT, Hi| |exfalso; apply HT, Hi].
  destruct HT as (w1&->&->&_&[(M&_)|(_&N&_)]); [|exfalso; apply N, Hi]. rewrite M in Th.
  destruct (fpcs s u); simpl in Th; try discriminate; try (injection Th as <- <-; simpl; now destruct w1); destruct Th as [Th|(_&Th)]; discriminate.
Qed.

Lemma s_rel : forall (s s' : Fs) a t gs, R s a -> Inv a -> mem t (sow (fdat s)) = true -> ~ In t (map snd (sq (fdat s))) ->
  (fdat s', gs) = wake_up_waiters (mkSd (sty (fdat s)) (erase t (sow (fdat s))) (sq (fdat s))) -> seg_ok hx swl s s' t.
Proof.
  intros s s' a t gs HR HI Mt Nq W. unfold wake_up_waiters in W. simpl in W.
  assert (Er : forall u, u <> t -> mem u (erase t (sow (fdat s))) = mem u (sow (fdat s))).
  { intros u Nu. destruct (mem u (sow (fdat s))) eqn:X.
    - apply mem_in. apply without_in. split; auto. now apply mem_in.
    - apply mem_nin. intros Y. apply without_in in Y as (Y&_). apply mem_in in Y. congruence. }
  assert (Et : mem t (erase t (sow (fdat s))) = false) by (apply mem_nin; intros Y; apply without_in in Y as (_&Y); congruence).
  destruct (erase t (sow (fdat s))) as [|x rest] eqn:Ee.
  - assert (N : forall u, u <> t -> hx (fdat s) u = None) by (intros u Nu; unfold hx; now rewrite <- Er by auto).
    assert (G : forall ow ty, (forall u, In u ow -> In u (map snd (sq (fdat s)))) -> sow (fdat s') = ow -> sty (fdat s') = ty -> seg_ok hx swl s s' t).
    { intros ow ty Sub Eo _. split.
      - intros u Nu. destruct (mem u ow) eqn:X.
        + right. split; [now apply has_hx, N|]. apply mem_in in X. apply Sub in X. apply in_map_iff in X as ((w&u')&Eu&X). simpl in Eu. subst u'.
          eapply in_line_untold; eauto.
        + left. rewrite N by auto. unfold hx. now rewrite Eo, X.
      - left. unfold hx. rewrite Eo. destruct (mem t ow) eqn:X; auto. apply mem_in in X. exfalso. auto. }
    destruct (sq (fdat s)) as [|(w&u) q'] eqn:Eq.
    + injection W as W _. eapply G; try (rewrite W; reflexivity). intros v [].
    + destruct w.
      * injection W as W _. eapply G; try (rewrite W; reflexivity). simpl. intros v [<-|[]]. auto.
      * destruct (remove_if (fun x => negb (fst x)) ((false, u) :: q')) as (l'&it) eqn:Er'. injection W as W _.
        eapply G; try (rewrite W; reflexivity). intros v Hv. cbn [sow] in Hv. apply fold_insert_in in Hv as [[]|Hv]. apply in_map_iff in Hv as ((w&v')&<-&Hv).
        apply in_skipn in Hv. apply in_map_iff. exists (w, v'). split; auto.
        assert (X : In (w, v') (fst (remove_if (fun x : bool * tid => negb (fst x)) ((false, u) :: q')))) by now rewrite Er'. now apply remove_if_in in X.
  - injection W as W _. assert (N : fdat s' = mkSd (sty (fdat s)) (x :: rest) (sq (fdat s))) by exact W. split.
    + intros u Nu. left. rewrite N. unfold hx. cbn [sow sty]. now rewrite Er.
    + left. rewrite N. unfold hx. cbn [sow sty]. now rewrite Et.
Qed.

Lemma s_seg : forall s t o l b s', J s -> J s' -> fpcs s t = FIn o l -> fstep sentry sseg s (SRun t b) = Some s' -> seg_ok hx swl s s' t.
Proof.
  intros s t o l b s' Js _ E H. destruct (s_reach s Js) as (a&HR&HI). simpl in H. rewrite E in H.
  assert (TT : told swl (fpcs s t) = negb (swl l)) by now rewrite E.
  pose proof (i_thr a HI t) as HT. pose proof (r_thr HR t) as Th. rewrite E in Th. simpl in Th. pose proof (i_ty a HI) as Ty.
  rewrite <- (r_dat HR) in *.
  assert (K : (swl l = false /\ athr a t = AReady o l) \/ (swl l = true /\ athr a t = AParked o l)).
  { unfold T in HT. destruct Th as [Th|(Th&_)]; rewrite Th in HT.
    - left. split; auto. destruct HT as (_&_&_&[(X&_)|[(_&->&_)|(_&->&_)]]); auto. now destruct l.
    - right. split; auto. destruct HT as (w&_&->&_). now destruct w. }
  destruct K as [(Wl&Ea)|(Wl&Ea)]; rewrite Ea in HT; clear Th; unfold T in HT.
  - destruct HT as (_&_&Nq&HT). rewrite Wl in TT. simpl in TT.
    assert (Acq : acq_loc o l -> hx (fdat s) t = None) by (intros A; destruct HT as [(_&_&X)|[(->&->&_)|(->&->&_)]]; auto; contradiction).
    assert (Mt : acq_loc o l -> mem t (sow (fdat s)) = false).
    { intros A. specialize (Acq A). unfold hx in Acq. destruct (mem t (sow (fdat s))) eqn:X; auto. destruct (sty (fdat s)); try discriminate.
      destruct Ty as (Y&_). rewrite Y in X. discriminate. }
    assert (Un : sty (fdat s) = TUnlocked -> sow (fdat s) = []) by (intros X; rewrite X in Ty; apply Ty).
    assert (Aq : match l with LWu | LSu => True | _ => acq_loc o l end).
    { destruct HT as [(X&_)|[(->&->&_)|(->&->&_)]]; auto. destruct l; auto. }
    assert (KK : forall d h p, sty d = sty (fdat s) -> sow d = sow (fdat s) -> acq_loc o l -> seg_ok hx swl s (mkF (fspin s) d (fmark s) (upd (fpcs s) t p) h) t).
    { intros d h p A B Ac. apply s_keep; auto. }
    destruct l; try discriminate; unfold sseg in H.
    + destruct (sow (fdat s)) eqn:Es; [injection H as <-; eapply s_wtake; [exact Es|simpl; now rewrite Es]|].
      destruct b; [unfold spark in H; rewrite Es, (Mt Aq) in H|]; injection H as <-; apply KK; auto.
    + destruct (sow (fdat s)) eqn:Es; [injection H as <-; eapply s_wtake; [exact Es|simpl; now rewrite Es]|].
      destruct b; [unfold spark in H; rewrite Es, (Mt Aq) in H|]; injection H as <-; apply KK; auto.
    + destruct (sow (fdat s)) eqn:Es; [injection H as <-; eapply s_wtake; [exact Es|simpl; now rewrite Es]|]. injection H as <-; apply KK; auto.
    + destruct (match sty (fdat s) with TUnique => mem t (sow (fdat s)) | _ => false end) eqn:X.
      * unfold srel in H. destruct (wake_up_waiters _) as (d'&gs) eqn:W. injection H as <-. eapply s_rel; [exact HR|exact HI| |exact Nq|simpl; symmetry; exact W].
        destruct (sty (fdat s)); congruence.
      * injection H as <-. apply s_keep; auto. right. simpl. now rewrite TT, upd_same.
    + destruct (is_sh (fdat s)) eqn:Sh; [injection H as <-; eapply s_stake; eauto; reflexivity|].
      destruct b; [unfold spark in H; rewrite (Mt Aq) in H|]; injection H as <-; apply KK; auto.
    + destruct (is_sh (fdat s)) eqn:Sh; [injection H as <-; eapply s_stake; eauto; reflexivity|].
      destruct b; [unfold spark in H; rewrite (Mt Aq) in H|]; injection H as <-; apply KK; auto.
    + destruct (is_sh (fdat s)) eqn:Sh; [injection H as <-; eapply s_stake; eauto; reflexivity|]. injection H as <-; apply KK; auto.
    + destruct (match sty (fdat s) with TShared => mem t (sow (fdat s)) | _ => false end) eqn:X.
      * unfold srel in H. destruct (wake_up_waiters _) as (d'&gs) eqn:W. injection H as <-. eapply s_rel; [exact HR|exact HI| |exact Nq|simpl; symmetry; exact W].
        destruct (sty (fdat s)); congruence.
      * injection H as <-. apply s_keep; auto. right. simpl. now rewrite TT, upd_same.
  - destruct HT as (w&->&->&_&HT). assert (TF : told swl (fpcs s t) = false) by (rewrite TT; now destruct w).
    assert (Ht : has_ s t = None) by (unfold has; now rewrite TF).
    assert (G : sseg t (if w then WLock else SLock) (if w then LW3 else LS3) b (fdat s) = sloop w t (fdat s)) by now destruct w.
    rewrite G in H. unfold sloop in H. destruct (mem t (sow (fdat s))) eqn:M; injection H as <-.
    + assert (Hx : hx (fdat s) t = Some w).
      { destruct HT as [(_&_&X&_)|(_&_&X&_)]; auto. unfold hx in X. rewrite M in X. destruct (sty (fdat s)); try discriminate. destruct Ty as (Y&_). rewrite Y in M. discriminate. }
      split; [intros; now left|]. right. right. split; auto. exists w. split; auto. intros v. destruct w.
      * destruct (Nat.eq_dec v t) as [-> |Nv]; auto. apply has_hx. destruct (hx (fdat s) v) eqn:Ev; auto. exfalso. apply Nv. rewrite (r_dat HR) in *. apply hx_excl with a; auto. congruence.
      * change (has_ s v <> Some true). unfold has. destruct (told swl (fpcs s v)); [|congruence]. intros Ev. assert (t = v); [|congruence]. rewrite (r_dat HR) in *. apply hx_excl with a; auto. congruence.
    + apply s_keep; auto. left. unfold hx. now rewrite M.
Qed.

(** The members of the mutex are free of races, whoever calls what. *)
Theorem shared_mutex_members_ordered : forall ls s, run spstep spinit ls = Some s -> ordered (trc s) PObj.
Proof. intros ls s H. exact (o_ord (oi_run _ _ _ _ _ H)). Qed.
Print Assumptions shared_mutex_members_ordered.
(** Data written under the exclusive lock and read under either lock is free of races as long as the mutex is never released completely while
    a reader is first in line and a writer waits behind. *)
Theorem shared_mutex_orders_clients_partial : forall ls s x, run spstep spinit ls = Some s ->
  no_reacquire (fhist (po s)) -> unmixed (fhist (po s)) -> ordered (trc s) (PData x).
Proof.
  intros ls s x H A B. assert (I : CI hx swl s); [|apply (c_ord I)].
  exact (@clients_ordered sdat sop sres saux sloc sentry sseg smay sd0 hx swl sgood sgood_app
    (fun o => match o with WLock | WTry | WUnlock | SLock | STry | SUnlock => eq_refl end) s_use s_excl s_seg ls s H (conj A B)).
Qed.
Print Assumptions shared_mutex_orders_clients_partial.
(** In particular if only one coroutine ever asks for exclusive mode. *)
Theorem shared_mutex_orders_single_writer : forall ls s w x, run spstep spinit ls = Some s ->
  no_reacquire (fhist (po s)) -> single_writer w (fhist (po s)) -> ordered (trc s) (PData x).
Proof.
  intros ls s w x H A B. destruct (proj_run _ _ _ _ _ H) as (ls'&H'). eapply shared_mutex_orders_clients_partial; eauto. eapply sw_unmixed; eauto.
Qed.
Print Assumptions shared_mutex_orders_single_writer.

(** 1 holds the mutex exclusively and writes; 2 and 3 want to read and park; 1 unlocks: both are granted; both read; 2 and 3 unlock, 4 takes the
    mutex with try_lock and writes. *)
Definition sruns (t : tid) (n : nat) (b : bool) : list (plbl sop) := repeat (PM (SRun t b)) n.
Definition srdemo : list (plbl sop) :=
  [PM (SCall 1 WLock)] ++ sruns 1 3 false ++ [PUse 1 0 true] ++
  [PM (SCall 2 SLock)] ++ sruns 2 4 true ++ [PM (SCall 3 SLock)] ++ sruns 3 4 true ++
  [PM (SCall 1 WUnlock)] ++ sruns 1 5 false ++ sruns 2 4 false ++ sruns 3 4 false ++ [PUse 2 0 false; PUse 3 0 false] ++
  [PM (SCall 2 SUnlock)] ++ sruns 2 3 false ++ [PM (SCall 3 SUnlock)] ++ sruns 3 3 false ++ [PM (SCall 4 WTry)] ++ sruns 4 3 false ++ [PUse 4 0 true].
Definition data_events (tr : list pev) : list pev := filter (fun e => match act e with KRd (PData _) | KWr (PData _) => true | _ => false end) tr.
Example shared_mutex_orders_clients_case : exists s, run spstep spinit srdemo = Some s /\ no_reacquire (fhist (po s)) /\ unmixed (fhist (po s)) /\
  data_events (trc s) = [mkEv 1 (KWr (PData 0)); mkEv 2 (KRd (PData 0)); mkEv 3 (KRd (PData 0)); mkEv 4 (KWr (PData 0))].
Proof.
  eexists. split; [vm_compute; reflexivity|]. split; [vm_compute; tauto|]. split; [|vm_compute; reflexivity].
  vm_compute. repeat split; intros; try discriminate; try tauto; try (destruct H as [H|H]; discriminate).
  all: try match goal with H : Some _ = Some _ |- _ => injection H as <- end; simpl; intuition (subst; auto).
Qed.

(** In that situation the exclusive holder 3 and the shared holder 4 use the data at the same time: a data race, though every client keeps the
    rules. *)
Definition sync_eq (a b : psync) : {a = b} + {a <> b}. Proof. decide equality; apply Nat.eq_dec. Defined.
Definition loc_eqb (y x : ploc) : bool := match y, x with PObj, PObj => true | PData a, PData b => a =? b | _, _ => false end.
Lemma loc_eqb_eq : forall y x, loc_eqb y x = true -> y = x.
Proof. intros [|a] [|b] H; simpl in H; try discriminate; auto. apply Nat.eqb_eq in H. now subst. Qed.
Definition srace : list (plbl sop) :=
  [PM (SCall 1 WLock)] ++ sruns 1 3 false ++
  [PM (SCall 2 SLock)] ++ sruns 2 4 true ++ [PM (SCall 3 WLock)] ++ sruns 3 4 true ++ [PM (SCall 4 SLock)] ++ sruns 4 4 true ++
  [PM (SCall 1 WUnlock)] ++ sruns 1 5 false ++ sruns 3 4 false ++ sruns 4 4 false ++ [PUse 3 0 true; PUse 4 0 false].
Theorem shared_mutex_orders_clients_refuted : exists ls s, run spstep spinit ls = Some s /\ no_reacquire (fhist (po s)) /\ race (trc s) (PData 0).
Proof.
  exists srace. eexists. split; [vm_compute; reflexivity|]. split; [vm_compute; tauto|]. cbv [trc].
  match goal with |- race ?t _ => apply (raceb_race sync_eq loc_eqb loc_eqb_eq t (length t - 2) (length t - 1)) end. vm_compute. reflexivity.
Qed.
Print Assumptions shared_mutex_orders_clients_refuted.
(** One writer and two readers. *)
Example shared_mutex_orders_single_writer_case : exists s, run spstep spinit (firstn 38 srdemo) = Some s /\ no_reacquire (fhist (po s)) /\ single_writer 1 (fhist (po s)) /\
  data_events (trc s) = [mkEv 1 (KWr (PData 0)); mkEv 2 (KRd (PData 0)); mkEv 3 (KRd (PData 0))].
Proof. eexists. split; [vm_compute; reflexivity|]. vm_compute. tauto. Qed.
