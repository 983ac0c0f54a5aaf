(** co_shared_mutex under fair scheduling (atomic model): every call returns, except that a writer may starve while readers keep coming. *)
From Coq Require Import List Arith Bool Lia.
From Verif Require Import Base LinSpec LinLemmas SharedMutexSpec SpinObj SpinObjProofs SharedMutexModel SharedMutexProofs FairSpec SpinFair.
Import ListNotations.

Local Notation A := (ast sdat sop sres saux sloc).

Lemma hold_drop : forall (a : A) l a' u, ass a l = Some a' -> hold (ahist a) u <> None -> hold (ahist a') u = None ->
  exists o, (o = WUnlock \/ o = SUnlock) /\ l = ACall u o /\ hold (ahist a) u = Some (rel_mode o).
Proof.
  assert (LL : forall lin (h : list sev) u, hold (log_lin lin h) u = hold h u) by (intros lin; induction lin as [|x lin IH]; intros h u; simpl; auto; now rewrite IH).
  assert (LX : forall t xs (h : list sev) u, hold (log_xs t xs h) u = hold h u) by (intros t xs; induction xs as [|x xs IH]; intros h u; simpl; auto; now rewrite IH).
  intros a l a' u H P Z. destruct l as [t o|t b|t]; unfold ass in H; simpl in H.
  - destruct (athr a t); try discriminate. injection H as <-. simpl in Z. destruct o; try contradiction; (destruct (Nat.eqb_spec t u) as [->|N]; [|contradiction]).
    + exists WUnlock. split; auto. split; auto. simpl. destruct (hold (ahist a) u) as [[]|]; try discriminate; congruence.
    + exists SUnlock. split; auto. split; auto. simpl. destruct (hold (ahist a) u) as [[]|]; try discriminate; congruence.
  - assert (Q : forall o l, hold (ahist (ado sseg a t o l b)) u = hold (ahist a) u).
    { intros o l. unfold ado. destruct (sseg t o l b (adat a)); simpl; rewrite ?LL, ?LX; auto. }
    destruct (athr a t); try discriminate; [|destruct (amark a t); [discriminate|]]; injection H as <-; rewrite Q in Z; contradiction.
  - destruct (athr a t) as [| | |o r]; try discriminate. injection H as <-. simpl in Z. destruct o, r; try contradiction; destruct (Nat.eqb t u); congruence.
Qed.

(** What a step can do to the data. *)
Definition reads (o : sop) : bool := match o with SLock | STry => true | _ => false end.
Definition thr_op (x : ath sop sres sloc) : option sop := match x with AOut => None | AReady o _ | AParked o _ | ADone o _ => Some o end.
Inductive dmove (a : A) (l : option (albl sop)) (a' : A) : Prop :=
| m_same : adat a' = adat a -> dmove a l a'
| m_write v : sow (adat a) = [] -> adat a' = mkSd TUnique [v] (sq (adat a)) -> dmove a l a'
| m_read v o : is_sh (adat a) = true -> thr_op (athr a v) = Some o -> reads o = true -> adat a' = mkSd TShared (insert v (sow (adat a))) (sq (adat a)) -> dmove a l a'
| m_park w v : sow (adat a) <> [] -> (w = false -> sty (adat a) = TUnique) -> adat a' = mkSd (sty (adat a)) (sow (adat a)) (sq (adat a) ++ [(w, v)]) -> dmove a l a'
| m_rel o v b : (o = WUnlock \/ o = SUnlock) -> l = Some (ARun v b) -> athr a v = AReady o (rel_loc o) -> hx (adat a) v = Some (rel_mode o) ->
    erase v (sow (adat a)) <> [] -> adat a' = mkSd (sty (adat a)) (erase v (sow (adat a))) (sq (adat a)) -> dmove a l a'
| m_free o v b : (o = WUnlock \/ o = SUnlock) -> l = Some (ARun v b) -> athr a v = AReady o (rel_loc o) -> hx (adat a) v = Some (rel_mode o) ->
    erase v (sow (adat a)) = [] -> adat a' = fst (wake_up_waiters (mkSd (sty (adat a)) [] (sq (adat a)))) -> front_ok (sq (adat a)) -> dmove a l a'.

Lemma srel_case : forall a v b o a', Inv a -> (o = WUnlock \/ o = SUnlock) -> athr a v = AReady o (rel_loc o) -> hx (adat a) v = Some (rel_mode o) ->
  a' = match srel v o (adat a) with
       | SYield d l' => mkA d (upd (athr a) v (AReady o l')) (amark a) (ahist a)
       | SPark d xs l' => mkA d (upd (athr a) v (AParked o l')) (upd (amark a) v true) (log_xs v xs (ahist a))
       | SFin d lin gr r => mkA d (upd (athr a) v (ADone o r)) (unmark gr (amark a)) (log_lin lin (ahist a))
       end -> unmixed (ahist a') -> dmove a (Some (ARun v b)) a'.
Proof.
  intros a v b o a' I Ho P H Ea U. unfold srel in Ea. destruct (erase v (sow (adat a))) as [|x ow] eqn:Er.
  - destruct (wake_up_waiters (mkSd (sty (adat a)) [] (sq (adat a)))) as (d', gs) eqn:W.
    apply m_free with o v b; auto; [rewrite Ea, W; reflexivity|]. subst a'. cbn [ahist] in U.
    assert (U1 : unmixed (ELin v o SOk :: ahist a)) by (unfold log_lin in U; cbn [fold_left fst snd] in U; exact (unmixed_log_lin _ _ U)).
    destruct U1 as (U1&_). apply U1 with (q := sq (adat a)); auto; [|exact (i_line _ I)].
    rewrite seq_lin, (i_seq _ I). unfold rwof. unfold hx in H. destruct (mem v (sow (adat a))) eqn:M; [|discriminate]. pose proof (i_ty _ I) as Ty.
    destruct (sty (adat a)) eqn:St; destruct Ho as [-> | ->]; simpl in H; try discriminate.
    + destruct Ty as (u&Eu). rewrite Eu in *. simpl in M. rewrite orb_false_r in M. apply Nat.eqb_eq in M. subst u. simpl. now rewrite Nat.eqb_refl.
    + simpl. rewrite M. unfold erase in Er. rewrite Er. reflexivity.
  - apply m_rel with o v b; auto; [congruence|]. rewrite Er. subst a'. reflexivity.
Qed.
Lemma step_case : forall a l a', Inv a -> ass a l = Some a' -> unmixed (ahist a') -> dmove a (Some l) a'.
Proof.
  intros a l a' I H U. destruct l as [t o|t b|t]; unfold ass in H; simpl in H.
  - destruct (athr a t); try discriminate. injection H as <-. now apply m_same.
  - pose proof (i_thr _ I t) as T0. unfold T in T0. pose proof (i_ty _ I) as Ty.
    destruct (athr a t) as [|o l|o l|o r] eqn:P; try discriminate.
    + injection H as Ea. destruct T0 as (_&_&_&T0). unfold ado in Ea. destruct l; cbn [sseg] in Ea;
        try (exfalso; destruct T0 as [(X&_)|[(_&X&_)|(_&X&_)]]; first [contradiction|discriminate]).
      * destruct (sow (adat a)) as [|x ow] eqn:O; [subst a'; apply m_write with t; [auto|cbn; now rewrite O]|]. destruct b.
        -- assert (M : mem t (sow (adat a)) = false) by (destruct T0 as [(_&_&X)|[(_&X&_)|(_&X&_)]]; try discriminate; apply mem_nin; now apply hx_none). rewrite <- O in *.
           unfold spark in Ea. rewrite M in Ea. subst a'. apply m_park with true t; auto; congruence.
        -- subst a'. now apply m_same.
      * destruct (sow (adat a)) as [|x ow] eqn:O; [subst a'; apply m_write with t; [auto|cbn; now rewrite O]|]. destruct b.
        -- assert (M : mem t (sow (adat a)) = false) by (destruct T0 as [(_&_&X)|[(_&X&_)|(_&X&_)]]; try discriminate; apply mem_nin; now apply hx_none). rewrite <- O in *.
           unfold spark in Ea. rewrite M in Ea. subst a'. apply m_park with true t; auto; congruence.
        -- subst a'. now apply m_same.
      * destruct (sow (adat a)) as [|x ow] eqn:O; [subst a'; apply m_write with t; [auto|cbn; now rewrite O]|]. subst a'. now apply m_same.
      * destruct (match sty (adat a) with TUnique => mem t (sow (adat a)) | _ => false end) eqn:C; [|subst a'; now apply m_same].
        assert (o = WUnlock) by (destruct T0 as [(X&_)|[(X&_)|(_&X&_)]]; [contradiction|auto|discriminate]). subst o.
        apply srel_case with WUnlock; auto. unfold hx. destruct (sty (adat a)); try discriminate. now rewrite C.
      * destruct (is_sh (adat a)) eqn:Sh.
        -- subst a'. apply m_read with t o; auto; [now rewrite P|]. destruct T0 as [(X&_)|[(_&X&_)|(_&X&_)]]; try discriminate. simpl in X. now subst o.
        -- destruct b; [|subst a'; now apply m_same].
           assert (M : mem t (sow (adat a)) = false) by (destruct T0 as [(_&_&X)|[(_&X&_)|(_&X&_)]]; try discriminate; apply mem_nin; now apply hx_none).
           unfold spark in Ea. rewrite M in Ea. subst a'. unfold is_sh in Sh. destruct (sty (adat a)) eqn:St; try discriminate. apply m_park with false t; auto; [destruct Ty as (u&->); discriminate|now rewrite St].
      * destruct (is_sh (adat a)) eqn:Sh.
        -- subst a'. apply m_read with t o; auto; [now rewrite P|]. destruct T0 as [(X&_)|[(_&X&_)|(_&X&_)]]; try discriminate. simpl in X. now subst o.
        -- destruct b; [|subst a'; now apply m_same].
           assert (M : mem t (sow (adat a)) = false) by (destruct T0 as [(_&_&X)|[(_&X&_)|(_&X&_)]]; try discriminate; apply mem_nin; now apply hx_none).
           unfold spark in Ea. rewrite M in Ea. subst a'. unfold is_sh in Sh. destruct (sty (adat a)) eqn:St; try discriminate. apply m_park with false t; auto; [destruct Ty as (u&->); discriminate|now rewrite St].
      * destruct (is_sh (adat a)) eqn:Sh; [|subst a'; now apply m_same].
        subst a'. apply m_read with t o; auto; [now rewrite P|]. destruct T0 as [(X&_)|[(_&X&_)|(_&X&_)]]; try discriminate. simpl in X. now subst o.
      * destruct (match sty (adat a) with TShared => mem t (sow (adat a)) | _ => false end) eqn:C; [|subst a'; now apply m_same].
        assert (o = SUnlock) by (destruct T0 as [(X&_)|[(_&X&_)|(X&_)]]; [contradiction|discriminate|auto]). subst o.
        apply srel_case with SUnlock; auto. unfold hx. destruct (sty (adat a)); try discriminate. now rewrite C.
    + destruct (amark a t) eqn:M; [discriminate|]. injection H as <-. destruct T0 as (w&->&->&_&[(X&_)|(_&_&Hx&_)]); [congruence|].
      assert (Me : mem t (sow (adat a)) = true) by (unfold hx in Hx; destruct (mem t (sow (adat a))); [auto|discriminate]).
      apply m_same. unfold ado. destruct w; cbn [sseg]; unfold sloop; rewrite Me; reflexivity.
  - destruct (athr a t); try discriminate. injection H as <-. now apply m_same.
Qed.
(** What a complete release leaves behind. *)
Lemma wake_case : forall ty q, front_ok q -> let d := fst (wake_up_waiters (mkSd ty [] q)) in
  (sq d = [] /\ (sty d = TUnlocked \/ sty d = TShared /\ forall x, In x q -> fst x = false)) \/ exists u q', q = (true, u) :: q' /\ d = mkSd TUnique [u] q'.
Proof.
  intros ty q Fo. unfold wake_up_waiters. cbn [sow sq]. destruct q as [|([], u) q']; [left; auto|right; exists u, q'; auto|]. left.
  rewrite (remove_if_all _ (fun x : bool * tid => negb (fst x)) (false, u) q') by (intros y Y; now rewrite (Fo y Y)). cbn. auto.
Qed.

Section Run.
  Variables (at_ : nat -> A) (al : nat -> option (albl sop)).
  Hypothesis EX : execution _ _ ass asi at_ al.
  Hypothesis WF : weakly_fair _ _ ass (@awho sop) at_ al.
  Hypothesis NR : forall n, no_reacquire (ahist (at_ n)).
  Hypothesis UM : forall n, unmixed (ahist (at_ n)).
  Definition timed (l : sloc) : Prop := l = LW2 \/ l = LS2.
  Hypothesis CK : forall t n, exists m, n <= m /\ ((al m = Some (ARun t true) /\ exists o l, athr (at_ m) t = AReady o l /\ timed l) \/
                     forall k, m <= k -> ~ (al k = Some (ARun t false) /\ exists o l, athr (at_ k) t = AReady o l /\ timed l)).
  Hypothesis HU : forall u n, hold (ahist (at_ n)) u <> None -> exists m, n <= m /\ hold (ahist (at_ m)) u = None.
  Notation mv := (moves _ (@awho sop) al).
  Notation dat n := (adat (at_ n)).

  Lemma at_inv : forall n, Inv (at_ n).
  Proof.
    induction n as [|n IH]; [rewrite (proj1 EX); apply inv_init|]. pose proof (proj2 EX n) as Hs. pose proof (NR (S n)) as N. pose proof (UM (S n)) as U. destruct (al n) as [l|]; [|now rewrite Hs].
    eapply inv_step; eauto.
  Qed.
  Lemma dm : forall n, dmove (at_ n) (al n) (at_ (S n)).
  Proof.
    intros n. pose proof (proj2 EX n) as Hs. destruct (al n) as [l|]; [|apply m_same; now rewrite Hs]. apply step_case; auto. apply at_inv.
  Qed.
  Definition fires := @block_runs _ _ _ _ _ sentry sseg sd0 at_ al EX WF.
  Definition leaves := @done_leaves _ _ _ _ _ sentry sseg sd0 at_ al EX WF.
  Definition stays := @astay1 _ _ _ _ _ sentry sseg sd0 at_ al EX.

  (** *** The owners let go *)
  Definition releases (u n : nat) : Prop := exists o b, (o = WUnlock \/ o = SUnlock) /\ al n = Some (ARun u b) /\ athr (at_ n) u = AReady o (rel_loc o) /\ hx (dat n) u = Some (rel_mode o).
  Lemma rel_dec : forall u n, {releases u n} + {~ releases u n}.
  Proof.
    intros u n. unfold releases. destruct (al n) as [[v o|v b|v]|] eqn:E; try (right; intros (o'&b'&_&X&_); discriminate).
    destruct (Nat.eq_dec v u) as [->|N]; [|right; intros (o'&b'&_&X&_); injection X; intros; congruence].
    destruct (athr (at_ n) u) as [|o l| |] eqn:P; try (right; intros (o'&b'&_&_&X&_); discriminate).
    destruct (hx (dat n) u) as [w|] eqn:H; [|right; intros (o'&b'&_&_&_&X); discriminate].
    destruct o, l, w; try (right; intros (o'&b'&[-> | ->]&_&X&Y); discriminate); left; [exists WUnlock, b|exists SUnlock, b]; auto.
  Qed.
  Lemma rel_mv : forall u n, releases u n -> mv u n.
  Proof. intros u n (o&b&_&E&_). exists (ARun u b). auto. Qed.
  Lemma hx_sow : forall d u w, hx d u = Some w -> In u (sow d).
  Proof. intros d u w H. apply mem_in. unfold hx in H. now destruct (mem u (sow d)). Qed.
  Lemma keep1 : forall u n w, hx (dat n) u = Some w -> ~ releases u n -> hx (dat (S n)) u = Some w.
  Proof.
    intros u n w H N. pose proof (hx_sow _ _ _ H) as Iu. destruct (dm n) as [E|v Z E|v o Sh _ _ E|w' v _ _ E|o v b Ho El P Hv Er E|o v b Ho El P Hv Er E Fo]; rewrite ?E; auto.
    - rewrite Z in Iu. destruct Iu.
    - unfold hx in *. cbn [sow sty]. rewrite (proj2 (mem_in u (insert v (sow (dat n))))); [|unfold insert; destruct (mem v (sow (dat n))); [auto|now right]].
      destruct (mem u (sow (dat n))); [|discriminate]. unfold is_sh in Sh. destruct (sty (dat n)); congruence.
    - assert (v <> u) by (intros ->; apply N; exists o, b; auto). unfold hx in *. cbn [sow sty]. destruct (mem u (sow (dat n))); [|discriminate].
      rewrite (proj2 (mem_in u (erase v (sow (dat n))))); auto. apply without_in. auto.
    - exfalso. assert (v <> u) by (intros ->; apply N; exists o, b; auto). assert (X : In u (erase v (sow (dat n)))) by (apply without_in; auto). rewrite Er in X. destruct X.
  Qed.
  Lemma keep : forall u n m w, n <= m -> hx (dat n) u = Some w -> (forall k, n <= k < m -> ~ releases u k) -> hx (dat m) u = Some w.
  Proof.
    intros u n m w L H. induction L as [|m L IH]; intros G; auto. apply keep1; [apply IH; intros k K; apply G; lia|apply G; lia].
  Qed.
  Lemma keep_q : forall u n m w, n <= m -> hx (dat n) u = Some w -> (forall k, n <= k < m -> ~ mv u k) -> hx (dat m) u = Some w.
  Proof. intros u n m w L H G. apply (keep u n m w L H). intros k K X. apply (G k K). now apply rel_mv. Qed.
  Lemma out_releases : forall u n w, athr (at_ n) u = AOut -> hx (dat n) u = Some w -> exists m, n <= m /\ releases u m.
  Proof.
    intros u n w P H. pose proof (i_thr _ (at_inv n) u) as T0. unfold T in T0. rewrite P in T0. destruct T0 as (_&Hh&_). rewrite H in Hh.
    destruct (HU u n) as (m0&L0&Z0); [congruence|].
    assert (D : forall m, {hold (ahist (at_ m)) u = None} + {hold (ahist (at_ m)) u <> None}) by (intros m; destruct (hold (ahist (at_ m)) u); [right; discriminate|auto]).
    destruct (@first_ge (fun m => hold (ahist (at_ m)) u = None) D n m0 L0 Z0) as (m&(L&_)&Z&Fm). cbv beta in Z, Fm.
    destruct m as [|m]; [assert (n = 0) by lia; subst n; congruence|]. assert (Ln : n <= m) by (destruct (Nat.eq_dec n (S m)) as [->|]; [congruence|lia]).
    pose proof (Fm m ltac:(lia)) as Nz. pose proof (proj2 EX m) as Hs. destruct (al m) as [l|] eqn:E; [|rewrite Hs in Z; contradiction].
    destruct (hold_drop _ _ _ _ Hs Nz Z) as (o&Ho&->&Hm). unfold ass in Hs. simpl in Hs. pose proof (i_thr _ (at_inv m) u) as Tm. unfold T in Tm.
    destruct (athr (at_ m) u) eqn:Pm; try discriminate. destruct Tm as (_&Hm2&_). rewrite Hm in Hm2.
    assert (Pn : athr (at_ (S m)) u = AReady o (rel_loc o)) by (injection Hs as <-; simpl; rewrite upd_same; destruct Ho as [-> | ->]; reflexivity).
    assert (Hn : hx (dat (S m)) u = Some (rel_mode o)) by (injection Hs as <-; simpl; auto).
    destruct (fires u (S m) o (rel_loc o)) as (k&b&K&Q&Ek&Pk&_&_); [auto|]. exists k. split; [lia|]. exists o, b. split; auto. split; auto. split; [congruence|]. apply (keep_q u (S m) k); auto.
  Qed.
  Lemma done_releases : forall u n o r w, athr (at_ n) u = ADone o r -> hx (dat n) u = Some w -> exists m, n <= m /\ releases u m.
  Proof.
    intros u n o r w P H. destruct (leaves u n o r P) as (m&L&Q&E&P'&_&Ed). pose proof (keep_q u n m w L H Q) as Hm.
    destruct (out_releases u (S m) w) as (k&K&X); [auto|rewrite Ed; exact Hm|]. exists k. split; [lia|auto].
  Qed.
  Lemma owner_releases : forall u n w, hx (dat n) u = Some w -> exists m, n <= m /\ releases u m.
  Proof.
    intros u n w H. pose proof (i_thr _ (at_inv n) u) as T0. unfold T in T0. destruct (athr (at_ n) u) as [|o l|o l|o r] eqn:P.
    - now apply out_releases with w.
    - assert (Ho : (o = WUnlock \/ o = SUnlock) /\ l = rel_loc o).
      { destruct T0 as (_&_&_&[(_&_&X)|[(->&->&_)|(->&->&_)]]); [congruence|auto|auto]. } destruct Ho as (Ho&->). clear T0.
      destruct (fires u n o (rel_loc o)) as (m&b&L&Q&E&P'&_&Ea); [auto|]. pose proof (keep_q u n m w L H Q) as Hm.
      destruct (rel_dec u m) as [X|X]; [eauto|]. pose proof (keep1 u m w Hm X) as Hs.
      assert (Nm : hx (dat m) u <> Some (rel_mode o)) by (intros Y; apply X; exists o, b; split; auto; split; auto; split; [congruence|auto]).
      destruct (done_releases u (S m) o SThrow w) as (k&K&Y); [|auto|exists k; split; [lia|auto]]. rewrite Ea. unfold ado.
      destruct Ho as [-> | ->]; cbn [rel_loc sseg].
      + destruct (match sty (dat m) with TUnique => mem u (sow (dat m)) | _ => false end) eqn:C; [|simpl; apply upd_same].
        exfalso. apply Nm. unfold hx. destruct (sty (dat m)); try discriminate. now rewrite C.
      + destruct (match sty (dat m) with TShared => mem u (sow (dat m)) | _ => false end) eqn:C; [|simpl; apply upd_same].
        exfalso. apply Nm. unfold hx. destruct (sty (dat m)); try discriminate. now rewrite C.
    - destruct T0 as (w'&->&->&_&[(_&_&X&_)|(Mk&_)]); [congruence|].
      destruct (fires u n (if w' then WLock else SLock) (if w' then LW3 else LS3)) as (m&b&L&Q&E&P'&_&Ea); [auto|]. pose proof (keep_q u n m w L H Q) as Hm.
      assert (Me : mem u (sow (dat m)) = true) by (apply mem_in; eapply hx_sow; eauto).
      destruct (done_releases u (S m) (if w' then WLock else SLock) SOk w) as (k&K&Y); [| |exists k; split; [lia|auto]].
      + rewrite Ea. unfold ado. destruct w'; cbn [sseg]; unfold sloop; rewrite Me; simpl; apply upd_same.
      + apply keep1; auto. intros (o'&b'&_&_&X&_). rewrite P', P in X. discriminate.
    - now apply done_releases with o r w.
  Qed.

  (** *** The line *)
  Definition returns (t n : nat) (o : sop) : Prop := exists r, al n = Some (ALeave t) /\ athr (at_ (S n)) t = AOut /\ ahist (at_ (S n)) = ERet t o r :: ahist (at_ n).
  Lemma done_returns : forall t n o r, athr (at_ n) t = ADone o r -> exists m, n <= m /\ returns t m o.
  Proof. intros t n o r P. destruct (leaves t n o r P) as (m&L&_&E&Po&Eh&_). exists m. split; auto. exists r. auto. Qed.
  Definition wop (w : bool) : sop := if w then WLock else SLock.
  Definition wloc (w : bool) : sloc := if w then LW3 else LS3.
  Lemma granted : forall t n w, athr (at_ n) t = AParked (wop w) (wloc w) -> amark (at_ n) t = false -> exists m, n <= m /\ returns t m (wop w).
  Proof.
    intros t n w P Mk. destruct (fires t n (wop w) (wloc w)) as (m&b&L&Q&E&P'&Mk'&Ea); [auto|]. pose proof (i_thr _ (at_inv m) t) as T0. unfold T in T0. rewrite P', P in T0.
    destruct T0 as (w'&_&_&_&[(X&_)|(_&_&Hx&_)]); [rewrite (Mk' Mk) in X; discriminate|]. assert (Me : mem t (sow (dat m)) = true) by (apply mem_in; eapply hx_sow; eauto).
    destruct (done_returns t (S m) (wop w) SOk) as (k&K&X); [|exists k; split; [lia|auto]].
    rewrite Ea. unfold ado. destruct w; cbn [sseg wop wloc]; unfold sloop; rewrite Me; simpl; apply upd_same.
  Qed.
  (** In line before a step and not afterwards: granted. *)
  Lemma left_line : forall t n w, In (w, t) (sq (dat n)) -> ~ In (w, t) (sq (dat (S n))) -> exists m, n <= m /\ returns t m (wop w).
  Proof.
    intros t n w I1 I2. destruct (in_line_thr _ w t (at_inv n) I1) as (P&_&_&_). fold (wop w) (wloc w) in P. pose proof (i_thr _ (at_inv n) t) as T0. unfold T in T0. rewrite P in T0.
    assert (Mk : amark (at_ n) t = true).
    { destruct T0 as (w'&_&_&_&[(X&_)|(_&X&_)]); auto. exfalso. apply X. apply (in_map snd) in I1. exact I1. }
    assert (M : ~ mv t n).
    { intros (l&E&W). pose proof (proj2 EX n) as Hs. rewrite E in Hs. unfold ass in Hs. destruct l as [v o|v b|v]; [discriminate| |]; injection W as ->; simpl in Hs; rewrite P in Hs; [|discriminate]. rewrite Mk in Hs. discriminate. }
    destruct (stays t n) as (P'&_); [congruence|auto|]. rewrite P in P'. pose proof (i_thr _ (at_inv (S n)) t) as T1. unfold T in T1. rewrite P' in T1.
    assert (Mk' : amark (at_ (S n)) t = false).
    { destruct T1 as (w'&Eo&_&_&[(_&X&_)|(X&_)]); auto. exfalso. apply I2. destruct w, w'; try discriminate; exact X. }
    destruct (granted t (S n) w P' Mk') as (m&L&X). exists m. split; [lia|auto].
  Qed.
  (** Readers are in line only while a writer has the mutex. *)
  Lemma reader_line : forall n t, In (false, t) (sq (dat n)) -> sty (dat n) = TUnique.
  Proof.
    induction n as [|n IH]; intros t H; [rewrite (proj1 EX) in H; destruct H|].
    destruct (dm n) as [E|v Z E|v o Sh _ _ E|w' v _ Tw E|o v b Ho El P Hv Er E|o v b Ho El P Hv Er E Fo].
    - rewrite E in *. eauto.
    - rewrite E in *. reflexivity.
    - rewrite E in *. cbn in *. apply IH in H. unfold is_sh in Sh. rewrite H in Sh. discriminate.
    - rewrite E in *. cbn in *. apply in_app_or in H. destruct H as [H|[H|[]]]; [eauto|]. injection H as -> _. auto.
    - rewrite E in *. cbn in *. eauto.
    - destruct (wake_case (sty (dat n)) (sq (dat n)) Fo) as [(Q&_)|(u&q'&Q&D)]; rewrite E in *; [rewrite Q in H; destruct H|]. rewrite D. reflexivity.
  Qed.
  (** The writer that has the mutex: until it releases, the line only grows. *)
  Lemma unique_step : forall n, sty (dat n) = TUnique -> exists u, sow (dat n) = [u] /\ hx (dat n) u = Some true /\
    (~ releases u n -> sty (dat (S n)) = TUnique /\ sow (dat (S n)) = [u] /\ exists r, sq (dat (S n)) = sq (dat n) ++ r).
  Proof.
    intros n Ty. pose proof (i_ty _ (at_inv n)) as X. rewrite Ty in X. destruct X as (u&O). exists u. split; auto.
    split; [unfold hx; rewrite O, Ty; simpl; now rewrite Nat.eqb_refl|]. intros N.
    destruct (dm n) as [E|v Z E|v o Sh _ _ E|w' v _ Tw E|o v b Ho El P Hv Er E|o v b Ho El P Hv Er E Fo].
    - rewrite E. split; auto. split; auto. exists []. now rewrite app_nil_r.
    - rewrite Z in O. discriminate.
    - unfold is_sh in Sh. rewrite Ty in Sh. discriminate.
    - rewrite E. cbn. split; auto. split; auto. eauto.
    - exfalso. assert (v = u) by (apply hx_sow in Hv; rewrite O in Hv; destruct Hv as [->|[]]; auto). subst v. apply N. exists o, b. auto.
    - exfalso. assert (v = u) by (apply hx_sow in Hv; rewrite O in Hv; destruct Hv as [->|[]]; auto). subst v. apply N. exists o, b. auto.
  Qed.
  Lemma unique_keep : forall u n m, n <= m -> sty (dat n) = TUnique -> sow (dat n) = [u] -> (forall k, n <= k < m -> ~ releases u k) ->
    sty (dat m) = TUnique /\ sow (dat m) = [u] /\ exists r, sq (dat m) = sq (dat n) ++ r.
  Proof.
    intros u n m L Ty O. induction L as [|m L IH]; intros H; [split; auto; split; auto; exists []; now rewrite app_nil_r|].
    destruct IH as (Ty'&O'&r&Q); [intros k K; apply H; lia|]. destruct (unique_step m Ty') as (u'&O2&_&G). assert (u' = u) by congruence. subst u'.
    destruct G as (Ty2&O3&r'&Q'); [apply H; lia|]. split; auto. split; auto. exists (r ++ r'). now rewrite Q', Q, app_assoc.
  Qed.
  Lemma queued_unique : forall q1 w t q2 n, sty (dat n) = TUnique -> sq (dat n) = q1 ++ (w, t) :: q2 -> exists m, n <= m /\ returns t m (wop w).
  Proof.
    intros q1. induction q1 as [q1 IH] using (induction_ltof1 _ (@length _)). unfold ltof in IH. intros w t q2 n Ty Q.
    destruct (unique_step n Ty) as (u&O&Hu&_). destruct (owner_releases u n true Hu) as (m0&L0&R0).
    destruct (@first_ge (releases u) (rel_dec u) n m0 L0 R0) as (m&(L&_)&Rl&Fm). destruct (unique_keep u n m L Ty O Fm) as (Tym&Om&r&Qm). rewrite Q in Qm.
    assert (It : In (w, t) (sq (dat m))) by (rewrite Qm; apply in_or_app; left; apply in_or_app; right; now left).
    assert (G : (exists k, m <= k /\ returns t k (wop w)) -> exists k, n <= k /\ returns t k (wop w)) by (intros (k&K&X); exists k; split; [lia|auto]).
    apply G. clear G. destruct Rl as (o&b&Ho&El&P&Hr).
    assert (Z : exists o v b, (o = WUnlock \/ o = SUnlock) /\ erase v (sow (dat m)) = [] /\ (al m = Some (ARun v b)) /\ dat (S m) = fst (wake_up_waiters (mkSd (sty (dat m)) [] (sq (dat m)))) /\ front_ok (sq (dat m))).
    { destruct (dm m) as [E|v Z E|v o' Sh _ _ E|w' v Ns Tw E|o' v b' Ho' El' P' Hv Er E|o' v b' Ho' El' P' Hv Er E Fo].
      - exfalso. pose proof (keep1 u) as K. clear K. (* the owner's unlock changes the data *)
        pose proof (proj2 EX m) as Hs. rewrite El in Hs. unfold ass in Hs. simpl in Hs. rewrite P in Hs. injection Hs as Ea. rewrite <- Ea in E.
        assert (o = WUnlock) by (destruct Ho as [-> | ->]; auto; unfold hx in Hr; rewrite Tym in Hr; destruct (mem u (sow (dat m))); discriminate). subst o.
        unfold ado in E. cbn [rel_loc sseg] in E. rewrite Tym, Om in E. simpl in E. rewrite Nat.eqb_refl in E. simpl in E. unfold srel, wake_up_waiters in E. rewrite Om in E. cbn [erase without filter negb] in E.
        rewrite Nat.eqb_refl in E. cbn [negb sow sq] in E. destruct (sq (dat m)) as [|([], x) q'] eqn:Eq; [destruct It| |].
        + cbn in E. rewrite <- E in Eq. cbn in Eq. apply (f_equal (@length _)) in Eq. simpl in Eq. lia.
        + destruct (remove_if _ _) as (l', it) in E. cbn in E. rewrite <- E in Tym. discriminate.
      - exfalso. rewrite Z in Om. discriminate.
      - exfalso. unfold is_sh in Sh. rewrite Tym in Sh. discriminate.
      - exfalso. pose proof (proj2 EX m) as Hs. rewrite El in Hs. unfold ass in Hs. simpl in Hs. rewrite P in Hs. injection Hs as Ea. rewrite <- Ea in E.
        assert (o = WUnlock) by (destruct Ho as [-> | ->]; auto; unfold hx in Hr; rewrite Tym in Hr; destruct (mem u (sow (dat m))); discriminate). subst o.
        unfold ado in E. cbn [rel_loc sseg] in E. rewrite Tym, Om in E. simpl in E. rewrite Nat.eqb_refl in E. simpl in E. unfold srel, wake_up_waiters in E. rewrite Om in E. cbn [erase without filter negb] in E.
        rewrite Nat.eqb_refl in E. cbn [negb sow sq] in E. destruct (sq (dat m)) as [|([], x) q'] eqn:Eq; [destruct It| |].
        + cbn in E. injection E as _ E. apply (f_equal (@length _)) in E. simpl in E. rewrite app_length in E. simpl in E. lia.
        + destruct (remove_if _ _) as (l', it) in E. cbn in E. injection E as E _ _. discriminate.
      - exfalso. assert (v = u) by congruence. subst v. rewrite Om in Er. apply Er. simpl. now rewrite Nat.eqb_refl.
      - exists o', v, b'. auto. }
    destruct Z as (_&_&_&_&_&_&Ed&Fo). destruct (wake_case (sty (dat m)) (sq (dat m)) Fo) as [(Qe&_)|(x&q'&Qx&D)].
    - apply left_line; auto. rewrite Ed, Qe. intros [].
    - rewrite D in Ed. rewrite Qx in Qm. destruct q1 as [|y q1].
      + simpl in Qm. injection Qm as <- <- Eq. apply (left_line x m true); [rewrite Qx; now left|]. rewrite Ed. cbn. intros X.
        pose proof (i_nodup _ (at_inv m)) as Nd. rewrite Qx in Nd. inversion Nd as [|? ? Nx _]; subst. apply Nx. apply (in_map snd) in X. exact X.
      + simpl in Qm. injection Qm as <- Eq. destruct (IH q1) with (w := w) (t := t) (q2 := q2 ++ r) (n := S m) as (k&K&X); [simpl; lia|now rewrite Ed|rewrite Ed; cbn; rewrite Eq; now rewrite <- app_assoc|].
        exists k. split; [lia|auto].
  Qed.
  Lemma reader_parked : forall t n, In (false, t) (sq (dat n)) -> exists m, n <= m /\ returns t m SLock.
  Proof.
    intros t n H. pose proof (reader_line n t H) as Ty. apply in_split in H as (q1&q2&Eq). now apply (queued_unique q1 false t q2).
  Qed.

  (** *** Up to the line *)
  Definition past (t n : nat) (w : bool) : Prop := athr (at_ n) t = AParked (wop w) (wloc w) \/ athr (at_ n) t = ADone (wop w) SOk.
  Definition tloc (w : bool) : sloc := if w then LW2 else LS2.
  Definition floc (w : bool) : sloc := if w then LW1 else LS1.
  Lemma try_step : forall t n b w l, (l = tloc w \/ l = floc w) -> athr (at_ n) t = AReady (wop w) l -> al n = Some (ARun t b) -> past t (S n) w \/ b = false /\ athr (at_ (S n)) t = AReady (wop w) (tloc w).
  Proof.
    intros t n b w l Hl P E. pose proof (proj2 EX n) as Hs. rewrite E in Hs. unfold ass in Hs. simpl in Hs. rewrite P in Hs. injection Hs as Ea. rewrite <- Ea. unfold past. rewrite <- Ea.
    assert (G : forall A (x y z : A), (x = y \/ x = z) -> (x = y) \/ (x = z)) by auto. clear G.
    unfold ado, wop, wloc, tloc, floc in *. destruct w.
    - assert (Es : sseg t WLock l b (dat n) = match sow (dat n) with [] => wtake t WLock SOk (dat n) | _ => if b then spark true t (dat n) else SYield (dat n) LW2 end) by (destruct Hl as [-> | ->]; reflexivity).
      rewrite Es. destruct (sow (dat n)) as [|x ow]; [left; cbn; rewrite upd_same; auto|]. destruct b; [left; unfold spark; destruct (mem t (sow (dat n))); cbn; rewrite upd_same; auto|right; cbn; rewrite upd_same; auto].
    - assert (Es : sseg t SLock l b (dat n) = if is_sh (dat n) then stake t SLock SOk (dat n) else if b then spark false t (dat n) else SYield (dat n) LS2) by (destruct Hl as [-> | ->]; reflexivity).
      rewrite Es. destruct (is_sh (dat n)); [left; cbn; rewrite upd_same; auto|]. destruct b; [left; unfold spark; destruct (mem t (sow (dat n))); cbn; rewrite upd_same; auto|right; cbn; rewrite upd_same; auto].
  Qed.
  Lemma try_until : forall t n m w, n <= m -> athr (at_ n) t = AReady (wop w) (tloc w) -> athr (at_ m) t = AReady (wop w) (tloc w) \/ exists k, n <= k <= m /\ past t k w.
  Proof.
    intros t n m w L P. induction L as [|m L [IH|(k&K&X)]]; auto; [|right; exists k; split; [lia|auto]].
    destruct (@amv_dec sop al t m) as [(l&E&W)|M].
    - destruct l as [u o|u b|u]; [discriminate| |]; injection W as ->.
      + destruct (try_step t m b w (tloc w) (or_introl eq_refl) IH E) as [X|(_&X)]; auto. right. exists (S m). split; [lia|auto].
      + pose proof (proj2 EX m) as Hs. rewrite E in Hs. unfold ass in Hs. simpl in Hs. rewrite IH in Hs. discriminate.
    - left. rewrite <- IH. apply stays; auto. congruence.
  Qed.
  Lemma timed_tloc : forall w, timed (tloc w). Proof. intros []; [now left|now right]. Qed.
  Lemma try_past : forall t n w, athr (at_ n) t = AReady (wop w) (tloc w) -> exists k, n <= k /\ past t k w.
  Proof.
    intros t n w P. destruct (CK t n) as (m&L&[(E&o&l&Pm&Tl)|H]); destruct (try_until t n m w L P) as [X|(k&K&X)]; try (exists k; split; [lia|auto]).
    - destruct (try_step t m true w (tloc w) (or_introl eq_refl) X E) as [Y|(Y&_)]; [|discriminate]. exists (S m). split; [lia|auto].
    - destruct (fires t m (wop w) (tloc w)) as (k&b&K&_&E&Pk&_&_); [auto|]. rewrite X in Pk. destruct (try_step t k b w (tloc w) (or_introl eq_refl) Pk E) as [Y|(->&_)]; [exists (S k); split; [lia|auto]|].
      exfalso. apply (H k K). split; auto. exists (wop w), (tloc w). split; auto. apply timed_tloc.
  Qed.
  Lemma call_past : forall t n w, athr (at_ n) t = AReady (wop w) (floc w) -> exists k, n <= k /\ past t k w.
  Proof.
    intros t n w P. destruct (fires t n (wop w) (floc w)) as (m&b&L&Q&E&P'&_&_); [auto|]. rewrite P in P'.
    destruct (try_step t m b w (floc w) (or_intror eq_refl) P' E) as [X|(_&X)]; [exists (S m); split; [lia|auto]|].
    destruct (try_past t (S m) w X) as (k&K&Y). exists k. split; [lia|auto].
  Qed.
  Lemma reader_past : forall t n, past t n false -> exists m, n <= m /\ returns t m SLock.
  Proof.
    intros t n [P|P]; [|now apply (done_returns t n SLock SOk)]. pose proof (i_thr _ (at_inv n) t) as T0. unfold T in T0. rewrite P in T0.
    destruct T0 as (w&Eo&_&_&[(_&I&_)|(Mk&_)]); [|now apply (granted t n false)]. destruct w; [discriminate|]. now apply reader_parked.
  Qed.
  (** Every call other than lock() returns. *)
  Lemma others_return : forall t n o, o <> WLock -> athr (at_ n) t = AReady o (sentry o) -> exists m, n <= m /\ returns t m o.
  Proof.
    intros t n o No P. destruct o; [contradiction| | | | |].
    - destruct (fires t n WTry LWt) as (m&b&L&Q&E&P'&_&Ea); [auto|]. unfold ado in Ea. cbn [sseg] in Ea. assert (X : exists r, athr (at_ (S m)) t = ADone WTry r).
      { destruct (sow (dat m)); rewrite Ea; cbn; rewrite upd_same; eauto. }
      destruct X as (r&X). destruct (done_returns t (S m) WTry r X) as (k&K&Y). exists k. split; [lia|auto].
    - destruct (fires t n WUnlock LWu) as (m&b&L&Q&E&P'&_&Ea); [auto|]. unfold ado in Ea. cbn [sseg] in Ea. assert (X : exists r, athr (at_ (S m)) t = ADone WUnlock r).
      { unfold srel in Ea. destruct (wake_up_waiters _) as (d', gs) in Ea. destruct (match sty (dat m) with TUnique => mem t (sow (dat m)) | _ => false end); rewrite Ea; cbn; rewrite upd_same; eauto. }
      destruct X as (r&X). destruct (done_returns t (S m) WUnlock r X) as (k&K&Y). exists k. split; [lia|auto].
    - destruct (call_past t n false P) as (k&K&X). destruct (reader_past t k X) as (m&M&Y). exists m. split; [lia|auto].
    - destruct (fires t n STry LSt) as (m&b&L&Q&E&P'&_&Ea); [auto|]. unfold ado in Ea. cbn [sseg] in Ea. assert (X : exists r, athr (at_ (S m)) t = ADone STry r).
      { destruct (is_sh (dat m)); rewrite Ea; cbn; rewrite upd_same; eauto. }
      destruct X as (r&X). destruct (done_returns t (S m) STry r X) as (k&K&Y). exists k. split; [lia|auto].
    - destruct (fires t n SUnlock LSu) as (m&b&L&Q&E&P'&_&Ea); [auto|]. unfold ado in Ea. cbn [sseg] in Ea. assert (X : exists r, athr (at_ (S m)) t = ADone SUnlock r).
      { unfold srel in Ea. destruct (wake_up_waiters _) as (d', gs) in Ea. destruct (match sty (dat m) with TShared => mem t (sow (dat m)) | _ => false end); rewrite Ea; cbn; rewrite upd_same; eauto. }
      destruct X as (r&X). destruct (done_returns t (S m) SUnlock r X) as (k&K&Y). exists k. split; [lia|auto].
  Qed.
  (** A writer gets the mutex when the readers pause. *)
  Hypothesis PA : forall n, exists m, n <= m /\ sty (dat m) <> TShared.
  Lemma in_line_dec : forall (x : bool * tid) n, {~ In x (sq (dat n))} + {~ ~ In x (sq (dat n))}.
  Proof.
    intros x n. destruct (in_dec (fun a b : bool * tid => ltac:(decide equality; [apply Nat.eq_dec|apply bool_dec]) : {a = b} + {a <> b}) x (sq (dat n))); [right|left]; auto.
  Qed.
  Lemma writer_parked : forall t n, In (true, t) (sq (dat n)) -> exists m, n <= m /\ returns t m WLock.
  Proof.
    intros t n H. destruct (PA n) as (m&L&Ns). destruct (in_line_dec (true, t) m) as [X|X].
    - destruct (@first_ge _ (in_line_dec (true, t)) n m L X) as (k&(K&_)&Z&Fk). destruct k as [|k]; [assert (n = 0) by lia; subst n; contradiction|].
      assert (n <= k) by (destruct (Nat.eq_dec n (S k)) as [->|]; [contradiction|lia]).
      destruct (in_dec (fun a b : bool * tid => ltac:(decide equality; [apply Nat.eq_dec|apply bool_dec]) : {a = b} + {a <> b}) (true, t) (sq (dat k))) as [I1|I1]; [|exfalso; apply (Fk k); [lia|auto]].
      destruct (left_line t k true I1 Z) as (j&J&Y). exists j. split; [lia|auto].
    - assert (I1 : In (true, t) (sq (dat m))) by (destruct (in_dec (fun a b : bool * tid => ltac:(decide equality; [apply Nat.eq_dec|apply bool_dec]) : {a = b} + {a <> b}) (true, t) (sq (dat m))); [auto|contradiction]).
      pose proof (i_ty _ (at_inv m)) as Ty. destruct (sty (dat m)) eqn:St; [|clear Ty|contradiction].
      + destruct Ty as (_&Q). rewrite Q in I1. destruct I1.
      + apply in_split in I1 as (q1&q2&Eq). destruct (queued_unique q1 true t q2 m St Eq) as (k&K&X'). exists k. split; [lia|auto].
  Qed.
  Lemma writer_returns : forall t n, athr (at_ n) t = AReady WLock LW1 -> exists m, n <= m /\ returns t m WLock.
  Proof.
    intros t n P. destruct (call_past t n true P) as (k&K&[X|X]); [|destruct (done_returns t k WLock SOk X) as (m&M&Y); exists m; split; [lia|auto]].
    assert (G : exists m, k <= m /\ returns t m WLock); [|destruct G as (m&M&Y); exists m; split; [lia|auto]].
    pose proof (i_thr _ (at_inv k) t) as T0. unfold T in T0. rewrite X in T0. destruct T0 as (w&Eo&_&_&[(_&I&_)|(Mk&_)]); [|now apply (granted t k true)].
    destruct w; [|discriminate]. now apply writer_parked.
  Qed.
End Run.
