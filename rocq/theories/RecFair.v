(** co_recursive_mutex under fair scheduling: every call returns (atomic model). *)
From Coq Require Import List Arith Bool NArith Lia.
From Verif Require Import Base LinSpec LinLemmas MutexSpec RecMutexSpec SpinObj SpinObjProofs RecMutexModel RecMutexProofs FairSpec SpinFair.
Import ListNotations.

Local Notation A := (ast rdat mop mres maux rloc).

Lemma depth_drop : forall (a : A) l a' u, ars a l = Some a' -> (0 < depth (ahist a) u)%N -> depth (ahist a') u = 0%N ->
  l = ACall u OUnlock /\ depth (ahist a) u = 1%N.
Proof.
  assert (LL : forall lin (h : list mev) u, depth (log_lin lin h) u = depth h u) by (intros lin; induction lin as [|x lin IH]; intros h u; simpl; auto; now rewrite IH).
  assert (LX : forall t xs (h : list mev) u, depth (log_xs t xs h) u = depth h u) by (intros t xs; induction xs as [|x xs IH]; intros h u; simpl; auto; now rewrite IH).
  intros a l a' u H P Z. destruct l as [t o|t b|t]; unfold ars in H; simpl in H.
  - destruct (athr a t); try discriminate. injection H as <-. simpl in Z. destruct o; try lia. destruct (Nat.eqb_spec t u) as [->|N]; [split; auto; lia|lia].
  - assert (Q : forall o l, depth (ahist (ado rseg a t o l b)) u = depth (ahist a) u).
    { intros o l. unfold ado. destruct (rseg t o l b (adat a)); simpl; rewrite ?LL, ?LX; auto. }
    destruct (athr a t); try discriminate; [|destruct (amark a t); [discriminate|]]; injection H as <-; rewrite Q in Z; lia.
  - destruct (athr a t) as [| | |o r]; try discriminate. injection H as <-. simpl in Z. destruct o, r; try lia; destruct (Nat.eqb t u); lia.
Qed.

Section Run.
  Variables (at_ : nat -> A) (al : nat -> option (albl mop)).
  Hypothesis EX : execution _ _ ars ari at_ al.
  Hypothesis WF : weakly_fair _ _ ars (@awho mop) at_ al.
  Hypothesis SH : forall n, shallow (ahist (at_ n)).
  Hypothesis CK : forall t n, exists m, n <= m /\ ((al m = Some (ARun t true) /\ athr (at_ m) t = AReady OLock RTry) \/
                     forall k, m <= k -> ~ (al k = Some (ARun t false) /\ athr (at_ k) t = AReady OLock RTry)).
  Hypothesis HU : forall u n, (0 < depth (ahist (at_ n)) u)%N -> exists m, n <= m /\ depth (ahist (at_ m)) u = 0%N.
  Notation mv := (moves _ (@awho mop) al).

  Lemma at_inv : forall n, Inv (at_ n).
  Proof.
    induction n as [|n IH]; [rewrite (proj1 EX); apply inv_init|]. pose proof (proj2 EX n) as Hs. pose proof (SH (S n)) as Sh. destruct (al n) as [l|]; [|now rewrite Hs].
    eapply inv_step; eauto.
  Qed.
  Definition fires := @block_runs _ _ _ _ _ rentry rseg rd0 at_ al EX WF.
  Definition leaves := @done_leaves _ _ _ _ _ rentry rseg rd0 at_ al EX WF.

  (** The owner: stays so, at the same depth, as long as it makes no step. *)
  Definition releases (u n : nat) : Prop := exists b, al n = Some (ARun u b) /\ athr (at_ n) u = AReady OUnlock RUn /\ rn (adat (at_ n)) = 1%N.
  Lemma rel_dec : forall u n, {releases u n} + {~ releases u n}.
  Proof.
    intros u n. unfold releases. destruct (al n) as [[v o|v b|v]|] eqn:E; try (right; intros (b'&X&_); discriminate).
    destruct (Nat.eq_dec v u) as [->|N]; [|right; intros (b'&X&_); injection X; intros; congruence].
    destruct (athr (at_ n) u) as [|[] []| |]; try (right; intros (b'&_&X&_); discriminate).
    destruct (N.eq_dec (rn (adat (at_ n))) 1); [left; exists b; auto|right; intros (b'&_&_&X); contradiction].
  Qed.
  (** What a step does to the owner and to the queue, if it is not a release by the owner. *)
  Lemma keep1 : forall u n, ro (adat (at_ n)) = Some u -> ~ releases u n ->
    ro (adat (at_ (S n))) = Some u /\ (exists r, rq (adat (at_ (S n))) = rq (adat (at_ n)) ++ r) /\ (~ mv u n -> rn (adat (at_ (S n))) = rn (adat (at_ n))).
  Proof.
    intros u n O NR. pose proof (at_inv n) as I. pose proof (i_own _ I) as Own. rewrite O in Own.
    assert (Z : forall d, d = adat (at_ n) -> ro d = Some u /\ (exists r, rq d = rq (adat (at_ n)) ++ r) /\ (~ mv u n -> rn d = rn (adat (at_ n)))).
    { intros d ->. split; auto. split; auto. exists []. now rewrite app_nil_r. }
    pose proof (proj2 EX n) as Hs. destruct (al n) as [[v o|v b|v]|] eqn:E; [| | |rewrite Hs; now apply Z]; unfold ars in Hs; simpl in Hs.
    - destruct (athr (at_ n) v); try discriminate. injection Hs as <-. now apply Z.
    - pose proof (i_thr _ I v) as Tv. unfold T in Tv.
      assert (B : forall o l, at_ (S n) = ado rseg (at_ n) v o l b -> (athr (at_ n) v = AReady o l \/ l = RLoop) -> 
        ro (adat (at_ (S n))) = Some u /\ (exists r, rq (adat (at_ (S n))) = rq (adat (at_ n)) ++ r) /\ (~ mv u n -> rn (adat (at_ (S n))) = rn (adat (at_ n)))).
      { intros o l -> Hl. unfold ado. assert (M : v = u -> mv u n) by (intros ->; exists (ARun u b); auto). unfold rseg, rpark, rtake, owns. rewrite O.
        destruct l; [| | | |].
        - destruct (Nat.eqb_spec u v) as [->|N].
          + cbn. split; auto. split; [exists []; now rewrite app_nil_r|]. intros X. exfalso. apply X. now apply M.
          + destruct b; cbn; [split; auto; split; eauto|now apply Z].
        - destruct b; [|now apply Z]. destruct (Nat.eqb_spec u v) as [->|N]; cbn; split; auto; split; eauto.
        - destruct (Nat.eqb_spec u v) as [->|N]; cbn; now apply Z.
        - destruct (Nat.eqb_spec u v) as [->|N]; cbn.
          + split; auto. split; [exists []; now rewrite app_nil_r|]. intros X. exfalso. apply X. now apply M.
          + now apply Z.
        - destruct Hl as [Hl|Hl]; [|discriminate]. rewrite Hl in Tv. destruct Tv as (_&_&_&Eo&_). subst o.
          destruct (Nat.eqb_spec u v) as [->|N]; [|now apply Z]. rewrite dec_ok by exact Own.
          destruct (N.eqb_spec (rn (adat (at_ n)) - 1) 0) as [W|W].
          + exfalso. apply NR. exists b. split; auto. split; auto. lia.
          + cbn. split; auto. split; [exists []; now rewrite app_nil_r|]. intros X. exfalso. apply X. now apply M. }
      destruct (athr (at_ n) v) as [|o l|o l|o r] eqn:P; try discriminate.
      + apply (B o l); auto. now injection Hs.
      + destruct (amark (at_ n) v); [discriminate|]. apply (B o l); [now injection Hs|]. right. tauto.
    - destruct (athr (at_ n) v); try discriminate. injection Hs as <-. now apply Z.
  Qed.
  Lemma keep : forall u n m, n <= m -> ro (adat (at_ n)) = Some u -> (forall k, n <= k < m -> ~ releases u k) ->
    ro (adat (at_ m)) = Some u /\ (exists r, rq (adat (at_ m)) = rq (adat (at_ n)) ++ r).
  Proof.
    intros u n m L O. induction L as [|m L IH]; intros H; [split; auto; exists []; now rewrite app_nil_r|].
    destruct IH as (O'&r&Q); [intros k K; apply H; lia|]. destruct (keep1 u m O') as (O2&(r'&Q')&_); [apply H; lia|].
    split; auto. exists (r ++ r'). now rewrite Q', Q, app_assoc.
  Qed.
  Lemma keep_n : forall u n m, n <= m -> ro (adat (at_ n)) = Some u -> (forall k, n <= k < m -> ~ mv u k) ->
    ro (adat (at_ m)) = Some u /\ rn (adat (at_ m)) = rn (adat (at_ n)).
  Proof.
    intros u n m L O. induction L as [|m L IH]; intros H; [auto|].
    destruct IH as (O'&Q); [intros k K; apply H; lia|]. destruct (keep1 u m O') as (O2&_&G).
    - intros (b&E&_). apply (H m); [lia|]. exists (ARun u b). auto.
    - split; auto. rewrite G by (apply H; lia). exact Q.
  Qed.
  Lemma quiet_rel : forall u n m, (forall k, n <= k < m -> ~ mv u k) -> forall k, n <= k < m -> ~ releases u k.
  Proof. intros u n m H k K (b&E&_). apply (H k K). exists (ARun u b). auto. Qed.

  (** *** The holder lets go *)
  Lemma unlock_releases : forall u n, athr (at_ n) u = AReady OUnlock RUn -> ro (adat (at_ n)) = Some u -> rn (adat (at_ n)) = 1%N -> exists m, n <= m /\ releases u m.
  Proof.
    intros u n P O N1. destruct (fires u n OUnlock RUn) as (m&b&L&Q&E&P'&_&_); [auto|]. destruct (keep_n u n m L O Q) as (_&N2).
    exists m. split; auto. exists b. split; auto. split; congruence.
  Qed.
  Lemma out_releases : forall u n, athr (at_ n) u = AOut -> ro (adat (at_ n)) = Some u -> exists m, n <= m /\ releases u m.
  Proof.
    intros u n P O. pose proof (at_inv n) as I. pose proof (i_thr _ I u) as T0. unfold T in T0. rewrite P in T0. destruct T0 as (_&Dp&_).
    pose proof (i_own _ I) as Own. rewrite O in Own. unfold dd in Dp. rewrite (proj2 (owns_true _ _) O) in Dp.
    destruct (HU u n) as (m0&L0&Z0); [rewrite Dp; lia|].
    destruct (@first_ge (fun m => depth (ahist (at_ m)) u = 0%N) (fun m => N.eq_dec _ _) n m0 L0 Z0) as (m&(L&_)&Z&Fm).
    destruct m as [|m]; [assert (n = 0) by lia; subst n; lia|]. assert (Ln : n <= m) by (destruct (Nat.eq_dec n (S m)) as [->|]; lia).
    pose proof (Fm m ltac:(lia)) as Nz. pose proof (proj2 EX m) as Hs. destruct (al m) as [l|] eqn:E; [|rewrite Hs in Z; contradiction]. cbv beta in Z, Fm.
    destruct (depth_drop _ _ _ _ Hs (proj1 (N.neq_0_lt_0 _) Nz) Z) as (->&D1). unfold ars in Hs. simpl in Hs. pose proof (i_thr _ (at_inv m) u) as Tm. unfold T in Tm.
    destruct (athr (at_ m) u) eqn:Pm; try discriminate. destruct Tm as (_&Dm&_). unfold dd in Dm. destruct (owns (adat (at_ m)) u) eqn:Om; [|lia].
    destruct (unlock_releases u (S m)) as (k&K&X); [injection Hs as <-; simpl; now rewrite upd_same|injection Hs as <-; simpl; now apply owns_true|injection Hs as <-; simpl; congruence|].
    exists k. split; [lia|auto].
  Qed.
  Lemma done_releases : forall u n o r, athr (at_ n) u = ADone o r -> ro (adat (at_ n)) = Some u -> exists m, n <= m /\ releases u m.
  Proof.
    intros u n o r P O. destruct (leaves u n o r P) as (m&L&Q&E&P'&_&Ed). destruct (keep_n u n m L O Q) as (Om&_).
    destruct (out_releases u (S m)) as (k&K&X); [auto|congruence|]. exists k. split; [lia|auto].
  Qed.
  Lemma owner_releases : forall u n, ro (adat (at_ n)) = Some u -> exists m, n <= m /\ releases u m.
  Proof.
    intros u n O. pose proof (at_inv n) as I. pose proof (i_thr _ I u) as T0. unfold T in T0.
    assert (W : owns (adat (at_ n)) u = true) by now apply owns_true.
    assert (Blk : forall o l, (athr (at_ n) u = AReady o l \/ athr (at_ n) u = AParked o l /\ amark (at_ n) u = false) ->
      (forall b d, ro d = Some u -> (0 < rn d < 2 ^ 64)%N -> (l = RUn -> rn d <> 1%N) -> exists d' lin gr r, rseg u o l b d = SFin d' lin gr r /\ ro d' = Some u) ->
      o = OUnlock \/ l <> RUn -> exists m, n <= m /\ releases u m).
    { intros o l H G Hol. destruct (fires u n o l H) as (m&b&L&Q&E&P'&_&Ea). destruct (keep_n u n m L O Q) as (Om&_).
      pose proof (i_own _ (at_inv m)) as Ownm. rewrite Om in Ownm.
      destruct (rel_dec u m) as [Rl|Rl]; [eauto|].
      destruct (G b (adat (at_ m)) Om Ownm) as (d'&lin&gr&r&Es&Od).
      { intros -> N1. destruct Hol as [-> |Hol]; [|congruence]. apply Rl. exists b. split; auto. split; auto. rewrite P'. destruct H as [H|(H&_)]; auto.
        exfalso. rewrite H in T0. destruct T0 as (X&_). discriminate. }
      unfold ado in Ea. rewrite Es in Ea. destruct (done_releases u (S m) o r) as (k&K&X); [rewrite Ea; simpl; now rewrite upd_same|rewrite Ea; exact Od|]. exists k. split; [lia|auto]. }
    destruct (athr (at_ n) u) as [|o l|o l|o r] eqn:P.
    - now apply out_releases.
    - destruct T0 as (_&_&_&T0). destruct l; try tauto.
      + apply (Blk o RFirst); auto; [|right; discriminate]. intros b d Od _ _. unfold rseg, rtake. rewrite Od, Nat.eqb_refl. repeat eexists.
      + destruct T0 as (_&_&X). congruence.
      + apply (Blk o RTryL); auto; [|right; discriminate]. intros b d Od _ _. unfold rseg, rtake. rewrite Od, Nat.eqb_refl. repeat eexists.
      + apply (Blk o RUn); auto; [|tauto]. intros b d Od Nd N1. unfold rseg. rewrite (proj2 (owns_true _ _) Od), dec_ok by exact Nd.
        destruct (N.eqb_spec (rn d - 1) 0) as [X|X]; [exfalso; apply N1; auto; lia|]. cbn. repeat eexists. exact Od.
    - destruct T0 as (->&->&_&[(_&_&X&_)|(Mk&_&_&_&_)]); [congruence|].
      apply (Blk OLock RLoop); auto; [|right; discriminate]. intros b d Od _ _. unfold rseg. rewrite (proj2 (owns_true _ _) Od). repeat eexists. exact Od.
    - now apply done_releases with o r.
  Qed.

  (** *** The line *)
  Definition returns (t n : nat) (o : mop) : Prop := exists r, al n = Some (ALeave t) /\ ahist (at_ (S n)) = ERet t o r :: ahist (at_ n).
  Lemma done_returns : forall t n o r, athr (at_ n) t = ADone o r -> exists m, n <= m /\ returns t m o.
  Proof. intros t n o r P. destruct (leaves t n o r P) as (m&L&_&E&_&Eh&_). exists m. split; auto. exists r. auto. Qed.
  Lemma granted : forall t n, athr (at_ n) t = AParked OLock RLoop -> amark (at_ n) t = false -> exists m, n <= m /\ returns t m OLock.
  Proof.
    intros t n P Mk. destruct (fires t n OLock RLoop) as (m&b&L&Q&E&P'&Mk'&Ea); [auto|]. pose proof (i_thr _ (at_inv m) t) as T0. unfold T in T0. rewrite P', P in T0.
    destruct T0 as (_&_&_&[(X&_)|(_&_&W&_)]); [rewrite (Mk' Mk) in X; discriminate|]. unfold ado, rseg in Ea. rewrite W in Ea.
    destruct (done_returns t (S m) OLock ROk) as (k&K&X); [rewrite Ea; simpl; now rewrite upd_same|]. exists k. split; [lia|auto].
  Qed.
  Lemma queued : forall q1 t q2 n, rq (adat (at_ n)) = q1 ++ t :: q2 -> exists m, n <= m /\ returns t m OLock.
  Proof.
    induction q1 as [|v q1 IH]; intros t q2 n Q.
    all: pose proof (i_own _ (at_inv n)) as Own; destruct (ro (adat (at_ n))) as [u|] eqn:O; [|destruct Own as (Own&_); rewrite Own in Q; discriminate].
    all: destruct (owner_releases u n O) as (m0&L0&R0); destruct (@first_ge (releases u) (rel_dec u) n m0 L0 R0) as (m&(L&_)&Rl&Fm).
    all: destruct (keep u n m L O Fm) as (Om&r&Qm); destruct Rl as (b&E&P&N1); pose proof (proj2 EX m) as Hs; rewrite E in Hs; unfold ars in Hs; simpl in Hs; rewrite P in Hs.
    all: unfold ado, rseg in Hs; rewrite (proj2 (owns_true _ _) Om), N1, Qm, Q in Hs; cbn in Hs; injection Hs as Ea.
    - assert (It : In t (rq (adat (at_ m)))) by (rewrite Qm, Q; now left). pose proof (i_thr _ (at_inv m) t) as T0. unfold T in T0.
      assert (Pt : athr (at_ m) t = AParked OLock RLoop).
      { destruct (athr (at_ m) t) as [|o l|o l|o r']; try tauto. destruct T0 as (->&->&_). reflexivity. }
      destruct (granted t (S m)) as (k&K&X); [| |exists k; split; [lia|auto]].
      + rewrite <- Ea. cbn. rewrite upd_other; auto. intros ->. congruence.
      + rewrite <- Ea. cbn. unfold unmark. simpl. now rewrite Nat.eqb_refl.
    - destruct (IH t (q2 ++ r) (S m)) as (k&K&X); [rewrite <- Ea; cbn; now rewrite <- app_assoc|]. exists k. split; [lia|auto].
  Qed.

  (** *** Before the line *)
  Lemma parked_returns : forall t n, athr (at_ n) t = AParked OLock RLoop -> exists m, n <= m /\ returns t m OLock.
  Proof.
    intros t n P. pose proof (i_thr _ (at_inv n) t) as T0. unfold T in T0. rewrite P in T0. destruct T0 as (_&_&_&[(_&It&_)|(Mk&_)]).
    - apply in_split in It as (q1&q2&Eq). now apply (queued q1 t q2).
    - now apply granted.
  Qed.
  Definition past (t n : nat) : Prop := athr (at_ n) t = AParked OLock RLoop \/ athr (at_ n) t = ADone OLock ROk.
  Lemma past_returns : forall t n, past t n -> exists m, n <= m /\ returns t m OLock.
  Proof. intros t n [P|P]; [now apply parked_returns|now apply (done_returns t n OLock ROk)]. Qed.
  Lemma try_step : forall t n b, athr (at_ n) t = AReady OLock RTry -> al n = Some (ARun t b) -> past t (S n) \/ b = false /\ athr (at_ (S n)) t = AReady OLock RTry.
  Proof.
    intros t n b P E. pose proof (proj2 EX n) as Hs. rewrite E in Hs. unfold ars in Hs. simpl in Hs. rewrite P in Hs. injection Hs as Ea. rewrite <- Ea. unfold past. rewrite <- Ea.
    unfold ado, rseg, rpark, rtake. destruct b; [left|].
    - destruct (ro (adat (at_ n))); [destruct (owns (adat (at_ n)) t)|]; cbn; rewrite upd_same; auto.
    - destruct (ro (adat (at_ n))); cbn; rewrite upd_same; auto.
  Qed.
  Lemma try_until : forall t n m, n <= m -> athr (at_ n) t = AReady OLock RTry -> athr (at_ m) t = AReady OLock RTry \/ exists k, n <= k <= m /\ past t k.
  Proof.
    intros t n m L P. induction L as [|m L [IH|(k&K&X)]]; auto; [|right; exists k; split; [lia|auto]].
    destruct (@amv_dec mop al t m) as [(l&E&W)|M].
    - destruct l as [u o|u b|u]; [discriminate| |]; injection W as ->.
      + destruct (try_step t m b IH E) as [X|(_&X)]; auto. right. exists (S m). split; [lia|auto].
      + pose proof (proj2 EX m) as Hs. rewrite E in Hs. unfold ars in Hs. simpl in Hs. rewrite IH in Hs. discriminate.
    - left. rewrite <- IH. eapply (@astay1 _ _ _ _ _ rentry rseg rd0 at_ al EX t m); auto. congruence.
  Qed.
  Lemma try_returns : forall t n, athr (at_ n) t = AReady OLock RTry -> exists m, n <= m /\ returns t m OLock.
  Proof.
    intros t n P. assert (X : exists k, n <= k /\ past t k).
    { destruct (CK t n) as (m&L&[(E&Pm)|H]).
      - destruct (try_step t m true Pm E) as [X|(X&_)]; [|discriminate]. exists (S m). split; [lia|auto].
      - destruct (try_until t n m L P) as [Pm|(k&K&X)]; [|exists k; split; [lia|auto]].
        destruct (fires t m OLock RTry) as (k&b&K&_&E&Pk&_&_); [auto|]. rewrite Pm in Pk. destruct (try_step t k b Pk E) as [X|(->&_)]; [exists (S k); split; [lia|auto]|].
        exfalso. now apply (H k). }
    destruct X as (k&K&X). destruct (past_returns t k X) as (m&M&Y). exists m. split; [lia|auto].
  Qed.
  Lemma call_returns_at : forall t n o, al n = Some (ACall t o) -> exists m, n < m /\ returns t m o.
  Proof.
    intros t n o E. pose proof (@call_enters _ _ _ _ _ rentry rseg rd0 at_ al EX t n o E) as P.
    destruct (fires t (S n) o (rentry o)) as (m&b&L&Q&Em&P'&_&Ea); [auto|].
    assert (X : exists k, S m <= k /\ returns t k o); [|destruct X as (k&K&X); exists k; split; [lia|auto]].
    assert (Fin : forall d lin gr r, rseg t o (rentry o) b (adat (at_ m)) = SFin d lin gr r -> exists k, S m <= k /\ returns t k o).
    { intros d lin gr r Es. unfold ado in Ea. rewrite Es in Ea. apply (done_returns t (S m) o r). rewrite Ea. simpl. apply upd_same. }
    destruct o; unfold rentry in *; simpl in *; unfold rtake, rpark in *.
    - destruct (ro (adat (at_ m))) as [u|] eqn:O; [|eapply Fin; reflexivity]. destruct (Nat.eqb_spec u t) as [Eu|N]; [eapply Fin; reflexivity|].
      unfold ado in Ea. unfold rseg, rpark in Ea. rewrite O in Ea. destruct (Nat.eqb_spec u t) as [|_]; [contradiction|]. destruct b.
      + assert (W : owns (adat (at_ m)) t = false) by (apply owns_false; congruence). rewrite W in Ea.
        apply parked_returns. rewrite Ea. simpl. apply upd_same.
      + apply try_returns. rewrite Ea. simpl. apply upd_same.
    - destruct (ro (adat (at_ m))) as [u|]; [destruct (u =? t)|]; eapply Fin; reflexivity.
    - destruct (owns (adat (at_ m)) t); [|eapply Fin; reflexivity].
      destruct (negb (dec64 (rn (adat (at_ m))) =? 0)%N); [eapply Fin; reflexivity|]. destruct (rq (adat (at_ m))); eapply Fin; reflexivity.
  Qed.
End Run.
