(** co_mutex under fair scheduling: every call returns. *)
From Coq Require Import List Arith Bool Lia.
From Verif Require Import Base SpinInv LinSpec LinLemmas MutexSpec MutexModel MutexProofs FairSpec.
Import ListNotations.

Definition mwho (l : lbl) : option nat := match l with Run t _ => Some t | Call _ _ => None end.
(** A coroutine that asks the clock again and again (co_utils.cpp 10) is told at some time that its deadline has passed. *)
Definition clock_runs (st : nat -> MutexModel.st) (lb : nat -> option lbl) : Prop :=
  forall t n, exists m, n <= m /\ ((lb m = Some (Run t true) /\ pcs (st m) t = LkTry) \/
                                   forall k, m <= k -> ~ (lb k = Some (Run t false) /\ pcs (st k) t = LkTry)).
(** Whoever holds the mutex unlocks it at some time. *)
Definition holders_unlock (st : nat -> MutexModel.st) (lb : nat -> option lbl) : Prop :=
  forall u n, holding (hist (st n)) u = true -> exists m, n <= m /\ lb m = Some (Call u OUnlock).

(** Where a step of t leads. *)
Definition rank (p : pc) : nat :=
  match p with
  | LkRet | LkRel | LkRel2 | TryRet _ | UnRet _ => 1
  | LkLoop | TryBody | UnHand _ => 2
  | LkCheck2 | UnBody => 3
  | LkTry => 4
  | _ => 0
  end.
Ltac inv_run H := unfold step_run, tas in H; repeat (match type of H with context [match ?x with _ => _ end] => destruct x eqn:?E end); try discriminate; injection H as <-.
Lemma pcs_other : forall s l s' t, step s l = Some s' -> mwho l <> Some t -> (forall o, l <> Call t o) -> pcs s' t = pcs s t.
Proof.
  intros s [u o|u late] s' t S N C; simpl in S.
  - destruct (pcs s u) eqn:P; try discriminate. injection S as <-. simpl. apply upd_other. intros ->. now apply (C o).
  - assert (u <> t) by (intros ->; now apply N). inv_run S; simpl; apply upd_other; auto.
Qed.
Lemma cs_move : forall s t late s', step_run s t late = Some s' -> inCS (pcs s t) = true ->
  spin s' = false \/ (inCS (pcs s' t) = true /\ rank (pcs s' t) < rank (pcs s t)).
Proof.
  intros s t late s' S C. destruct (pcs s t) eqn:P; try discriminate; unfold step_run in S; rewrite P in S;
    repeat (match type of S with context [match ?x with _ => _ end] => destruct x eqn:?E end); injection S as <-; simpl; rewrite ?upd_same; simpl; auto; right; split; auto; lia.
Qed.
Lemma cs_able : forall s t, inCS (pcs s t) = true -> able _ _ step mwho s t.
Proof.
  intros s t C. assert (X : exists s', step_run s t true = Some s').
  { unfold step_run. destruct (pcs s t); try discriminate; simpl; eauto.
    - destruct (owner s); eauto.
    - destruct (is_owner s t); eauto.
    - destruct (owner s); eauto.
    - destruct (is_owner s t); eauto. destruct (q s); eauto. }
  destruct X as [s' X]. exists (Run t true), s'. auto.
Qed.

Section Run.
  Variables (st : nat -> MutexModel.st) (lb : nat -> option lbl).
  Hypothesis EX : execution _ _ step init st lb.
  Hypothesis NR : forall n, no_relock (hist (st n)).
  Hypothesis SF : strongly_fair _ _ step mwho st lb.
  Hypothesis CK : clock_runs st lb.
  Hypothesis HU : holders_unlock st lb.
  Notation mv := (moves _ mwho lb).
  Notation ab := (able _ _ step mwho).

  Lemma st_inv : forall n, Inv (st n).
  Proof.
    induction n; [rewrite (proj1 EX); apply inv_init|]. pose proof (proj2 EX n) as Hs. destruct (lb n) as [l|] eqn:E.
    - eapply inv_step; eauto.
    - now rewrite Hs.
  Qed.
  Lemma mv_dec : forall t n, {mv t n} + {~ mv t n}.
  Proof.
    intros t n. unfold moves. destruct (lb n) as [l|]; [|right; intros (l&E&_); discriminate].
    destruct (mwho l) as [u|] eqn:W; [|right; intros (l'&E&X); injection E as <-; congruence].
    destruct (Nat.eq_dec u t) as [->|N]; [left; eauto|right; intros (l'&E&X); injection E as <-; congruence].
  Qed.
  (** A first moment, for a property that can be decided. *)
  Lemma first : forall (P : nat -> Prop), (forall k, {P k} + {~ P k}) -> forall d n, (exists m, n <= m < n + d /\ P m /\ forall k, n <= k < m -> ~ P k) \/ (forall k, n <= k < n + d -> ~ P k).
  Proof.
    intros P D. induction d as [|d IH]; intros n; [right; lia|]. destruct (IH n) as [(m&H1&H2)|H]; [left; exists m; split; [lia|auto]|].
    destruct (D (n + d)) as [X|X].
    - left. exists (n + d). split; [lia|]. split; auto.
    - right. intros k K. destruct (Nat.eq_dec k (n + d)) as [->|N]; auto. apply H. lia.
  Qed.
  Lemma first_ge : forall (P : nat -> Prop), (forall k, {P k} + {~ P k}) -> forall n m, n <= m -> P m -> exists k, n <= k <= m /\ P k /\ forall j, n <= j < k -> ~ P j.
  Proof.
    intros P D n m L H. destruct (first P D (S m - n) n) as [(k&H1&H2)|X].
    - exists k. split; [lia|auto].
    - exfalso. apply (X m); auto. lia.
  Qed.
  Lemma stay1 : forall t n, pcs (st n) t <> Idle -> ~ mv t n -> pcs (st (S n)) t = pcs (st n) t.
  Proof.
    intros t n I M. pose proof (proj2 EX n) as Hs. destruct (lb n) as [l|] eqn:E; [|now rewrite Hs]. eapply pcs_other; eauto.
    - intros W. apply M. exists l. auto.
    - intros o ->. simpl in Hs. destruct (pcs (st n) t); try discriminate. congruence.
  Qed.
  Lemma stay : forall t n m, n <= m -> pcs (st n) t <> Idle -> (forall k, n <= k < m -> ~ mv t k) -> pcs (st m) t = pcs (st n) t.
  Proof.
    intros t n m L I. induction L as [|m L IH]; intros H; auto. rewrite stay1.
    - apply IH. intros k K. apply H. lia.
    - rewrite IH; auto. intros k K. apply H. lia.
    - apply H. lia.
  Qed.
  Lemma mv_run : forall t n, mv t n -> exists late, lb n = Some (Run t late) /\ step_run (st n) t late = Some (st (S n)).
  Proof.
    intros t n (l&E&W). pose proof (proj2 EX n) as Hs. rewrite E in Hs. destruct l as [u o|u late]; [discriminate|]. injection W as ->. eauto.
  Qed.
  Lemma mv_able : forall t n, mv t n -> ab (st n) t.
  Proof. intros t n M. destruct (mv_run _ _ M) as (late&E&Hs). exists (Run t late), (st (S n)). auto. Qed.
  (** A coroutine that is able again and again, as long as it makes no step, makes one. *)
  Lemma fire : forall t n, pcs (st n) t <> Idle ->
    (forall k, n <= k -> (forall i, n <= i < k -> ~ mv t i) -> exists j, k <= j /\ ((forall i, n <= i < j -> ~ mv t i) -> ab (st j) t)) ->
    exists m, n <= m /\ pcs (st m) t = pcs (st n) t /\ mv t m /\ forall k, n <= k < m -> ~ mv t k.
  Proof.
    intros t n I H. assert (G : forall m, n <= m -> mv t m -> exists m, n <= m /\ pcs (st m) t = pcs (st n) t /\ mv t m /\ forall k, n <= k < m -> ~ mv t k).
    { intros m L M. destruct (first_ge (mv t) (mv_dec t) n m L M) as (k&K1&K2&K3). exists k. split; [lia|]. split; [|auto]. apply stay; auto. lia. }
    destruct (SF t n) as (m&L&[M|D]); [eauto|]. destruct (first (mv t) (mv_dec t) (m - n) n) as [(k&K1&K2&_)|X].
    - apply (G k); auto. lia.
    - exfalso. destruct (H m L) as (j&J1&J2); [intros i K; apply X; lia|]. apply (D j J1), J2. intros i K M.
      destruct (le_lt_dec m i); [apply (D i); auto; now apply mv_able|]. apply (X i); auto. lia.
  Qed.
  Lemma fire_cs : forall t n, inCS (pcs (st n) t) = true -> exists m, n <= m /\ pcs (st m) t = pcs (st n) t /\ mv t m /\ forall k, n <= k < m -> ~ mv t k.
  Proof.
    intros t n C. assert (I : pcs (st n) t <> Idle) by (intros E; rewrite E in C; discriminate).
    apply fire; auto. intros k L E. exists k. split; auto. intros _. apply cs_able. now rewrite (stay t n k).
  Qed.
  (** The spin lock is free again and again. *)
  Lemma spin_free : forall n, exists m, n <= m /\ spin (st m) = false.
  Proof.
    assert (G : forall r w n, inCS (pcs (st n) w) = true -> rank (pcs (st n) w) <= r -> exists m, n <= m /\ spin (st m) = false).
    { induction r as [|r IH]; intros w n C R; destruct (fire_cs w n C) as (m&L&E&M&_).
      all: destruct (mv_run _ _ M) as (late&_&Hs); assert (C' : inCS (pcs (st m) w) = true) by congruence.
      all: destruct (cs_move _ _ _ _ Hs C') as [X|(X1&X2)]; [exists (S m); split; auto; lia|].
      - rewrite E in X2. lia.
      - destruct (IH w (S m) X1) as (k&K1&K2); [rewrite E in X2; lia|]. exists k. split; auto. lia. }
    intros n. destruct (spin (st n)) eqn:Sp; [|eauto]. destruct (i_spin _ (st_inv n)) as (_&_&H). destruct (H Sp) as (w&W). eapply G; eauto.
  Qed.
  Definition at_spin (p : pc) : bool := match p with LkSpin | LkSpin2 | LkSpin3 | TrySpin | UnSpin => true | _ => false end.
  Lemma fire_spin : forall t n, at_spin (pcs (st n) t) = true -> exists m, n <= m /\ pcs (st m) t = pcs (st n) t /\ mv t m /\ forall k, n <= k < m -> ~ mv t k.
  Proof.
    intros t n C. assert (I : pcs (st n) t <> Idle) by (intros E; rewrite E in C; discriminate).
    apply fire; auto. intros k L _. destruct (spin_free k) as (j&J1&J2). exists j. split; auto. intros F.
    assert (E : pcs (st j) t = pcs (st n) t) by (apply stay; auto; lia).
    exists (Run t true). destruct (pcs (st n) t) eqn:P; try discriminate; (eexists; split; [reflexivity|]; simpl; unfold step_run, tas; rewrite E, J2; reflexivity).
  Qed.
  Definition soon (t : nat) (n : nat) (P : nat -> Prop) : Prop := exists m, n <= m /\ P m.

  (** *** Calls that do not wait *)
  Lemma try_returns : forall t n, match pcs (st n) t with TrySpin | TryBody | TryRet _ => True | _ => False end ->
    exists m, n <= m /\ mv t m /\ match pcs (st m) t with TryRet _ => True | _ => False end.
  Proof.
    assert (R : forall t n, match pcs (st n) t with TryRet _ => True | _ => False end -> exists m, n <= m /\ mv t m /\ match pcs (st m) t with TryRet _ => True | _ => False end).
    { intros t n P. destruct (fire_cs t n) as (m&L&E&M&_); [now destruct (pcs (st n) t)|]. exists m. rewrite E. auto. }
    assert (B : forall t n, pcs (st n) t = TryBody -> exists m, n <= m /\ mv t m /\ match pcs (st m) t with TryRet _ => True | _ => False end).
    { intros t n P. destruct (fire_cs t n) as (m&L&E&M&_); [now rewrite P|]. rewrite P in E. destruct (mv_run _ _ M) as (late&_&Hs). unfold step_run in Hs. rewrite E in Hs.
      destruct (R t (S m)) as (k&K&X); [|exists k; split; [lia|auto]]. destruct (owner (st m)); injection Hs as <-; simpl; now rewrite upd_same. }
    intros t n P. destruct (pcs (st n) t) eqn:E; try tauto.
    - destruct (fire_spin t n) as (m&L&E'&M&_); [now rewrite E|]. rewrite E in E'. destruct (mv_run _ _ M) as (late&_&Hs). unfold step_run, tas in Hs. rewrite E' in Hs.
      destruct (spin (st m)); [discriminate|]. destruct (B t (S m)) as (k&K&X); [injection Hs as <-; simpl; now rewrite upd_same|]. exists k. split; [lia|auto].
    - now apply B.
    - apply R. now rewrite E.
  Qed.
  Definition releases (u n : nat) : Prop := mv u n /\ pcs (st n) u = UnBody.
  Lemma pc_eq : forall a b : pc, {a = b} + {a <> b}.
  Proof. decide equality; [apply bool_dec|apply Nat.eq_dec|apply bool_dec]. Qed.
  Lemma rel_dec : forall u n, {releases u n} + {~ releases u n}.
  Proof. intros u n. unfold releases. destruct (mv_dec u n); [|right; tauto]. destruct (pc_eq (pcs (st n) u) UnBody); [left|right]; tauto. Qed.
  Lemma unlock_body : forall u n, match pcs (st n) u with UnSpin | UnBody => True | _ => False end -> exists m, n <= m /\ releases u m.
  Proof.
    assert (B : forall u n, pcs (st n) u = UnBody -> exists m, n <= m /\ releases u m).
    { intros u n P. destruct (fire_cs u n) as (m&L&E&M&_); [now rewrite P|]. exists m. split; auto. split; auto. congruence. }
    intros u n P. destruct (pcs (st n) u) eqn:E; try tauto; [|now apply B].
    destruct (fire_spin u n) as (m&L&E'&M&_); [now rewrite E|]. rewrite E in E'. destruct (mv_run _ _ M) as (late&_&Hs). unfold step_run, tas in Hs. rewrite E' in Hs.
    destruct (spin (st m)); [discriminate|]. destruct (B u (S m)) as (k&K&X); [injection Hs as <-; simpl; now rewrite upd_same|]. exists k. split; [lia|auto].
  Qed.
  Lemma unlock_returns : forall t n, match pcs (st n) t with UnSpin | UnBody | UnHand _ | UnRet _ => True | _ => False end ->
    exists m, n <= m /\ mv t m /\ match pcs (st m) t with UnRet _ => True | _ => False end.
  Proof.
    assert (R : forall t n, match pcs (st n) t with UnRet _ => True | _ => False end -> exists m, n <= m /\ mv t m /\ match pcs (st m) t with UnRet _ => True | _ => False end).
    { intros t n P. destruct (fire_cs t n) as (m&L&E&M&_); [now destruct (pcs (st n) t)|]. exists m. rewrite E. auto. }
    assert (H : forall t n, match pcs (st n) t with UnHand _ | UnRet _ => True | _ => False end -> exists m, n <= m /\ mv t m /\ match pcs (st m) t with UnRet _ => True | _ => False end).
    { intros t n P. destruct (pcs (st n) t) eqn:E; try tauto; [|apply R; now rewrite E]. destruct (fire_cs t n) as (m&L&E'&M&_); [now rewrite E|]. rewrite E in E'.
      destruct (mv_run _ _ M) as (late&_&Hs). unfold step_run in Hs. rewrite E' in Hs.
      destruct (R t (S m)) as (k&K&X); [injection Hs as <-; simpl; now rewrite upd_same|]. exists k. split; [lia|auto]. }
    intros t n P. assert (D : match pcs (st n) t with UnSpin | UnBody => True | _ => False end \/ match pcs (st n) t with UnHand _ | UnRet _ => True | _ => False end) by (destruct (pcs (st n) t); tauto).
    destruct D as [D|D]; [|now apply H]. destruct (unlock_body _ _ D) as (m&L&M&E). destruct (mv_run _ _ M) as (late&_&Hs). unfold step_run in Hs. rewrite E in Hs.
    destruct (H t (S m)) as (k&K&X); [|exists k; split; [lia|auto]].
    destruct (is_owner (st m) t); [destruct (q (st m))|]; injection Hs as <-; simpl; now rewrite upd_same.
  Qed.

  (** *** Granted *)
  Definition returns (t n : nat) : Prop := mv t n /\ pcs (st n) t = LkRet.
  Lemma owner_keep1 : forall u n, owner (st n) = Some u -> releases u n \/ owner (st (S n)) = Some u.
  Proof.
    intros u n O. pose proof (proj2 EX n) as Hs. destruct (lb n) as [[v o|v late]|] eqn:E.
    - simpl in Hs. destruct (pcs (st n) v); try discriminate. right. injection Hs as <-. exact O.
    - simpl in Hs. destruct (pc_eq (pcs (st n) v) UnBody) as [P|P].
      + unfold step_run in Hs. rewrite P in Hs. destruct (is_owner (st n) v) eqn:W; [|right; injection Hs as <-; exact O].
        apply is_owner_true in W. assert (v = u) by congruence. subst v. left. split; auto. exists (Run u late). auto.
      + right. unfold step_run, tas in Hs. repeat (match type of Hs with context [match ?x with _ => _ end] => destruct x eqn:?X end); try discriminate; try congruence; injection Hs as <-; simpl; congruence.
    - right. now rewrite Hs.
  Qed.
  Lemma owner_keep : forall u n m, n <= m -> owner (st n) = Some u -> (exists k, n <= k < m /\ releases u k) \/ owner (st m) = Some u.
  Proof.
    intros u n m L O. induction L as [|m L IH]; auto. destruct IH as [(k&K&X)|IH]; [left; exists k; split; [lia|auto]|].
    destruct (owner_keep1 _ _ IH) as [X|X]; auto. left. exists m. split; [lia|auto].
  Qed.
  (** As long as t has not moved from a place in lock() it stays the owner. *)
  Lemma owner_still : forall t n m, n <= m -> owner (st n) = Some t -> pcs (st n) t <> Idle -> pcs (st n) t <> UnBody -> (forall k, n <= k < m -> ~ mv t k) -> owner (st m) = Some t.
  Proof. intros t n m L O _ _ H. destruct (owner_keep t n m L O) as [(k&K&M&_)|X]; auto. exfalso. now apply (H k). Qed.
  Lemma granted_ret : forall t n, pcs (st n) t = LkRet -> exists m, n <= m /\ returns t m.
  Proof. intros t n P. destruct (fire_cs t n) as (m&L&E&M&_); [now rewrite P|]. exists m. split; auto. split; auto. congruence. Qed.
  Lemma granted_loop : forall t n, pcs (st n) t = LkLoop -> owner (st n) = Some t -> exists m, n <= m /\ returns t m.
  Proof.
    intros t n P O. destruct (fire_cs t n) as (m&L&E&M&F); [now rewrite P|]. rewrite P in E. destruct (mv_run _ _ M) as (late&_&Hs). unfold step_run in Hs. rewrite E in Hs.
    assert (Om : owner (st m) = Some t) by (apply (owner_still t n m); auto; congruence). apply is_owner_true in Om. rewrite Om in Hs.
    destruct (granted_ret t (S m)) as (k&K&X); [injection Hs as <-; simpl; now rewrite upd_same|]. exists k. split; [lia|auto].
  Qed.
  Lemma granted_spin3 : forall t n, pcs (st n) t = LkSpin3 -> exists m, n <= m /\ returns t m.
  Proof.
    intros t n P. destruct (fire_spin t n) as (m&L&E&M&F); [now rewrite P|]. rewrite P in E. destruct (mv_run _ _ M) as (late&_&Hs). unfold step_run, tas in Hs. rewrite E in Hs.
    pose proof (i_loc _ (st_inv m) t) as I. unfold loc_ok in I. rewrite E in I. destruct (spin (st m)); [discriminate|].
    destruct (granted_loop t (S m)) as (k&K&X); [injection Hs as <-; simpl; now rewrite upd_same|injection Hs as <-; simpl; tauto|]. exists k. split; [lia|auto].
  Qed.
  (** Parked: the flag is cleared and stays so. *)
  Lemma waiting_clear : forall t n, pcs (st n) t = LkPark -> waiting (st n) t = false -> ~ mv t n -> waiting (st (S n)) t = false.
  Proof.
    intros t n P W M. pose proof (proj2 EX n) as Hs. destruct (lb n) as [[v o|v late]|] eqn:E.
    - simpl in Hs. destruct (pcs (st n) v); try discriminate. injection Hs as <-. exact W.
    - assert (v <> t) by (intros ->; apply M; exists (Run t late); auto). simpl in Hs.
      unfold step_run, tas in Hs. repeat (match type of Hs with context [match ?x with _ => _ end] => destruct x eqn:?X end); try discriminate; injection Hs as <-; simpl; auto.
      + now rewrite upd_other by auto.
      + unfold upd. destruct (t =? o); auto.
    - now rewrite Hs.
  Qed.
  Lemma granted_park_awake : forall t n, pcs (st n) t = LkPark -> waiting (st n) t = false -> exists m, n <= m /\ returns t m.
  Proof.
    intros t n P W. assert (K : forall m, n <= m -> (forall k, n <= k < m -> ~ mv t k) -> waiting (st m) t = false).
    { intros m L. induction L as [|m L IH]; intros H; auto. apply waiting_clear.
      - rewrite (stay t n m); auto; [congruence|]. intros k J. apply H. lia.
      - apply IH. intros k J. apply H. lia.
      - apply H. lia. }
    destruct (fire t n) as (m&L&E&M&F); [congruence| |].
    - intros k L X. exists k. split; auto. intros _. exists (Run t true). eexists. split; [reflexivity|]. simpl. unfold step_run.
      rewrite (stay t n k), P, (K k); auto. congruence.
    - rewrite P in E. destruct (mv_run _ _ M) as (late&_&Hs). unfold step_run in Hs. rewrite E, (K m) in Hs; auto.
      destruct (granted_spin3 t (S m)) as (k&J&X); [injection Hs as <-; simpl; now rewrite upd_same|]. exists k. split; [lia|auto].
  Qed.
  (** The coroutine that hands over clears the flag, if t has not moved before. *)
  Lemma granted_park : forall t n, pcs (st n) t = LkPark -> owner (st n) = Some t -> exists m, n <= m /\ returns t m.
  Proof.
    intros t n P O. destruct (waiting (st n) t) eqn:W; [|now apply granted_park_awake].
    pose proof (i_loc _ (st_inv n) t) as I. unfold loc_ok in I. rewrite P in I. destruct I as [(I&_)|(_&I)]; [now destruct (i_q _ (st_inv n) t I)|].
    destruct (I W) as (u&U). destruct (fire_cs u n) as (m&L&E&M&F); [now rewrite U|]. rewrite U in E. destruct (mv_run _ _ M) as (late&_&Hs). unfold step_run in Hs. rewrite E in Hs.
    pose proof (i_loc _ (st_inv m) u) as J. unfold loc_ok in J. rewrite E in J. destruct J as (_&_&J&_).
    destruct (granted_park_awake t (S m)) as (k&K&X); [| |exists k; split; [lia|auto]].
    - injection Hs as <-. simpl. rewrite upd_other; auto. intros ->. congruence.
    - injection Hs as <-. simpl. now rewrite upd_same.
  Qed.
  Definition granted_pc (p : pc) : bool := match p with LkLoop | LkPark | LkSpin3 | LkRet => true | _ => false end.
  Lemma granted : forall t n, granted_pc (pcs (st n) t) = true -> owner (st n) = Some t -> exists m, n <= m /\ returns t m.
  Proof.
    intros t n P O. destruct (pcs (st n) t) eqn:E; try discriminate; [now apply granted_loop|now apply granted_park|now apply granted_spin3|now apply granted_ret].
  Qed.

  (** *** Queued *)
  Lemma idle_releases : forall u n, pcs (st n) u = Idle -> owner (st n) = Some u -> exists m, n <= m /\ releases u m.
  Proof.
    intros u n P O. destruct (HU u n) as (m&L&C).
    { rewrite (i_hold _ (st_inv n)). unfold holds_exp. rewrite P. now apply is_owner_true. }
    pose proof (proj2 EX m) as Hs. rewrite C in Hs. simpl in Hs. destruct (pcs (st m) u) eqn:E; try discriminate.
    destruct (unlock_body u (S m)) as (k&K&X); [injection Hs as <-; simpl; now rewrite upd_same|]. exists k. split; [lia|auto].
  Qed.
  Lemma owner_releases : forall u n, owner (st n) = Some u -> exists m, n <= m /\ releases u m.
  Proof.
    intros u n O.
    assert (B : forall m, n <= m -> pcs (st (S m)) u = Idle -> exists k, n <= k /\ releases u k).
    { intros m L E. destruct (owner_keep u n (S m)) as [(k&K&X)|X]; auto; [exists k; split; [lia|auto]|].
      destruct (idle_releases u (S m) E X) as (k&K&Y). exists k. split; [lia|auto]. }
    pose proof (i_loc _ (st_inv n) u) as I. unfold loc_ok in I.
    destruct (pcs (st n) u) as [| | | | | | | | | | | | | |b| | |o|b] eqn:E; try tauto.
    - now apply idle_releases.
    - destruct (granted u n) as (m&L&M&Y); [now rewrite E|auto|]. destruct (mv_run _ _ M) as (late&_&Hs). unfold step_run in Hs. rewrite Y in Hs.
      apply (B m L). injection Hs as <-. simpl. now rewrite upd_same.
    - exfalso. destruct I as (_&I). now destruct (i_q _ (st_inv n) u I).
    - destruct (granted u n) as (m&L&M&Y); [now rewrite E|auto|]. destruct (mv_run _ _ M) as (late&_&Hs). unfold step_run in Hs. rewrite Y in Hs.
      apply (B m L). injection Hs as <-. simpl. now rewrite upd_same.
    - destruct (granted u n) as (m&L&M&Y); [now rewrite E|auto|]. destruct (mv_run _ _ M) as (late&_&Hs). unfold step_run in Hs. rewrite Y in Hs.
      apply (B m L). injection Hs as <-. simpl. now rewrite upd_same.
    - destruct (granted u n) as (m&L&M&Y); [now rewrite E|auto|]. destruct (mv_run _ _ M) as (late&_&Hs). unfold step_run in Hs. rewrite Y in Hs.
      apply (B m L). injection Hs as <-. simpl. now rewrite upd_same.
    - destruct (try_returns u n) as (m&L&M&Y); [now rewrite E|]. destruct (mv_run _ _ M) as (late&_&Hs). unfold step_run in Hs.
      destruct (pcs (st m) u); try tauto. apply (B m L). injection Hs as <-. simpl. now rewrite upd_same.
    - destruct (try_returns u n) as (m&L&M&Y); [now rewrite E|]. destruct (mv_run _ _ M) as (late&_&Hs). unfold step_run in Hs.
      destruct (pcs (st m) u); try tauto. apply (B m L). injection Hs as <-. simpl. now rewrite upd_same.
    - destruct (try_returns u n) as (m&L&M&Y); [now rewrite E|]. destruct (mv_run _ _ M) as (late&_&Hs). unfold step_run in Hs.
      destruct (pcs (st m) u); try tauto. apply (B m L). injection Hs as <-. simpl. now rewrite upd_same.
    - apply unlock_body. now rewrite E.
    - apply unlock_body. now rewrite E.
    - exfalso. destruct I as (_&I1&I2&_). assert (o = u) by congruence. subst o. congruence.
  Qed.
  (** The queue: until the owner releases, it only grows. *)
  Lemma queue_keep1 : forall u n, owner (st n) = Some u -> ~ releases u n -> exists r, q (st (S n)) = q (st n) ++ r.
  Proof.
    intros u n O R. pose proof (proj2 EX n) as Hs. destruct (lb n) as [[v o|v late]|] eqn:E.
    - simpl in Hs. destruct (pcs (st n) v); try discriminate. exists []. rewrite app_nil_r. injection Hs as <-. reflexivity.
    - simpl in Hs. destruct (pc_eq (pcs (st n) v) UnBody) as [P|P].
      + unfold step_run in Hs. rewrite P in Hs. destruct (is_owner (st n) v) eqn:W; [|exists []; rewrite app_nil_r; injection Hs as <-; reflexivity].
        apply is_owner_true in W. assert (v = u) by congruence. subst v. exfalso. apply R. split; auto. exists (Run u late). auto.
      + unfold step_run, tas in Hs. repeat (match type of Hs with context [match ?x with _ => _ end] => destruct x eqn:?X end); try discriminate; try congruence; injection Hs as <-; simpl;
          try (exists []; rewrite app_nil_r; reflexivity); eexists; reflexivity.
    - exists []. rewrite app_nil_r. now rewrite Hs.
  Qed.
  Lemma queue_keep : forall u n m, n <= m -> owner (st n) = Some u -> (forall k, n <= k < m -> ~ releases u k) -> owner (st m) = Some u /\ exists r, q (st m) = q (st n) ++ r.
  Proof.
    intros u n m L O. induction L as [|m L IH]; intros H; [split; auto; exists []; now rewrite app_nil_r|].
    destruct IH as (O'&r&Q); [intros k K; apply H; lia|]. destruct (queue_keep1 u m O') as (r'&Q'); [apply H; lia|].
    split; [|exists (r ++ r'); now rewrite Q', Q, app_assoc]. destruct (owner_keep1 u m O') as [X|X]; auto. exfalso. apply (H m); auto.
  Qed.
  Lemma queued : forall q1 t q2 n, q (st n) = q1 ++ t :: q2 -> exists m, n <= m /\ returns t m.
  Proof.
    induction q1 as [|v q1 IH]; intros t q2 n Q.
    all: destruct (owner (st n)) as [u|] eqn:O; [|apply (i_none _ (st_inv n)) in O; rewrite O in Q; discriminate].
    all: destruct (owner_releases u n O) as (m0&L0&R0); destruct (first_ge (releases u) (rel_dec u) n m0 L0 R0) as (m&(L&_)&R&F).
    all: destruct (queue_keep u n m L O F) as (Om&r&Qm); destruct R as (M&E); destruct (mv_run _ _ M) as (late&_&Hs); unfold step_run in Hs; rewrite E in Hs.
    all: apply is_owner_true in Om; rewrite Om, Qm, Q in Hs; simpl in Hs.
    - assert (D : exists k, S m <= k /\ returns t k); [|destruct D as (k&K&X); exists k; split; [lia|auto]]. apply granted.
      + pose proof (i_loc _ (st_inv (S m)) u) as J. unfold loc_ok in J. injection Hs as Es. rewrite <- Es in *. simpl in *. rewrite upd_same in J. destruct J as (_&_&J&_). now rewrite J.
      + injection Hs as <-. reflexivity.
    - destruct (IH t (q2 ++ r) (S m)) as (k&K&X); [injection Hs as <-; simpl; now rewrite <- app_assoc|]. exists k. split; [lia|auto].
  Qed.

  (** *** Before the queue *)
  Lemma check_returns : forall t n, pcs (st n) t = LkCheck2 -> exists m, n <= m /\ returns t m.
  Proof.
    intros t n P. destruct (fire_cs t n) as (m&L&E&M&F); [now rewrite P|]. rewrite P in E. destruct (mv_run _ _ M) as (late&_&Hs). unfold step_run in Hs. rewrite E in Hs.
    assert (D : exists k, S m <= k /\ returns t k); [|destruct D as (k&K&X); exists k; split; [lia|auto]]. destruct (owner (st m)); injection Hs as Es.
    - apply (queued (q (st m)) t [] (S m)). now rewrite <- Es.
    - apply granted_ret. rewrite <- Es. simpl. now rewrite upd_same.
  Qed.
  Definition early (p : pc) : bool := match p with LkSpin | LkTry | LkRel | LkYield | LkSpin2 => true | _ => false end.
  Lemma to_try : forall t n, early (pcs (st n) t) = true -> exists m, n <= m /\ pcs (st m) t = LkTry /\ mv t m.
  Proof.
    assert (T : forall t n, pcs (st n) t = LkTry -> exists m, n <= m /\ pcs (st m) t = LkTry /\ mv t m).
    { intros t n P. destruct (fire_cs t n) as (m&L&E&M&_); [now rewrite P|]. exists m. rewrite P in E. auto. }
    assert (Sp : forall t n, match pcs (st n) t with LkSpin | LkSpin2 => True | _ => False end -> exists m, n <= m /\ pcs (st m) t = LkTry /\ mv t m).
    { intros t n P. destruct (fire_spin t n) as (m&L&E&M&_); [now destruct (pcs (st n) t)|]. destruct (mv_run _ _ M) as (late&_&Hs). unfold step_run, tas in Hs. rewrite E in Hs.
      destruct (T t (S m)) as (k&K&X); [|exists k; split; [lia|auto]].
      destruct (pcs (st n) t); try tauto; (destruct (spin (st m)); [discriminate|]; injection Hs as <-; simpl; now rewrite upd_same). }
    assert (Y : forall t n, pcs (st n) t = LkYield -> exists m, n <= m /\ pcs (st m) t = LkTry /\ mv t m).
    { intros t n P. destruct (fire t n) as (m&L&E&M&_); [congruence| |].
      - intros k L X. exists k. split; auto. intros _. assert (E : pcs (st k) t = LkYield) by (rewrite (stay t n k); auto; congruence).
        pose proof (i_loc _ (st_inv k) t) as I. unfold loc_ok in I. rewrite E in I. exists (Run t true). eexists. split; [reflexivity|]. simpl. unfold step_run. rewrite E, (proj1 I). reflexivity.
      - rewrite P in E. destruct (mv_run _ _ M) as (late&_&Hs). unfold step_run in Hs. rewrite E in Hs. destruct (waiting (st m) t); [discriminate|].
        destruct (Sp t (S m)) as (k&K&X); [injection Hs as <-; simpl; now rewrite upd_same|]. exists k. split; [lia|auto]. }
    intros t n P. destruct (pcs (st n) t) eqn:E; try discriminate; [apply Sp; now rewrite E|now apply T| |now apply Y|apply Sp; now rewrite E].
    destruct (fire_cs t n) as (m&L&E'&M&_); [now rewrite E|]. rewrite E in E'. destruct (mv_run _ _ M) as (late&_&Hs). unfold step_run in Hs. rewrite E' in Hs.
    destruct (Y t (S m)) as (k&K&X); [injection Hs as <-; simpl; now rewrite upd_same|]. exists k. split; [lia|auto].
  Qed.
  Lemma early_step : forall t n, early (pcs (st n) t) = true -> early (pcs (st (S n)) t) = true \/ pcs (st (S n)) t = LkCheck2 \/ pcs (st (S n)) t = LkRet.
  Proof.
    intros t n P. destruct (mv_dec t n) as [M|M].
    - destruct (mv_run _ _ M) as (late&_&Hs). unfold step_run, tas in Hs. destruct (pcs (st n) t); try discriminate;
        repeat (match type of Hs with context [match ?x with _ => _ end] => destruct x eqn:?X end); try discriminate; injection Hs as <-; simpl; rewrite upd_same; auto.
    - left. rewrite stay1; auto. intros E. rewrite E in P. discriminate.
  Qed.
  Lemma early_until : forall t n m, n <= m -> early (pcs (st n) t) = true -> early (pcs (st m) t) = true \/ exists k, n <= k <= m /\ (pcs (st k) t = LkCheck2 \/ pcs (st k) t = LkRet).
  Proof.
    intros t n m L P. induction L as [|m L [IH|(k&K&X)]]; auto; [|right; exists k; split; [lia|auto]].
    destruct (early_step t m IH) as [X|X]; auto. right. exists (S m). split; [lia|auto].
  Qed.
  Lemma early_returns : forall t n, early (pcs (st n) t) = true -> exists m, n <= m /\ returns t m.
  Proof.
    intros t n P.
    assert (D : exists k, n <= k /\ (pcs (st k) t = LkCheck2 \/ pcs (st k) t = LkRet)).
    { destruct (CK t n) as (m&L&[(C&E)|H]).
      - exists (S m). split; [lia|]. left. pose proof (proj2 EX m) as Hs. rewrite C in Hs. simpl in Hs. unfold step_run in Hs. rewrite E in Hs. injection Hs as <-. simpl. now rewrite upd_same.
      - destruct (early_until t n m L P) as [X|(k&K&X)]; [|exists k; split; [lia|auto]]. destruct (to_try t m X) as (k&K&E&M). exists (S k). split; [lia|].
        destruct (mv_run _ _ M) as (late&C&Hs). destruct late; [|exfalso; now apply (H k)]. unfold step_run in Hs. rewrite E in Hs. injection Hs as <-. simpl. rewrite upd_same. auto. }
    destruct D as (k&K&[X|X]); [destruct (check_returns t k X) as (m&M&R)|destruct (granted_ret t k X) as (m&M&R)]; exists m; (split; [lia|auto]).
  Qed.
  Lemma lock_call_returns : forall t n, lb n = Some (Call t OLock) -> exists m, n < m /\ returns t m.
  Proof.
    intros t n C. pose proof (proj2 EX n) as Hs. rewrite C in Hs. simpl in Hs. destruct (pcs (st n) t); try discriminate.
    destruct (early_returns t (S n)) as (m&M&R); [injection Hs as <-; simpl; now rewrite upd_same|]. exists m. split; [lia|auto].
  Qed.
End Run.
