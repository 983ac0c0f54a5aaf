(** The mutex of MutexModel.v as seen by its users, for FineProofs.v. *)
From Coq Require Import List Arith Bool Lia.
From Verif Require Import Base LinSpec LinLemmas MutexSpec MutexModel MutexProofs.
Import ListNotations.

(** Outside without the mutex; in lock(); outside with the mutex; in unlock(), called with the mutex. *)
Inductive cls := KN | KL | KH | KU.
Definition lockpc (p : pc) : bool :=
  match p with LkSpin | LkTry | LkRel | LkYield | LkSpin2 | LkCheck2 | LkLoop | LkRel2 | LkPark | LkSpin3 | LkRet => true | _ => false end.
Definition link (k : cls) (m : st) (t : tid) : Prop :=
  match k with
  | KN => pcs m t = Idle /\ owner m <> Some t
  | KL => lockpc (pcs m t) = true
  | KH => pcs m t = Idle /\ owner m = Some t
  | KU => match pcs m t with UnSpin | UnBody => owner m = Some t | UnHand _ | UnRet true => True | _ => False end
  end.

Lemma step_frame : forall m t b m' u, step m (Run t b) = Some m' -> u <> t -> pcs m' u = pcs m u.
Proof.
  intros m t b m' u E N. simpl in E. unfold step_run, tas, clear in E.
  destruct (pcs m t); try discriminate;
  repeat (match type of E with context [match ?x with _ => _ end] => destruct x; try discriminate E end);
  injection E as <-; simpl; now rewrite ?upd_other by auto.
Qed.

Lemma step_other : forall m t b m' k u, NInv m -> step m (Run t b) = Some m' -> (link KL m t \/ link KU m t) -> u <> t -> link k m u -> link k m' u.
Proof.
  intros m t b m' k u [V NR] E T N L. pose proof (step_frame _ _ _ _ _ E N) as P.
  assert (O : owner m' = owner m \/ (owner m = None /\ owner m' = Some t) \/
              (owner m = Some t /\ (owner m' = None \/ exists o, owner m' = Some o /\ In o (q m)))).
  { simpl in E. unfold step_run, tas, clear in E. destruct (pcs m t) eqn:Q; try discriminate;
    repeat (match type of E with context [match ?x with _ => _ end] => destruct x eqn:?; try discriminate E end);
    injection E as <-; simpl; auto.
    - right. right. split; [now apply is_owner_true|]. auto.
    - right. right. split; [now apply is_owner_true|]. right. eexists. split; [reflexivity|]. simpl; auto. }
  assert (Oh : owner m = Some u -> owner m' = Some u).
  { intros H. destruct O as [O|[[O _]|[O _]]]; congruence. }
  assert (On : pcs m u = Idle -> owner m <> Some u -> owner m' <> Some u).
  { intros I X Y. destruct O as [O|[[_ O]|[_ [O|(o&O&Q)]]]]; try congruence.
    rewrite O in Y. injection Y as ->. destruct (i_q _ V _ Q) as [_ [W|[W|W]]]; congruence. }
  destruct k; simpl in *; rewrite P.
  - destruct L; split; auto.
  - auto.
  - destruct L; split; auto.
  - destruct (pcs m u); auto.
Qed.

Lemma step_lock : forall m t b m', NInv m -> step m (Run t b) = Some m' -> link KL m t ->
  if match pcs m' t with Idle => true | _ => false end then link KH m' t else link KL m' t.
Proof.
  intros m t b m' [V NR] E L. pose proof (i_loc _ V t) as X. unfold loc_ok in X. simpl in *. unfold step_run, tas, clear in E.
  destruct (pcs m t) eqn:Q; try discriminate;
  repeat (match type of E with context [match ?x with _ => _ end] => destruct x eqn:?; try discriminate E end);
  injection E as <-; simpl; rewrite upd_same; simpl; auto. destruct X; auto.
Qed.
Lemma step_unlock : forall m t b m', NInv m -> step m (Run t b) = Some m' -> link KU m t ->
  if match pcs m' t with Idle => true | _ => false end then link KN m' t else link KU m' t.
Proof.
  intros m t b m' [V NR] E L. pose proof (i_loc _ V t) as X. unfold loc_ok in X. simpl in *. unfold step_run, tas, clear in E.
  destruct (pcs m t) eqn:Q; try contradiction;
  repeat (match type of E with context [match ?x with _ => _ end] => destruct x eqn:?; try discriminate E end);
  try discriminate; injection E as <-; simpl; rewrite ?upd_same; simpl; auto.
  - apply is_owner_false in Heqb0. congruence.
  - destruct X; auto.
Qed.
Lemma call_other : forall m t o m' k u, step m (Call t o) = Some m' -> u <> t -> link k m u -> link k m' u.
Proof.
  intros m t o m' k u E N L. simpl in E. destruct (pcs m t); try discriminate. injection E as <-.
  destruct k; simpl in *; rewrite upd_other by auto; auto.
Qed.
Lemma call_lock : forall m t, NInv m -> link KN m t -> exists m', step m (Call t OLock) = Some m' /\ NInv m' /\ link KL m' t.
Proof.
  intros m t [V NR] [P O]. simpl. rewrite P. eexists. split; [reflexivity|]. split; [|simpl; now rewrite upd_same].
  assert (N : no_relock (hist (log (set_pc m t (entry OLock)) (ECall t OLock)))).
  { simpl. split; auto. rewrite (i_hold _ V). unfold holds_exp. rewrite P. now apply is_owner_false. }
  split; auto. eapply (inv_step m (Call t OLock)); eauto. simpl. now rewrite P.
Qed.
Lemma call_unlock : forall m t, NInv m -> link KH m t -> exists m', step m (Call t OUnlock) = Some m' /\ NInv m' /\ link KU m' t.
Proof.
  intros m t [V NR] [P O]. simpl. rewrite P. eexists. split; [reflexivity|]. split; [|simpl; now rewrite upd_same].
  split; auto. eapply (inv_step m (Call t OUnlock)); eauto. simpl. now rewrite P.
Qed.
Lemma step_ninv : forall m t b m', NInv m -> step m (Run t b) = Some m' -> NInv m'.
Proof. intros m t b m' V E. eapply ninv_run; eauto. Qed.
Lemma call_owner : forall m t o m', step m (Call t o) = Some m' -> owner m' = owner m /\ waiting m' = waiting m.
Proof. intros m t o m' E. simpl in E. destruct (pcs m t); try discriminate. injection E as <-. auto. Qed.
Lemma idle_nowait : forall m t, NInv m -> pcs m t = Idle -> waiting m t = false.
Proof. intros m t [V _] P. pose proof (i_loc _ V t) as X. unfold loc_ok in X. now rewrite P in X. Qed.
(** An owner is outside, or still in lock() but served, or at the start of unlock(). *)
Lemma own_one : forall m t u, owner m = Some t -> owner m = Some u -> t = u.
Proof. congruence. Qed.
(** When nothing moves: everybody is outside, or parked in lock() behind a coroutine that has the mutex and is outside. *)
Lemma quiet : forall m, NInv m -> (forall t b, step m (Run t b) = None) ->
  forall t, pcs m t = Idle \/ (lockpc (pcs m t) = true /\ exists o, owner m = Some o /\ pcs m o = Idle).
Proof.
  intros m [V NR] Q t. destruct (pcs m t) eqn:P; auto; right;
  (assert (X : phase_of mop_eqb mres_eqb (hist m) t <> Some PIdle);
   [rewrite (i_phase _ V); unfold ph; rewrite P; try (destruct (is_owner m t)); discriminate|]);
  destruct (quiescent_mutex m V Q t X) as (Y&_&w&H&Z);
  rewrite (i_phase _ V) in Y; unfold ph in Y; rewrite P in Y; try discriminate Y;
  rewrite (i_hold _ V) in H; rewrite (i_phase _ V) in Z;
  (split; [reflexivity|]); exists w; unfold holds_exp, ph in *;
  destruct (pcs m w); try discriminate; try (destruct (is_owner m w) eqn:W; discriminate); split; auto; now apply is_owner_true.
Qed.
