(** C59, second half: a thread that is being destroyed never becomes available again. *)
From Coq Require Import List Bool.
From Verif Require Import StateModel.
Import ListNotations.

Lemma destroying_stays : forall ls s, est_st s = Destroying ->
  est_st (fold_left estep ls s) = Destroying /\ accepted (fold_left estep ls s) = accepted s.
Proof.
  induction ls as [|l ls IH]; intros s H; [auto|]. cbn [fold_left].
  assert (X : est_st (estep s l) = Destroying /\ accepted (estep s l) = accepted s).
  { destruct l; cbn; unfold set_state, add_ok; cbn; rewrite ?H; auto. destruct (nosched s); auto. }
  destruct X as [X1 X2]. rewrite <- X2. now apply IH.
Qed.
Theorem env_final : forall own ls1 ls2, let s1 := fold_left estep ls1 (einit own) in let s2 := fold_left estep ls2 s1 in
  est_st s1 = Destroying -> can_schedule_ctx s2 = false /\ add_ok s2 = false /\ looks s2 = false /\ accepted s2 = accepted s1.
Proof.
  intros own ls1 ls2 s1 s2 H. destruct (destroying_stays ls2 s1 H) as [A B]. fold s2 in A, B.
  unfold can_schedule_ctx, add_ok, looks. rewrite A. auto.
Qed.
Print Assumptions env_final.
(** stop_schedule works on every thread that runs a scheduler, in any state; until then its queues are looked at. *)
Theorem env_stop : forall own ls, let s := fold_left estep ls (einit own) in
  (nosched s = false -> est_st (estep s EStop) = Destroying) /\ (looks s = true <-> est_st s <> Destroying).
Proof.
  intros own ls s. split; [intros H; simpl; rewrite H; unfold set_state; destruct (est_st s) eqn:E; auto|].
  unfold looks. destruct (est_st s); split; congruence.
Qed.
Print Assumptions env_stop.
Example env_final_ex : let s := fold_left estep [EAdd 1; EStop; ESet Busy; EAdd 2; ESet Idle] (einit true) in
  est_st s = Destroying /\ accepted s = [1].
Proof. split; reflexivity. Qed.

(** A new env with its own thread takes coroutines; one made for a thread of the program is offered none as long as its
    scheduler has not been started, whatever else happens. *)
Theorem env_new : (can_schedule_ctx (einit true) = true /\ add_ok (einit true) = true) /\
  forall ls, ~ In EStart ls -> can_schedule_ctx (fold_left estep ls (einit false)) = false.
Proof.
  split; [split; reflexivity|]. intros ls N.
  assert (K : nosched (fold_left estep ls (einit false)) = true).
  { assert (G : forall s, nosched s = true -> nosched (fold_left estep ls s) = true); [|apply G; reflexivity].
    induction ls as [|l ls IH]; intros s H; [exact H|]. cbn [fold_left]. apply IH; [intros X; apply N; now right|].
    destruct l as [t| | |c]; cbn [estep].
    - unfold set_state. destruct (est_st s); exact H.
    - now rewrite H.
    - exfalso. apply N. now left.
    - unfold set_state. destruct (add_ok s); [|exact H]. cbn [est_st]. destruct (est_st s); exact H. }
  unfold can_schedule_ctx. rewrite K. destruct (est_st _); reflexivity.
Qed.
Print Assumptions env_new.
Example env_new_ex : can_schedule_ctx (fold_left estep [ESet Idle; EAdd 3; EStop] (einit false)) = false /\
  can_schedule_ctx (fold_left estep [ESet Idle; EAdd 3; EStart] (einit false)) = true.
Proof. split; reflexivity. Qed.

(** Until it is stopped, a thread whose scheduler runs takes every coroutine given to it, is busy then, and stays available for
    more unless it has been marked as blocked. *)
Theorem env_accepts : forall own ls c, let s := fold_left estep ls (einit own) in let s' := estep s (EAdd c) in
  (own = true \/ In EStart ls) -> ~ In EStop ls -> (forall t, In (ESet t) ls -> t = Idle \/ t = Busy \/ t = Blocked) ->
  accepted s' = c :: accepted s /\ est_st s' = Busy /\ (est_st s <> Blocked -> can_schedule_ctx s = true) /\ can_schedule_ctx s' = true.
Proof.
  intros own ls c s s' O N T.
  assert (G : forall ls s, (nosched s = false \/ In EStart ls) -> ~ In EStop ls -> (forall t, In (ESet t) ls -> t = Idle \/ t = Busy \/ t = Blocked) ->
    est_st s <> Destroying -> (est_st s = Created -> nosched s = true) ->
    nosched (fold_left estep ls s) = false /\ est_st (fold_left estep ls s) <> Destroying /\ est_st (fold_left estep ls s) <> Created).
  { clear. induction ls as [|l ls IH]; intros s O N T D C; cbn [fold_left].
    - destruct O as [O|[]]. repeat split; auto. intros X. rewrite C in O; congruence.
    - apply IH.
      + destruct l as [t| | |c]; cbn [estep].
        * destruct O as [O|[O|O]]; [|discriminate|now right]. left. unfold set_state. destruct (est_st s); auto.
        * exfalso. apply N. now left.
        * left. unfold set_state. cbn [est_st]. destruct (est_st s); auto; congruence.
        * destruct O as [O|[O|O]]; [|discriminate|now right]. left. destruct (add_ok s); auto. unfold set_state. cbn [est_st]. destruct (est_st s); auto.
      + intros X. apply N. now right.
      + intros t X. apply T. now right.
      + destruct l as [t| | |c]; cbn [estep].
        * unfold set_state. destruct (est_st s) eqn:E; try congruence; cbn [est_st]; destruct (T t (or_introl eq_refl)) as [-> |[-> | ->]]; discriminate.
        * exfalso. apply N. now left.
        * unfold set_state. cbn [est_st]. destruct (est_st s) eqn:E; try congruence; discriminate.
        * destruct (add_ok s); auto. unfold set_state. cbn [est_st]. destruct (est_st s) eqn:E; try congruence; discriminate.
      + destruct l as [t| | |c]; cbn [estep].
        * unfold set_state. destruct (est_st s) eqn:E; try congruence; cbn [est_st nosched];
            destruct (T t (or_introl eq_refl)) as [-> |[-> | ->]]; discriminate.
        * exfalso. apply N. now left.
        * unfold set_state. cbn [est_st]. destruct (est_st s) eqn:E; try congruence; discriminate.
        * destruct (add_ok s); auto. unfold set_state. cbn [est_st]. destruct (est_st s) eqn:E; try congruence; discriminate. }
  destruct (G ls (einit own)) as (A&B&C); auto.
  - destruct O as [-> |O]; auto.
  - destruct own; discriminate.
  - destruct own; [discriminate|reflexivity].
  - fold s in A, B, C. unfold s'. cbn [estep]. unfold can_schedule_ctx, add_ok, set_state. cbn [est_st].
    destruct (est_st s) eqn:E; try congruence; cbn [est_st nosched accepted]; rewrite A; repeat split; auto; congruence.
Qed.
Print Assumptions env_accepts.
Example env_accepts_ex : accepted (fold_left estep [EAdd 1; ESet Idle; EAdd 2; EStart; ESet Blocked; EAdd 3] (einit false)) = [3; 2] /\
  accepted (fold_left estep [EAdd 1; ESet Idle; EAdd 2; ESet Blocked; EAdd 3] (einit true)) = [3; 2; 1].
Proof. split; reflexivity. Qed.
