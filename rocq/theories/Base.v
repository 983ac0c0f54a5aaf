(** Generic part of the development: labelled transition systems given by a
    step function, executions as lists of labels, the invariant rule, and
    updates of total functions.  Nothing here depends on the code of cocpp. *)
From Coq Require Import List Arith Lia Bool.
Import ListNotations.
Set Implicit Arguments.

(** Coroutine (or thread) identities. *)
Definition tid := nat.

(** Update of a total function on identities. *)
Definition upd {A : Type} (f : nat -> A) (i : nat) (a : A) : nat -> A :=
  fun j => if Nat.eqb j i then a else f j.

Lemma upd_same : forall A (f : nat -> A) i a, upd f i a i = a.
Proof. intros; unfold upd; now rewrite Nat.eqb_refl. Qed.

Lemma upd_other : forall A (f : nat -> A) i a j, j <> i -> upd f i a j = f j.
Proof. intros A f i a j Hne; unfold upd. apply Nat.eqb_neq in Hne. now rewrite Hne. Qed.

(** Executions.  [step s l = None] means that label [l] is not enabled in [s]. *)
Section LTS.
  Variables (state label : Type).
  Variable step : state -> label -> option state.

  (** A finite execution; no code of its own. *)
  Fixpoint run (s : state) (ls : list label) : option state :=
    match ls with
    | [] => Some s
    | l :: ls' => match step s l with
                  | Some s' => run s' ls'
                  | None => None
                  end
    end.

  (** There is one. *)
  Definition reach (s0 s : state) : Prop := exists ls, run s0 ls = Some s.

  Lemma run_app : forall ls1 ls2 s,
    run s (ls1 ++ ls2) = match run s ls1 with Some s' => run s' ls2 | None => None end.
  Proof.
    induction ls1 as [|l ls1 IH]; intros ls2 s; simpl; [reflexivity|].
    destruct (step s l); [apply IH|reflexivity].
  Qed.

  Lemma run_inv : forall (I : state -> Prop) s0,
    I s0 ->
    (forall s l s', I s -> step s l = Some s' -> I s') ->
    forall ls s, run s0 ls = Some s -> I s.
  Proof.
    intros I s0 H0 Hstep ls. revert s0 H0.
    induction ls as [|l ls IH]; intros s0 H0 s Hrun; simpl in Hrun.
    - injection Hrun as <-; exact H0.
    - destruct (step s0 l) as [s1|] eqn:E; [|discriminate].
      eapply IH; [|exact Hrun]. eapply Hstep; eauto.
  Qed.

  Lemma reach_refl : forall s, reach s s.
  Proof. intros s; exists []; reflexivity. Qed.

  Lemma reach_step : forall s0 s l s', reach s0 s -> step s l = Some s' -> reach s0 s'.
  Proof.
    intros s0 s l s' [ls Hls] Hs. exists (ls ++ [l]).
    rewrite run_app, Hls. simpl. now rewrite Hs.
  Qed.

  Lemma reach_trans : forall s0 s1 s2, reach s0 s1 -> reach s1 s2 -> reach s0 s2.
  Proof.
    intros s0 s1 s2 [l1 H1] [l2 H2]. exists (l1 ++ l2). now rewrite run_app, H1.
  Qed.

  Lemma reach_inv : forall (I : state -> Prop) s0,
    I s0 -> (forall s l s', I s -> step s l = Some s' -> I s') ->
    forall s, reach s0 s -> I s.
  Proof. intros I s0 H0 Hs s [ls Hls]. eapply run_inv; eauto. Qed.
End LTS.

(** Split on every [upd] in goal and hypotheses. *)
Ltac upd_step :=
  match goal with
  | |- context [upd _ ?i _ ?j] =>
      let E := fresh "E" in
      unfold upd; destruct (Nat.eqb_spec j i) as [E|E]; fold (@upd); try subst
  | H : context [upd _ ?i _ ?j] |- _ =>
      let E := fresh "E" in
      unfold upd in H; destruct (Nat.eqb_spec j i) as [E|E]; try subst
  end.
