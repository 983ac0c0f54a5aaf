(** More specification vocabulary: statements about every instant of a history.
    Histories are NEWEST FIRST; [older] is what had happened before event [e]. *)
From Coq Require Import List ZArith Lia.
Import ListNotations.
Set Implicit Arguments.

Section H.
  Variable E : Type.

  Definition always_at (P : E -> list E -> Prop) (h : list E) : Prop :=
    forall newer e older, h = newer ++ e :: older -> P e older.

  (** A statement about the history holds now and held at every earlier instant. *)
  Definition always (Q : list E -> Prop) (h : list E) : Prop :=
    forall newer older, h = newer ++ older -> Q older.

  (** Sum of a weight over the events of a history. *)
  Fixpoint total (w : E -> Z) (h : list E) : Z :=
    match h with [] => 0%Z | e :: h' => (w e + total w h')%Z end.

  Lemma always_at_nil : forall P, always_at P [].
  Proof. intros P [|? ?] ? ? H; discriminate. Qed.

  Lemma always_at_cons : forall P e h, always_at P (e :: h) <-> P e h /\ always_at P h.
  Proof.
    intros P e h. split.
    - intros H. split; [exact (H [] e h eq_refl)|].
      intros newer e' older ->. exact (H (e :: newer) e' older eq_refl).
    - intros [H1 H2] [|x newer] e' older Heq; simpl in Heq; injection Heq as -> Heq.
      + now subst.
      + exact (H2 newer e' older Heq).
  Qed.

  Lemma always_cons : forall Q e h, always Q (e :: h) <-> Q (e :: h) /\ always Q h.
  Proof.
    intros Q e h. split.
    - intros H. split; [exact (H [] (e :: h) eq_refl)|].
      intros newer older ->. exact (H (e :: newer) older eq_refl).
    - intros [H1 H2] [|x newer] older Heq; simpl in Heq.
      + now subst.
      + injection Heq as -> Heq. exact (H2 newer older Heq).
  Qed.

  Lemma always_nil : forall Q, always Q [] <-> Q [].
  Proof.
    intros Q; split; [intros H; exact (H [] [] eq_refl)|].
    intros H newer older Heq. symmetry in Heq. apply app_eq_nil in Heq. now destruct Heq as [_ ->].
  Qed.

  Lemma total_app : forall w a b, total w (a ++ b) = (total w a + total w b)%Z.
  Proof. induction a as [|x a IH]; intros b; simpl; [reflexivity|rewrite IH; lia]. Qed.
End H.
