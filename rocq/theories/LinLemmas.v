(** Lemmas about the vocabulary of LinSpec. *)
From Coq Require Import List Arith Bool.
From Verif Require Import Base LinSpec.
Import ListNotations.
Set Implicit Arguments.

Section L.
  Variables (Op Res Aux : Type) (op_eqb : Op -> Op -> bool) (res_eqb : Res -> Res -> bool).
  Hypothesis op_refl : forall o, op_eqb o o = true.
  Hypothesis res_refl : forall r, res_eqb r r = true.
  Notation phase_of := (@phase_of Op Res Aux op_eqb res_eqb).

  Definition ev_tid (e : ev Op Res Aux) : tid :=
    match e with ECall t _ => t | ELin t _ _ => t | ERet t _ _ => t | EAux t _ => t end.

  Lemma phase_other : forall e h t, ev_tid e <> t -> phase_of (e :: h) t = phase_of h t.
  Proof.
    intros e h t H. simpl. unfold phase_step. destruct (phase_of h t) as [p|]; [|reflexivity].
    destruct e as [u o|u o r|u o r|u a]; simpl in H; apply Nat.eqb_neq in H; rewrite ?H; reflexivity.
  Qed.
  Lemma phase_aux : forall t a h u, phase_of (EAux t a :: h) u = phase_of h u.
  Proof. intros. simpl. unfold phase_step. now destruct (phase_of h u). Qed.
  Lemma phase_call : forall t o h, phase_of h t = Some PIdle ->
    phase_of (ECall t o :: h) t = Some (PPending o).
  Proof. intros t o h H. simpl. now rewrite H; simpl; rewrite Nat.eqb_refl. Qed.
  Lemma phase_lin : forall t o r h, phase_of h t = Some (PPending o) ->
    phase_of (ELin t o r :: h) t = Some (PDone o r).
  Proof. intros t o r h H. simpl. rewrite H; simpl; rewrite Nat.eqb_refl. now rewrite op_refl. Qed.
  Lemma phase_ret : forall t o r h, phase_of h t = Some (PDone o r) ->
    phase_of (ERet t o r :: h) t = Some PIdle.
  Proof. intros t o r h H. simpl. rewrite H; simpl; rewrite Nat.eqb_refl. now rewrite op_refl, res_refl. Qed.
End L.
