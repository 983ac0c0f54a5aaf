(** C58: coroutine-local variables. *)
From Coq Require Import List Arith Bool Lia.
From Verif Require Import Base LocalSpec LocalModel AnyProps.
Import ListNotations.

Section P.
  Variable dflt : nat -> nat.

  Record LInv (s : lst) : Prop := {
    l_some : forall c n t v, locs s c n = Some (t, v) -> lval dflt c n t (lhi s) = v;
    l_none : forall c n t, locs s c n = None -> lval dflt c n t (lhi s) = dflt t;
    l_rd : forall post c n t v pre, lhi s = post ++ LRead c n t v :: pre -> v = lval dflt c n t pre
  }.

  Lemma linv_step : forall s a s', LInv s -> lstep_ok dflt s a = Some s' -> LInv s'.
  Proof.
    intros s a s' [V1 V2 V3] E. unfold lstep_ok, lstep in E. destruct a as [c n t|c n t v].
    - destruct (Nat.eqb_spec (fst (ensure dflt s c n t)) t) as [T|]; [|discriminate]. injection E as <-.
      assert (X : lval dflt c n t (lhi s) = snd (ensure dflt s c n t)).
      { unfold ensure in *. destruct (locs s c n) as [[t1 v1]|] eqn:L; simpl in *; [subst t1; auto|auto]. }
      split; cbn [locs lhi put_loc lval].
      + intros c' n' t' v'. unfold upd. destruct (Nat.eqb_spec c' c) as [->|]; [|apply V1].
        destruct (Nat.eqb_spec n' n) as [->|]; [|apply V1]. intros Q. injection Q as Q. rewrite Q in *. simpl in *. subst t'. auto.
      + intros c' n' t'. unfold upd. destruct (Nat.eqb_spec c' c) as [->|]; [|apply V2].
        destruct (Nat.eqb_spec n' n) as [->|]; [discriminate|apply V2].
      + intros post c' n' t' v' pre Q. apply acons_split in Q as [(_&Q&<-)|(post'&_&Q)]; [injection Q as <- <- <- <-; auto|eauto].
    - destruct (Nat.eqb_spec (fst (ensure dflt s c n t)) t) as [T|]; [|discriminate]. injection E as <-.
      split; cbn [locs lhi put_loc lval].
      + intros c' n' t' v'. unfold upd. destruct (Nat.eqb_spec c' c) as [->|]; [|apply V1].
        destruct (Nat.eqb_spec n' n) as [->|]; [|apply V1]. simpl. congruence.
      + intros c' n' t'. unfold upd. destruct (Nat.eqb_spec c' c) as [->|]; [|apply V2].
        destruct (Nat.eqb_spec n' n) as [->|]; [discriminate|apply V2].
      + intros post c' n' t' v' pre Q. apply acons_split in Q as [(_&Q&_)|(post'&_&Q)]; [discriminate|eauto].
  Qed.
  Lemma linv_run : forall ls s, run (lstep_ok dflt) linit ls = Some s -> LInv s.
  Proof.
    intros ls s. apply run_inv; [|apply linv_step]. split; simpl; try discriminate; auto. intros [|? ?]; discriminate.
  Qed.
End P.

(** Every read gives the last value written by the same coroutine under the same name, or the default. *)
Theorem local_private : forall dflt ls s, run (lstep_ok dflt) linit ls = Some s ->
  forall post c n t v pre, lhi s = post ++ LRead c n t v :: pre -> v = lval dflt c n t pre.
Proof. intros dflt ls s R. exact (l_rd _ _ (linv_run dflt _ _ R)). Qed.
Print Assumptions local_private.

(** An access is well-defined as long as each coroutine uses each name at one type only. *)
Theorem local_no_ub_partial : forall dflt (ty : nat -> nat -> nat) ls s a, run (lstep_ok dflt) linit ls = Some s ->
  Forall (fun a => match a with Rd c n t | Wr c n t _ => t = ty c n end) (a :: ls) -> lstep dflt s a <> LUB.
Proof.
  intros dflt ty ls s a R F. inversion F as [|x y Fa Fl]; subst.
  assert (I : forall c n t v, locs s c n = Some (t, v) -> t = ty c n).
  { clear -R Fl. revert s R. induction ls as [|b ls IH] using rev_ind; intros s R.
    - injection R as <-. discriminate.
    - rewrite run_app in R. destruct (run (lstep_ok dflt) linit ls) as [s0|] eqn:E; [|discriminate]. simpl in R.
      destruct (lstep_ok dflt s0 b) as [s1|] eqn:E1; [|discriminate]. injection R as <-.
      apply Forall_app in Fl as [F1 F2]. inversion F2; subst. specialize (IH F1 s0 eq_refl).
      unfold lstep_ok, lstep in E1. destruct b as [c n t|c n t v];
      destruct (Nat.eqb_spec (fst (ensure dflt s0 c n t)) t) as [T|]; try discriminate; injection E1 as <-;
      intros c' n' t' v'; cbn [locs put_loc]; unfold upd; destruct (Nat.eqb_spec c' c) as [->|]; try apply IH;
      destruct (Nat.eqb_spec n' n) as [->|]; try apply IH; intros Q; injection Q as Q; [rewrite Q in T; simpl in T; congruence|congruence]. }
  destruct a as [c n t|c n t v]; simpl; unfold ensure; destruct (locs s c n) as [[t1 v1]|] eqn:L; simpl;
  try (rewrite (I _ _ _ _ L)); rewrite Fa, Nat.eqb_refl; discriminate.
Qed.
Print Assumptions local_no_ub_partial.

(** Using a name at another type is not detected: it dereferences a null pointer. *)
Theorem local_type_reuse_refuted : forall dflt, exists ls s a, run (lstep_ok dflt) linit ls = Some s /\ lstep dflt s a = LUB.
Proof. intros dflt. exists [Wr 1 2 3 4]. eexists. exists (Rd 1 2 5). split; reflexivity. Qed.
Print Assumptions local_type_reuse_refuted.

Example local_ex : option_map lhi (run (lstep_ok (fun _ => 0)) linit [Wr 1 7 3 4; Rd 2 7 3; Rd 1 7 3; Wr 2 7 3 9; Rd 1 7 3; Rd 2 8 3; Rd 2 7 3]) =
  Some [LRead 2 7 3 9; LRead 2 8 3 0; LRead 1 7 3 4; LWrite 2 7 3 9; LRead 1 7 3 4; LRead 2 7 3 0; LWrite 1 7 3 4].
Proof. reflexivity. Qed.
