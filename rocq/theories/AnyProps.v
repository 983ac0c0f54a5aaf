(** C57, C65: co_any. *)
From Coq Require Import List Arith Bool Lia.
From Verif Require Import Base AnySpec AnyModel.
Import ListNotations.

Record AInv (s : ast) : Prop := {
  a_old : forall x a, ptr s x = Some a -> a < fresh s;
  a_val : Forall no_write (ahi s) -> forall x, stored x (ahi s) = option_map (cells s) (ptr s x);
  a_get : forall post x t r pre, Forall no_write pre -> ahi s = post ++ AGet x t r :: pre -> r = get_of (stored x pre) t
}.

Lemma acons_split : forall A (e : A) H post f pre, e :: H = post ++ f :: pre ->
  (post = [] /\ e = f /\ H = pre) \/ (exists post', post = e :: post' /\ H = post' ++ f :: pre).
Proof. intros A e H [|a post] f pre E; injection E as -> ->; eauto. Qed.

Lemma ainv_step : forall s l s', AInv s -> astep s l = Some s' -> AInv s'.
Proof.
  intros s l s' [V1 V2 V3] E.
  assert (G : forall e, (forall x t r, e <> AGet x t r) -> forall post x t r pre, Forall no_write pre ->
    e :: ahi s = post ++ AGet x t r :: pre -> r = get_of (stored x pre) t).
  { intros e Ne post x t r pre N X. apply acons_split in X as [(_&X&_)|(post'&_&X)]; [now destruct (Ne x t r)|eauto]. }
  destruct l as [x t v|x y|x t v|x t]; simpl in E.
  - injection E as <-. split; cbn [cells fresh ptr ahi stored].
    + intros y a. unfold upd. destruct (Nat.eqb_spec y x); intros X; [injection X as <-; lia|apply V1 in X; lia].
    + intros N y. inversion N; subst. unfold upd. destruct (Nat.eqb_spec y x); simpl; [now rewrite Nat.eqb_refl|].
      rewrite V2 by auto. destruct (ptr s y) as [a|] eqn:P; simpl; auto. apply V1 in P. destruct (Nat.eqb_spec a (fresh s)); [lia|auto].
    + apply G. discriminate.
  - injection E as <-. split; cbn [cells fresh ptr ahi stored].
    + intros z a. unfold upd. destruct (Nat.eqb_spec z x); apply V1.
    + intros N z. inversion N; subst. unfold upd. destruct (Nat.eqb_spec z x); apply V2; auto.
    + apply G. discriminate.
  - destruct (ptr s x) as [a|] eqn:P; [|discriminate]. destruct (aget s x t); [|discriminate]. injection E as <-.
    split; cbn [cells fresh ptr ahi]; auto.
    + intros N. inversion N; subst. contradiction.
    + apply G. discriminate.
  - injection E as <-. split; cbn [cells fresh ptr ahi stored]; auto.
    + intros N. inversion N; subst. auto.
    + intros post y t0 r pre N X. apply acons_split in X as [(_&X&<-)|(post'&_&X)]; [|eauto].
      injection X as <- <- <-. rewrite V2 by auto. unfold aget. destruct (ptr s x) as [a|]; simpl; auto.
      destruct (cells s a) as [t1 v1]. simpl. now rewrite Nat.eqb_sym.
Qed.

Lemma ainv_run : forall ls s, run astep ainit ls = Some s -> AInv s.
Proof.
  intros ls s. apply run_inv; [|apply ainv_step]. split; simpl; try discriminate; auto.
  intros [|? ?]; discriminate.
Qed.

(** ** C57 *)
(** Every get<T> gives the stored value if the stored type is T and throws otherwise, where what is stored is determined by
    the last assignment to the variable (no writes through the references returned: C65). *)
Theorem any_get : forall ls s, run astep ainit ls = Some s -> forall post x t r pre, Forall no_write pre ->
  ahi s = post ++ AGet x t r :: pre -> r = get_of (stored x pre) t.
Proof. intros ls s R. exact (a_get _ (ainv_run _ _ R)). Qed.
Print Assumptions any_get.

(** The result of a coroutine: assigned once by the entry function (co_co.h 120-122), copied out of wait
    (co_env.cpp 151, 186) into a co_return_value, converted to the type that was returned. *)
Theorem any_return_value : forall ls s x y t v s', run astep ainit ls = Some s -> Forall no_write (ahi s) ->
  run astep s [Assign x t v; Copy y x; Get y t] = Some s' ->
  exists rest, ahi s' = AGet y t (Some v) :: rest.
Proof.
  intros ls s x y t v s' R N R'. assert (R2 : run astep ainit (ls ++ [Assign x t v; Copy y x; Get y t]) = Some s') by now rewrite run_app, R.
  simpl in R'. injection R' as R'. subst s'. cbn [ahi]. eexists. do 2 f_equal.
  pose proof (fun r => any_get _ _ R2 [] y t r (ACopy y x :: AAssign x t v :: ahi s)) as H. cbn [ahi] in H.
  rewrite (H _ ltac:(repeat constructor; auto) eq_refl). simpl. rewrite !Nat.eqb_refl. simpl. now rewrite Nat.eqb_refl.
Qed.
Print Assumptions any_return_value.

Example any_ex : option_map ahi (run astep ainit [Assign 1 5 42; Copy 2 1; Assign 1 6 7; Get 1 5; Get 1 6; Get 2 5; Get 3 5]) =
  Some [AGet 3 5 None; AGet 2 5 (Some 42); AGet 1 6 (Some 7); AGet 1 5 None; AAssign 1 6 7; ACopy 2 1; AAssign 1 5 42].
Proof. reflexivity. Qed.

(** ** C65 *)
(** A copy shares the object: a write through one variable is seen through the other. *)
Theorem any_copy_refuted : exists ls s post x t r pre, run astep ainit ls = Some s /\
  ahi s = post ++ AGet x t r :: pre /\ r <> get_of (stored x pre) t.
Proof.
  exists [Assign 1 5 42; Copy 2 1; Write 2 5 43; Get 1 5]. eexists. exists [], 1, 5, (Some 43). eexists.
  split; [reflexivity|]. split; [reflexivity|]. vm_compute. discriminate.
Qed.
Print Assumptions any_copy_refuted.

(** What does hold with writes: a variable not copied since its last assignment gives what was assigned to it or written
    through it last, whatever happens to other variables.  Missing for the full claim: variables that have been copied. *)
Record PInv (s : ast) : Prop := {
  p_old : forall x a, ptr s x = Some a -> a < fresh s;
  p_one : forall x y a, private x (ahi s) = true -> ptr s x = Some a -> ptr s y = Some a -> y = x;
  p_val : forall x, private x (ahi s) = true -> stored x (ahi s) = option_map (cells s) (ptr s x);
  p_get : forall post x t r pre, private x pre = true -> ahi s = post ++ AGet x t r :: pre -> r = get_of (stored x pre) t
}.
Lemma pinv_step : forall s l s', PInv s -> astep s l = Some s' -> PInv s'.
Proof.
  intros s l s' [V1 V0 V2 V3] E.
  assert (G : forall e, (forall x t r, e <> AGet x t r) -> forall post x t r pre, private x pre = true ->
    e :: ahi s = post ++ AGet x t r :: pre -> r = get_of (stored x pre) t).
  { intros e Ne post x t r pre N X. apply acons_split in X as [(_&X&_)|(post'&_&X)]; [now destruct (Ne x t r)|eauto]. }
  destruct l as [x t v|x y|x t v|x t]; simpl in E.
  - injection E as <-. split; cbn [cells fresh ptr ahi stored private]; [| | |apply G; discriminate].
    + intros y a. unfold upd. destruct (Nat.eqb_spec y x); intros X; [injection X as <-; lia|apply V1 in X; lia].
    + intros y z a P A B. unfold upd in A, B. destruct (Nat.eqb_spec y x) as [->|]; destruct (Nat.eqb_spec z x) as [->|]; auto.
      * injection A as <-. apply V1 in B. lia.
      * injection B as <-. apply V1 in A. lia.
      * eauto.
    + intros y P. unfold upd. destruct (Nat.eqb_spec y x); simpl; [now rewrite Nat.eqb_refl|].
      rewrite V2 by auto. destruct (ptr s y) as [a|] eqn:A; simpl; auto. apply V1 in A. destruct (Nat.eqb_spec a (fresh s)); [lia|auto].
  - injection E as <-. split; cbn [cells fresh ptr ahi stored private]; [| | |apply G; discriminate].
    + intros z a. unfold upd. destruct (Nat.eqb_spec z x); apply V1.
    + intros z w a P A B. unfold upd in A, B. destruct (Nat.eqb_spec z x) as [Nx|Nx]; [discriminate|].
      destruct (Nat.eqb_spec z y) as [Ny|Ny]; [discriminate|]. cbn [orb] in P.
      destruct (Nat.eqb_spec w x) as [->|]; [|eauto]. exfalso. apply Ny. symmetry. eapply V0; eauto.
    + intros z P. destruct (Nat.eqb_spec z x) as [Nx|Nx]; [discriminate|]. destruct (Nat.eqb_spec z y) as [Ny|Ny]; [discriminate|].
      unfold upd. destruct (Nat.eqb_spec z x); [congruence|]. now apply V2.
  - destruct (ptr s x) as [a|] eqn:A; [|discriminate]. destruct (aget s x t); [|discriminate]. injection E as <-.
    split; cbn [cells fresh ptr ahi stored private]; auto; [|apply G; discriminate].
    intros y P. unfold upd. destruct (Nat.eqb_spec y x) as [->|Ny].
    + rewrite A. simpl. now rewrite Nat.eqb_refl.
    + rewrite V2 by auto. destruct (ptr s y) as [b|] eqn:B; simpl; auto. destruct (Nat.eqb_spec b a) as [->|]; auto.
      exfalso. apply Ny. symmetry. eapply V0; eauto.
  - injection E as <-. split; cbn [cells fresh ptr ahi stored private]; auto.
    intros post y t0 r pre N X. apply acons_split in X as [(_&X&<-)|(post'&_&X)]; [|eauto].
    injection X as <- <- <-. rewrite V2 by auto. unfold aget. destruct (ptr s x) as [a|]; simpl; auto.
    destruct (cells s a) as [t1 v1]. simpl. now rewrite Nat.eqb_sym.
Qed.
Theorem any_private_partial : forall ls s, run astep ainit ls = Some s -> forall post x t r pre, private x pre = true ->
  ahi s = post ++ AGet x t r :: pre -> r = get_of (stored x pre) t.
Proof.
  intros ls s R. apply p_get. revert R. apply run_inv; [|apply pinv_step].
  split; simpl; try discriminate; auto. intros [|? ?]; discriminate.
Qed.
Print Assumptions any_private_partial.
Example any_private_ex : exists s pre, run astep ainit
  [Assign 1 5 42; Copy 2 1; Assign 1 6 7; Write 2 5 43; Write 1 6 8; Get 1 6] = Some s /\
  ahi s = AGet 1 6 (Some 8) :: pre /\ private 1 pre = true /\ private 2 pre = false.
Proof. eexists. eexists. split; [reflexivity|]. repeat split. Qed.
