(** What it means that an operation passes on what was done before it.  Independent of the model of the code. *)
From Coq Require Import List Arith.
From Verif Require Import LinSpec RaceSpec.
Import ListNotations.

Section Order.
  Variables (sync loc : Type).
  (** Everything that t did before position p of the trace happens before everything that u does from position q on. *)
  Definition passes (tr : list (RaceSpec.ev sync loc)) (t p u q : nat) : Prop :=
    forall i j a b, i < p -> q <= j -> nth_error tr i = Some a -> thr a = t -> nth_error tr j = Some b -> thr b = u -> hb tr i j.

  (** A history of calls (newest first) in which every event carries the number of accesses to memory made before it. *)
  Variables (Op Res Aux : Type).
  Notation timed := (list (LinSpec.ev Op Res Aux * nat)).
  (** [at_ m e p older]: e is in the history, at position p, and older is what had happened before. *)
  Definition at_ (m : timed) (e : LinSpec.ev Op Res Aux) (p : nat) (older : list (LinSpec.ev Op Res Aux)) : Prop :=
    exists newer rest, m = newer ++ (e, p) :: rest /\ older = map fst rest.
End Order.
Arguments passes {sync loc}.
Arguments at_ {Op Res Aux}.
