(** C85, C86: what creating coroutines and environments acquires and gives back, independently of how. *)
From Coq Require Import List Arith.
Import ListNotations.

Section Resources.
Variable R : Type.
(** A call leaves nothing behind: whatever is held afterwards was held before. *)
Definition leaves_nothing (before after : list R) : Prop := forall r, In r after -> In r before.
(** A call takes nothing away. *)
Definition takes_nothing (before after : list R) : Prop := forall r, In r before -> In r after.
(** Held: exactly what somebody answers for, each thing once. *)
Definition accounted (held owned : list R) : Prop := NoDup held /\ forall r, In r held <-> In r owned.
End Resources.
