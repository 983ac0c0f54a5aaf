(** What coroutine-local variables promise. *)
From Coq Require Import List Arith Bool.
Import ListNotations.

(** Coroutine [c] reads value [v] of its variable [n] at type [t]; writes it. *)
Inductive lev := LRead (c n t v : nat) | LWrite (c n t v : nat).

(** The value of variable n of coroutine c: the last one written by c, else the default value of type t. *)
Fixpoint lval (dflt : nat -> nat) (c n t : nat) (H : list lev) : nat :=
  match H with
  | [] => dflt t
  | LWrite c' n' _ v :: r => if (c =? c') && (n =? n') then v else lval dflt c n t r
  | _ :: r => lval dflt c n t r
  end.
