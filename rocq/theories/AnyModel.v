(** Model of co_any (include/cocpp/utils/co_any.h 10-81) and co_return_value (core/co_return_value.h 8-28). *)
From Coq Require Import List Arith Bool.
From Verif Require Import Base AnySpec.
Import ListNotations.

(** real_type<T> objects (18-27): type and value__, at addresses 0, 1, ... in the order they are made; data__ (29) of each
    variable; ghost history. *)
Record ast := mkA { cells : nat -> nat * nat; fresh : nat; ptr : nat -> option nat; ahi : list aev }.
(** data__ {nullptr} (29). *)
Definition ainit : ast := mkA (fun _ => (0, 0)) 0 (fun _ => None) [].

(** co_any.h: 58-69, 33-34, a write through the reference of 71-80, 71-80. *)
Inductive albl := Assign (x t v : nat) | Copy (x y : nat) | Write (x t v : nat) | Get (x t : nat).

(** co_any::get<T> (71-80): dynamic_pointer_cast gives null unless the object was made with the same T; bad_cast is None. *)
Definition aget (s : ast) (x t : nat) : option nat :=
  match ptr s x with
  | None => None
  | Some a => if fst (cells s a) =? t then Some (snd (cells s a)) else None
  end.

(** co_any.h 33-80. *)
Definition astep (s : ast) (l : albl) : option ast :=
  match l with
  | Assign x t v => (* 58-69: make_shared<real_type<T>>(value) *)
      Some (mkA (upd (cells s) (fresh s) (t, v)) (S (fresh s)) (upd (ptr s) x (Some (fresh s))) (AAssign x t v :: ahi s))
  | Copy x y => (* 33-34: defaulted copies copy the shared_ptr *)
      Some (mkA (cells s) (fresh s) (upd (ptr s) x (ptr s y)) (ACopy x y :: ahi s))
  | Write x t v => (* get (71-80) returns a reference; bad_cast is thrown before any write *)
      match ptr s x, aget s x t with
      | Some a, Some _ => Some (mkA (upd (cells s) a (t, v)) (fresh s) (ptr s) (AWrite x t v :: ahi s))
      | _, _ => None
      end
  | Get x t => (* 71-80; co_return_value::operator T (co_return_value.h 23-26) is get<T> *)
      Some (mkA (cells s) (fresh s) (ptr s) (AGet x t (aget s x t) :: ahi s))
  end.
