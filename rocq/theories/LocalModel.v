(** Model of co_ctx::local_storage (include/cocpp/core/co_ctx.h 112-120) and co_local (core/co_local.h 8-28), as used by the
    macro CoLocal (co/co_co.h 97-99): each access fetches the reference and reads or writes through it. *)
From Coq Require Import List Arith Bool.
From Verif Require Import Base LocalSpec.
Import ListNotations.

Section M.
  (** The default value of a type (co_local.h 20: T local_data__; make_shared value-initialises it, so it is zero for a
      scalar type). *)
  Variable dflt : nat -> nat.

  (** locals__ of each coroutine (co_ctx.h 57): per name the type and the value. *)
  Record lst := mkLS { locs : nat -> nat -> option (nat * nat); lhi : list lev }.
  (** co_ctx.h 57: locals__ starts empty. *)
  Definition linit : lst := mkLS (fun _ _ => None) [].

  (** co_co.h 97-99: read or write of coroutine c through CoLocal of name n and type t. *)
  Inductive llbl := Rd (c n t : nat) | Wr (c n t v : nat).
  (** [LUB]: dynamic_pointer_cast gave null and get() is called on it (co_ctx.h 119). *)
  Inductive lres := LOk (s : lst) | LUB.

  (** 115-118: make the variable if it does not exist. *)
  Definition ensure (s : lst) (c n t : nat) : nat * nat :=
    match locs s c n with Some x => x | None => (t, dflt t) end.
  (** co_ctx.h 117: the variable is in the map (with its new value). *)
  Definition put_loc (s : lst) (c n : nat) (x : nat * nat) (e : lev) : lst :=
    mkLS (upd (locs s) c (upd (locs s c) n (Some x))) (e :: lhi s).
  (** 112-120. *)
  Definition lstep (s : lst) (a : llbl) : lres :=
    match a with
    | Rd c n t => let x := ensure s c n t in
                  if fst x =? t then LOk (put_loc s c n x (LRead c n t (snd x))) else LUB
    | Wr c n t v => let x := ensure s c n t in
                    if fst x =? t then LOk (put_loc s c n (t, v) (LWrite c n t v)) else LUB
    end.
  (** co_ctx.h 112-120, a step that is not undefined behaviour. *)
  Definition lstep_ok (s : lst) (a : llbl) : option lst := match lstep s a with LOk s' => Some s' | LUB => None end.
End M.
