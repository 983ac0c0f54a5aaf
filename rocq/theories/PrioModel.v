(** Model of the priority of a coroutine (source/cocpp/core/co_ctx.cpp 52-58, 85-119, include/cocpp/core/co_ctx_config.h 15).
    Machine integers are elements of Z in the range of their type. *)
From Coq Require Import ZArith List Bool.
Import ListNotations.
Local Open Scope Z_scope.

(** Conversion of a size_t to int where set_priority(int) is called with config.priority (co_ctx.cpp 57) or the result of
    priority() (co_env.cpp 108, 162): modulo 2^32 into -2^31 .. 2^31-1 (C++20 [conv.integral]). *)
Definition to_int (n : Z) : Z := let m := n mod 2 ^ 32 in if m <? 2 ^ 31 then m else m - 2 ^ 32.
(** Conversion of an int to size_t in the return of priority() (co_ctx.cpp 85-89). *)
Definition to_size (z : Z) : Z := z mod 2 ^ 64.

(** priority__, the flag IDLE, whether env__ is set, and the calls of priority_changed().pub so far, newest first (co_ctx.h
    33, 54; the lock is not modelled here, see SchedModel). *)
Record prst := mkPr { prio : Z; idle : bool; envd : bool; pubs : list (Z * Z) }.
(** co_ctx.h 54: CO_IDLE_CTX_PRIORITY. *)
Definition prinit (id : bool) : prst := mkPr 99 id false [].
(** set_priority (co_ctx.cpp 91-119). *)
Definition set_priority (s : prst) (z : Z) : prst :=
  if idle s then s
  else let z1 := if 100 <=? z then 100 - 1 else z in
       let z2 := if z1 <? 0 then 0 else z1 in
       mkPr z2 (idle s) (envd s) (if envd s && negb (prio s =? z2) then (prio s, z2) :: pubs s else pubs s).
(** set_env (co_ctx.cpp 42-45). *)
Definition set_env (s : prst) : prst := mkPr (prio s) (idle s) true (pubs s).
(** priority() (co_ctx.cpp 85-89). *)
Definition priority (s : prst) : Z := to_size (prio s).
(** The constructor (co_ctx.cpp 52-58) with config.priority = n. *)
Definition create (n : Z) : prst := set_priority (prinit false) (to_int n).
(** Later calls: set_priority from user code, with the priority of another coroutine (a size_t), or set_env. *)
Inductive prl := SetP (z : Z) | SetC (n : Z) | Env.
(** One call: set_priority (co_ctx.cpp 91-119), the same through the conversion of co_env.cpp 108 and 162, or set_env
    (co_ctx.cpp 42-45). *)
Definition prstep (s : prst) (l : prl) : prst :=
  match l with SetP z => set_priority s z | SetC n => set_priority s (to_int n) | Env => set_env s end.
