(** Giving stack pages back to the system.
    source/cocpp/core/co_ctx.cpp 301-314, source/cocpp/core/co_vos_gcc_x86_64.cpp 167-170, 187-198, include/cocpp/core/co_define.h 38-39. *)
From Coq Require Import List Arith ZArith Bool.
From Verif Require Import Base MemBase.
Import ListNotations.
Local Open Scope Z_scope.

(** co_define.h 38: CO_PAGE_SIZE. *)
Definition page : Z := 4096.
(** x & ~(CO_PAGE_SIZE - 1) on unsigned 64-bit values. *)
Definition page_of (x : Z) : Z := Z.land x (Z.lxor (2 ^ 64 - 1) (page - 1)).
(** madvise(a, n, MADV_DONTNEED) on private anonymous memory, co_vos_gcc_x86_64.cpp 167-170: the pages of [a, a + n) read as zero afterwards;
    it fails if a is not the beginning of a page; n is rounded up to whole pages. *)
Definition dontneed (M : memory) (a n : Z) : memory :=
  if (a mod page =? 0) then fun x => if (a <=? x) && (x <? a + (n + page - 1) / page * page) then 0 else M x else M.
(** shrink_mem_to_top, co_vos_gcc_x86_64.cpp 187-198: the piece passed to madvise, if any.  Sizes are unsigned 64-bit. *)
Definition shrink_range (top bottom : Z) : option (Z * Z) :=
  if (bottom >=? top) then None else Some (page_of bottom, (page_of top - page_of bottom) mod 2 ^ 64).

(** A coroutine as shrink_stack sees it: co_ctx.h 20-63. *)
Record sctx := { c_base : Z; c_size : Z; c_sp : Z; c_count : Z }.
(** shrink_stack, co_ctx.cpp 301-314; the counter is an unsigned short, the limit 1 << 10 (co_define.h 39).  Result: memory, coroutine, and whether
    madvise was called. *)
Definition shrink (M : memory) (c : sctx) : memory * sctx * bool :=
  if (c_base c =? 0) then (M, c, false)
  else let k := (c_count c + 1) mod 2 ^ 16 in
       if negb (Z.land k 1024 =? 0)
       then let c' := {| c_base := c_base c; c_size := c_size c; c_sp := c_sp c; c_count := 0 |} in
            match shrink_range (c_sp c) (c_base c) with
            | Some (a, n) => (dontneed M a n, c', true)
            | None => (M, c', false)
            end
       else (M, {| c_base := c_base c; c_size := c_size c; c_sp := c_sp c; c_count := k |}, false).

(** Life of one coroutine as far as its stack goes: it writes to its stack and moves its stack pointer, or it is shrunk while suspended. *)
Inductive klabel := KWork (sp : Z) (w : list (Z * Z)) | KShrink.
(** Memory, the coroutine, ghosts: how often shrink_stack was called and how often it called madvise (co_ctx.cpp 301-314). *)
Record kstate := { k_mem : memory; k_ctx : sctx; k_calls : Z; k_advised : Z }.
(** The coroutine writes one byte; client code. *)
Definition kwrite (M : memory) (p : Z * Z) : memory := fun x => if x =? fst p then snd p else M x.
(** One event: client code, or shrink_stack (co_ctx.cpp 301-314). *)
Definition kstep (s : kstate) (l : klabel) : option kstate :=
  match l with
  | KWork sp w =>
      if (c_base (k_ctx s) <=? sp) && (sp <=? c_base (k_ctx s) + c_size (k_ctx s))
      then Some {| k_mem := fold_left kwrite w (k_mem s);
                   k_ctx := {| c_base := c_base (k_ctx s); c_size := c_size (k_ctx s); c_sp := sp; c_count := c_count (k_ctx s) |};
                   k_calls := k_calls s; k_advised := k_advised s |}
      else None
  | KShrink =>
      match shrink (k_mem s) (k_ctx s) with
      | (M, c, b) => Some {| k_mem := M; k_ctx := c; k_calls := k_calls s + 1; k_advised := k_advised s + (if b then 1 else 0) |}
      end
  end.
(** A new coroutine: co_ctx.h 63, co_ctx.cpp 55-60; the stack pointer is 8 below the top (init_ctx). *)
Definition kinit (M : memory) (base size : Z) : kstate :=
  {| k_mem := M; k_ctx := {| c_base := base; c_size := size; c_sp := base + size - 8; c_count := 0 |}; k_calls := 0; k_advised := 0 |}.
