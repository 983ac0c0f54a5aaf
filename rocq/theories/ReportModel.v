(** Parts of the report of a fatal signal: the dump of a coroutine's stack and the name of the program (source/cocpp/
    exception/co_exception.cpp 23-32, 103-127, 188-206; source/cocpp/core/co_ctx.cpp 256-275; co_stack.cpp, co_stack_factory.cpp). *)
From Coq Require Import List ZArith Bool String.
From Verif Require Import MemBase.
Import ListNotations.
Local Open Scope Z_scope.

(** What the dump consists of: an address with a colon (co_exception.cpp 195-196), a word in hexadecimal (198-199; both with
    all their digits), the end of a line (202). *)
Inductive tok := TAddr (a : Z) | TWord (w : Z) | TEnd.

(** dump_memory (co_exception.cpp 188-206): the loop from offset i on; [fuel] bounds the number of rounds (the loop
    makes one per eight bytes).  Offsets do not wrap around: the size is that of a stack. *)
Fixpoint dump_loop (fuel : nat) (m : memory) (addr size i : Z) : list tok :=
  match fuel with
  | O => []
  | S fuel =>
      if i <? size then
        (if i mod (4 * 8) =? 0 then [TAddr (addr + i)] else []) ++
        [TWord (ld m (addr + i))] ++
        (if i mod (4 * 8) =? 3 * 8 then [TEnd] else []) ++
        dump_loop fuel m addr size (i + 8)
      else []
  end.
(** dump_memory (co_exception.cpp 188-206). *)
Definition dump_memory (m : memory) (addr size : Z) : list tok := dump_loop (Z.to_nat size) m addr size 0.
(** The addresses it reads eight bytes from (198). *)
Fixpoint dump_reads (fuel : nat) (addr size i : Z) : list Z :=
  match fuel with
  | O => []
  | S fuel => if i <? size then (addr + i) :: dump_reads fuel addr size (i + 8) else []
  end.

(** A stack: its lowest address and its size; stack_top is the first address behind it (co_stack.cpp 10-29). *)
Record stk := mkStk { base : Z; len : Z }.
(** co_stack.cpp 10-29. *)
Definition stack_top (k : stk) : Z := base k + len k.
(** The part of ctx_info that dumps the stack: only if the saved stack pointer lies in the stack (co_ctx.cpp 260-269). *)
Definition stack_dump (m : memory) (k : stk) (sp : Z) : option (list tok) :=
  if (sp <? stack_top k) && (base k <=? sp) then Some (dump_memory m sp (stack_top k - sp)) else None.
(** The addresses that part of ctx_info reads (co_ctx.cpp 260-269, co_exception.cpp 198). *)
Definition stack_reads (k : stk) (sp : Z) : list Z :=
  if (sp <? stack_top k) && (base k <=? sp) then dump_reads (Z.to_nat (stack_top k - sp)) sp (stack_top k - sp) 0 else [].
(** The memory of a stack: mmap gives whole pages that begin at a page's start (co_stack_factory.cpp 16; co_vos_gcc_x86_64.cpp
    172-175; mmap(2)). *)
Definition page : Z := 4096.
(** The addresses that exist (see page). *)
Definition mapped (k : stk) (x : Z) : Prop := base k <= x < base k + page * ((len k + page - 1) / page).

(** realpath (co_exception.cpp 26): it writes the name into the buffer and returns the buffer, or it returns a null pointer
    and the buffer's contents are unspecified. *)
Inductive realpath_result := Found (name : string) | Failed.
(** The outcome of exe_path: a string, or the bytes of a buffer nobody has written. *)
Inductive exe_result := Str (s : string) | Unwritten.
(** exe_path (co_exception.cpp 23-32): line 27 tests for success and gives up. *)
Definition exe_path (r : realpath_result) : exe_result := match r with Found _ => Str "" | Failed => Unwritten end.
