(** The switch of context: switch_to, init_ctx and the switch from a signal handler, over a byte-addressed memory.
    source/cocpp/core/co_vos_gcc_x86_64.cpp 42-165, include/cocpp/core/co_ctx.h 25-26, include/cocpp/exception/co_exception.h 11-44.

    Addresses are integers and do not wrap around (stacks and co_ctx objects lie in user space).  What a coroutine does between two switches is
    arbitrary, except that it does not write into the stacks or saved registers of other coroutines and keeps its stack pointer inside its stack.
    Preparing the address of the next coroutine, choosing it, and the locks are in other models. *)
From Coq Require Import List Arith ZArith Bool.
From Verif Require Import Base MemBase AsmSpec.
Import ListNotations.
Local Open Scope Z_scope.

(** The registers that sigcontext_64 names (co_exception.h 13-30), except ip and flags. *)
Inductive reg := R8 | R9 | R10 | R11 | R12 | R13 | R14 | R15 | DI | SI | BP | BX | DX | AX | CX | SP.
(** Equality of registers (co_exception.h 13-28); a tool of the model. *)
Definition reg_eq_dec : forall a b : reg, {a = b} + {a <> b}. decide equality. Defined.
(** All of them, in the order of co_exception.h 13-28. *)
Definition all_regs := [R8; R9; R10; R11; R12; R13; R14; R15; DI; SI; BP; BX; DX; AX; CX; SP].
(** Offset of a register in sigcontext_64, co_exception.h 13-28; ip is at 128, flags at 136 (29-30). *)
Definition off (r : reg) : Z :=
  match r with R8 => 0 | R9 => 8 | R10 => 16 | R11 => 24 | R12 => 32 | R13 => 40 | R14 => 48 | R15 => 56 | DI => 64 | SI => 72
             | BP => 80 | BX => 88 | DX => 96 | AX => 104 | CX => 112 | SP => 120 end.
(** co_exception.h 29. *)
Definition off_ip : Z := 128.
(** co_exception.h 30. *)
Definition off_flags : Z := 136.
(** co_ctx.h 25-26: regs__ is 32 words, pre_ctx__ follows. *)
Definition off_pre : Z := 256.
(** regs__ and pre_ctx__ together (co_ctx.h 25-26). *)
Definition blk_size : Z := 264.

(** The machine: registers, flags, vector registers (as one value), next instruction, memory.  User-mode pushf/popf is taken to transfer the
    flags register as a whole. *)
Record mach := { rg : reg -> Z; fl : Z; vec : Z; rip : Z; mem : memory }.
(** A register is written (what movq and the stack instructions of co_vos_gcc_x86_64.cpp 48-95 do). *)
Definition setr (m : mach) (r : reg) (v : Z) : mach :=
  {| rg := fun x => if reg_eq_dec x r then v else rg m x; fl := fl m; vec := vec m; rip := rip m; mem := mem m |}.
(** A word of memory is written (same lines). *)
Definition setm (m : mach) (a v : Z) : mach := {| rg := rg m; fl := fl m; vec := vec m; rip := rip m; mem := sd (mem m) a v |}.
(** The flags are written (popfq, co_vos_gcc_x86_64.cpp 71-95). *)
Definition setf (m : mach) (v : Z) : mach := {| rg := rg m; fl := v; vec := vec m; rip := rip m; mem := mem m |}.
(** The next instruction is set (ret, co_vos_gcc_x86_64.cpp 95). *)
Definition setip (m : mach) (v : Z) : mach := {| rg := rg m; fl := fl m; vec := vec m; rip := v; mem := mem m |}.

(** The instructions that switch_to uses (and call). *)
Inductive instr :=
| Store (r : reg) (o : Z) (b : reg)   (* movq %r, o(%b) *)
| Load (o : Z) (b r : reg)            (* movq o(%b), %r *)
| PopM (o : Z) (b : reg)              (* popq o(%b) *)
| PushM (o : Z) (b : reg)             (* pushq o(%b) *)
| PushF | PopF | Ret
| Call (ret : Z).                     (* call, with the address of the following instruction *)
(** The meaning of one instruction of co_vos_gcc_x86_64.cpp 48-95 (Intel SDM, volume 2). *)
Definition exec1 (m : mach) (i : instr) : mach :=
  match i with
  | Store r o b => setm m (rg m b + o) (rg m r)
  | Load o b r => setr m r (ld (mem m) (rg m b + o))
  | PopM o b => let v := ld (mem m) (rg m SP) in let m := setr m SP (rg m SP + 8) in setm m (rg m b + o) v
  | PushM o b => let v := ld (mem m) (rg m b + o) in let m := setr m SP (rg m SP - 8) in setm m (rg m SP) v
  | PushF => let m := setr m SP (rg m SP - 8) in setm m (rg m SP) (fl m)
  | PopF => let m := setf m (ld (mem m) (rg m SP)) in setr m SP (rg m SP + 8)
  | Ret => let m := setip m (ld (mem m) (rg m SP)) in setr m SP (rg m SP + 8)
  | Call ret => let m := setr m SP (rg m SP - 8) in setm m (rg m SP) ret
  end.
(** The instructions one after the other (co_vos_gcc_x86_64.cpp 48-95 is straight-line code). *)
Fixpoint exec (m : mach) (p : list instr) : mach := match p with [] => m | i :: p => exec (exec1 m i) p end.

(** switch_to, first half: co_vos_gcc_x86_64.cpp 48-69. *)
Definition save_code : list instr :=
  [Store R8 0 DI; Store R9 8 DI; Store R10 16 DI; Store R11 24 DI; Store R12 32 DI; Store R13 40 DI; Store R14 48 DI; Store R15 56 DI;
   Store DI 64 DI; Store SI 72 DI; Store BP 80 DI; Store BX 88 DI; Store DX 96 DI; Store AX 104 DI; Store CX 112 DI;
   PopM 128 DI; PushF; PopM 136 DI; Store DI 256 SI; Store SP 120 DI].
(** switch_to, second half: co_vos_gcc_x86_64.cpp 71-95. *)
Definition restore_code : list instr :=
  [Load 120 SI SP; PushM 136 SI; PopF; PushM 128 SI; Load 112 SI CX; Load 104 SI AX; Load 96 SI DX; Load 88 SI BX; Load 80 SI BP;
   Load 64 SI DI; Load 56 SI R15; Load 48 SI R14; Load 40 SI R13; Load 32 SI R12; Load 24 SI R11; Load 16 SI R10; Load 8 SI R9; Load 0 SI R8;
   Load 72 SI SI; Ret].
(** switch_to: co_vos_gcc_x86_64.cpp 48-95. *)
Definition switch_code : list instr := save_code ++ restore_code.

(** Where things lie: n coroutines; for each the address of its co_ctx (whose first member is regs__, co_ctx.h 25) and its stack area
    [lo, hi) (co_stack.cpp 10-29); the addresses of co_ctx::real_entry and _start. *)
Record layout := { nco : nat; blk : nat -> Z; lo : nat -> Z; hi : nat -> Z; entry : Z; start : Z }.

(** init_ctx, co_vos_gcc_x86_64.cpp 98-107: four fields of the saved context, and _start at the saved stack pointer.  The other fields keep
    what the constructor of co_ctx left there. *)
Definition init_mem (L : layout) (c : nat) (M : memory) : memory :=
  let M := sd M (blk L c + off SP) (hi L c - 8) in
  let M := sd M (blk L c + off BP) (hi L c - 8) in
  let M := sd M (blk L c + off_ip) (entry L) in
  let M := sd M (blk L c + off DI) (blk L c) in
  sd M (ld M (blk L c + off SP)) (start L).

(** save_context_to_ctx, restore_context_from_ctx, co_vos_gcc_x86_64.cpp 127-139, 163-164: assignment of one sigcontext_64 (18 words), that is
    of the context of the interrupted code (which the kernel put on the stack and will load when the handler returns).  The vector registers
    are not part of it: the kernel reloads those of the interrupted code. *)
Definition save_ctx (M : memory) (a : Z) (m : mach) : memory :=
  sd (sd (fold_left (fun M r => sd M (a + off r) (rg m r)) all_regs M) (a + off_ip) (rip m)) (a + off_flags) (fl m).
(** restore_context_from_ctx: co_vos_gcc_x86_64.cpp 127-139, 163-164; see save_ctx. *)
Definition load_ctx (M : memory) (a : Z) (m : mach) : mach :=
  {| rg := fun r => ld M (a + off r); fl := ld M (a + off_flags); vec := vec m; rip := ld M (a + off_ip); mem := M |}.

(** What coroutine c sees: AsmSpec.image and AsmSpec.extra. *)
Definition see (L : layout) (c : nat) (m : mach) : image :=
  {| i_regs := map (rg m) all_regs; i_flags := fl m; i_rip := rip m; i_stack := bytes (mem m) (rg m SP) (Z.to_nat (hi L c - rg m SP)) |}.
(** Ghost: what the specification looks at beyond it (AsmSpec.extra); no code. *)
Definition see_more (m : mach) : extra := {| x_vec := vec m; x_red := bytes (mem m) (rg m SP - 128) 128 |}.
(** What coroutine c will see if it is loaded from memory M. *)
Definition stored (L : layout) (c : nat) (M : memory) : mach :=
  {| rg := fun r => ld M (blk L c + off r); fl := ld M (blk L c + off_flags); vec := 0; rip := ld M (blk L c + off_ip); mem := M |}.

(** The machine; the running coroutine (curr_ctx__); which ones init_ctx has prepared (co_vos_gcc_x86_64.cpp 98-107); ghost history. *)
Record astate := { ma : mach; cur : nat; ready : nat -> bool; hist : list aevent }.
Inductive alabel :=
| LWork (r : reg -> Z) (f v ip : Z) (w : list (Z * Z))  (* the running coroutine computes: new registers, writes to memory *)
| LInit (c : nat)                                       (* init_ctx of a coroutine that is not prepared yet, co_env.cpp 58-78 *)
| LSwitch (next : nat) (ret : Z)                        (* switch_to(curr->regs(), next->regs()), co_env.cpp 296-309 *)
| LSignal (next : nat) (frame : list (Z * Z)).          (* the switch signal arrives; the kernel writes its frame, the handler runs *)

(** Registers and words hold 64 bits (co_exception.h 13-30). *)
Definition u64 (v : Z) : Z := v mod 2 ^ 64.
(** [a] belongs to no saved context and to no stack but c's. *)
Definition may_write (L : layout) (c : nat) (a : Z) : bool :=
  forallb (fun d => negb ((blk L d <=? a) && (a <? blk L d + blk_size)) && (Nat.eqb d c || negb ((lo L d <=? a) && (a <? hi L d)))) (seq 0 (nco L)).
(** The running coroutine writes one byte; its own code, nothing of cocpp. *)
Definition write1 (M : memory) (p : Z * Z) : memory := fun x => if x =? fst p then snd p mod 256 else M x.
(** It writes several. *)
Definition writes (M : memory) (w : list (Z * Z)) : memory := fold_left write1 w M.
(** The stack pointer lies in the stack of c (assumption on client code, see the top; co_stack.cpp 10-29). *)
Definition sp_ok (L : layout) (c : nat) (sp : Z) : bool := (lo L c + 8 <=? sp) && (sp <=? hi L c).

(** One event: the lines given with the labels; co_vos_gcc_x86_64.cpp 42-165. *)
Definition astep (L : layout) (s : astate) (l : alabel) : option astate :=
  let m := ma s in let c := cur s in
  match l with
  | LWork r f v ip w =>
      if forallb (fun p => may_write L c (fst p)) w && sp_ok L c (u64 (r SP))
      then Some {| ma := {| rg := fun x => u64 (r x); fl := u64 f; vec := v; rip := u64 ip; mem := writes (mem m) w |};
                   cur := c; ready := ready s; hist := hist s |}
      else None
  | LInit d =>
      if (Nat.ltb d (nco L)) && negb (Nat.eqb d c) && negb (ready s d)
      then let M := init_mem L d (mem m) in
           Some {| ma := {| rg := rg m; fl := fl m; vec := vec m; rip := rip m; mem := M |}; cur := c; ready := upd (ready s) d true;
                   hist := ABorn d (see L d (stored L d M)) :: hist s |}
      else None
  | LSwitch d ret =>
      if (Nat.ltb d (nco L)) && negb (Nat.eqb d c) && ready s d
      then (* the two arguments, then call *)
           let m0 := setip (setr (setr m DI (blk L c)) SI (blk L d)) (u64 ret) in
           let m1 := exec (exec1 m0 (Call (u64 ret))) switch_code in
           Some {| ma := m1; cur := d; ready := upd (upd (ready s) c true) d false; hist := AIn d (see L d m1) (see_more m1) :: ACall c (see L c m0) :: hist s |}
      else None
  | LSignal d w =>
      if (Nat.ltb d (nco L)) && negb (Nat.eqb d c) && ready s d && forallb (fun p => may_write L c (fst p) && ((fst p <? rg m SP - 128) || (hi L c <=? fst p))) w
      then let M := save_ctx (writes (mem m) w) (blk L c) m in
           let m1 := load_ctx M (blk L d) m in
           Some {| ma := m1; cur := d; ready := upd (upd (ready s) c true) d false;
                   hist := AIn d (see L d m1) (see_more m1) :: ACut c (see L c m) (see_more m) :: hist s |}
      else None
  end.
