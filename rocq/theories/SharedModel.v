(** Coroutines on the shared stack of a scheduler thread: saving and restoring of their stacks.
    source/cocpp/core/co_env.cpp 53-78, 241-329, 367-386, 447-475, source/cocpp/core/co_stack_factory.cpp 11-43,
    source/cocpp/core/co_ctx_factory.cpp 15-45.

    One scheduler thread.  The switch itself (registers) is in AsmModel; here a coroutine that stops executing leaves its stack pointer in its
    saved context, and one that executes finds it there.  Which coroutine is chosen is given by the label.  What a coroutine does between two
    switches is arbitrary, except that it does not write to stacks other than its own nor to the return address of its first function
    (the word at the top of the stack), and keeps its stack pointer inside the area below that word. *)
From Coq Require Import List Arith ZArith Bool.
From Verif Require Import Base MemBase SharedSpec.
Import ListNotations.
Local Open Scope Z_scope.

(** co_ctx::stack__: none yet (co_ctx_factory.cpp 17), the shared stack, or a copy of n bytes at a (co_env.cpp 452-475).  Coroutines with a stack
    of their own never use this field here. *)
Inductive stk := NoStack | OnShared | Copy (a n : Z).

(** co_env::shared_stack_switch_info__: from and to are coroutines or the idle context (None). *)
Record config := { slo : Z; shi : Z; shared : nat -> bool; sstart : Z }.
(** The state of the thread; the fields are explained beside them (co_env.h, shared_stack_switch_info__). *)
Record sstate := {
  smem : memory;
  run_ctx : option nat;             (* who executes on the thread; None is the idle context *)
  ssp : nat -> Z;                   (* stack pointer in the saved context, co_vos_gcc_x86_64.cpp 38-41 get_rsp *)
  sst : nat -> stk;
  born : nat -> bool;
  gone : nat -> bool;               (* destroyed *)
  need : bool; from : option nat; to : option nat;   (* shared_stack_switch_info__ *)
  maps : list (Z * Z);              (* memory obtained by mmap for copies and not given back (ghost) *)
  shist : list sevent }.

(** test_flag(CO_CTX_FLAG_SHARED_STACK); the idle context has it not (co_env.cpp 241-329). *)
Definition is_shared (K : config) (o : option nat) : bool := match o with Some c => shared K c | None => false end.
(** Equality of contexts (pointers in co_env.cpp 241-329). *)
Definition oeqb (a b : option nat) : bool := match a, b with Some x, Some y => Nat.eqb x y | None, None => true | _, _ => false end.
(** The number of bytes of stack in use: get_valid_stack_size__ (co_env.cpp 447-450). *)
Definition len (K : config) (sp : Z) : nat := Z.to_nat (shi K - sp).
(** Those bytes (co_env.cpp 447-458). *)
Definition live (K : config) (M : memory) (sp : Z) : list Z := bytes M sp (len K sp).

(** save_shared_stack__, co_env.cpp 447-458; [a] is the answer of mmap. *)
Definition save (K : config) (s : sstate) (c : nat) (a : Z) : sstate :=
  let n := shi K - ssp s c in
  {| smem := put (smem s) a (bytes (smem s) (ssp s c) (Z.to_nat n)); run_ctx := run_ctx s; ssp := ssp s; sst := upd (sst s) c (Copy a n);
     born := born s; gone := gone s; need := need s; from := from s; to := to s; maps := (a, n) :: maps s; shist := SMap a n :: shist s |}.
(** restore_shared_stack__, co_env.cpp 460-475. *)
Definition restore (K : config) (s : sstate) (c : nat) : sstate :=
  match sst s c with
  | Copy a n =>
      {| smem := put (smem s) (shi K - n) (bytes (smem s) a (Z.to_nat n)); run_ctx := run_ctx s; ssp := ssp s; sst := upd (sst s) c OnShared;
         born := born s; gone := gone s; need := need s; from := from s; to := to s; maps := remove zz_dec (a, n) (maps s); shist := SUnmap a n :: shist s |}
  | _ =>
      {| smem := smem s; run_ctx := run_ctx s; ssp := ssp s; sst := upd (sst s) c OnShared;
         born := born s; gone := gone s; need := need s; from := from s; to := to s; maps := maps s; shist := shist s |}
  end.
(** The end of a switch: c (or the idle context) executes. *)
Definition enter (K : config) (s : sstate) (o : option nat) : sstate :=
  {| smem := smem s; run_ctx := o; ssp := ssp s; sst := sst s; born := born s; gone := gone s; need := need s; from := from s; to := to s; maps := maps s;
     shist := match o with Some c => if shared K c then SIn c (ssp s c) (live K (smem s) (ssp s c)) :: shist s else shist s | None => shist s end |}.

(** The events; the lines are given beside them. *)
Inductive slabel :=
| TInit (c : nat)                    (* add_ctx of a shared-stack coroutine, co_env.cpp 58-78, by any thread at any time *)
| TWork (w : list (Z * Z))           (* whoever executes writes to memory; also other threads *)
| TLeave (sp : Z) (next : option nat) (* the running coroutine stops (schedule_switch, or the switch signal) with stack pointer sp; next was chosen *)
| TIdle (next : nat)                 (* the idle context chooses next *)
| TSwitch (a : Z)                    (* switch_shared_stack_ctx__; a: answer of mmap, if needed *)
| TDestroy (c : nat).                (* destroy_ctx, co_ctx_factory.cpp 33-45 *)

(** x lies in the n bytes from a on; a tool of the model. *)
Definition in_area (x a n : Z) : bool := (a <=? x) && (x <? a + n).
(** Addresses that the executing code may write. *)
Definition writable (K : config) (s : sstate) (x : Z) : bool :=
  forallb (fun p => negb (in_area x (fst p) (snd p))) (maps s) &&
  (if is_shared K (run_ctx s) then negb (in_area x (shi K - 8) 8) else negb (in_area x (slo K) (shi K - slo K))).
(** Whoever executes writes one byte; client code. *)
Definition swrite (M : memory) (p : Z * Z) : memory := fun x => if x =? fst p then snd p mod 256 else M x.
(** mmap answers with an unused piece of memory. *)
Definition unused (K : config) (s : sstate) (a n : Z) : bool :=
  ((a + n <=? slo K) || (shi K <=? a)) && forallb (fun p => (a + n <=? fst p) || (fst p + snd p <=? a)) (maps s).
(** The coroutine exists and is not destroyed (co_ctx_factory.cpp 15-45). *)
Definition pickable (s : sstate) (o : option nat) : bool := match o with Some c => born s c && negb (gone s c) | None => true end.

(** One event: the lines given with the labels (co_env.cpp 53-78, 241-329, 367-386, 447-475). *)
Definition sstep (K : config) (s : sstate) (l : slabel) : option sstate :=
  match l with
  | TInit c =>
      if shared K c && negb (born s c)
      then (* init_ctx(shared_stack__, ctx): co_vos_gcc_x86_64.cpp 98-107 *)
           Some {| smem := sd (smem s) (shi K - 8) (sstart K); run_ctx := run_ctx s; ssp := upd (ssp s) c (shi K - 8); sst := upd (sst s) c NoStack;
                   born := upd (born s) c true; gone := gone s; need := need s; from := from s; to := to s; maps := maps s;
                   shist := SBorn c (shi K - 8) (enc 8 (sstart K)) :: shist s |}
      else None
  | TWork w =>
      if forallb (fun p => writable K s (fst p)) w
      then Some {| smem := fold_left swrite w (smem s); run_ctx := run_ctx s; ssp := ssp s; sst := sst s; born := born s; gone := gone s; need := need s;
                   from := from s; to := to s; maps := maps s; shist := shist s |}
      else None
  | TLeave sp next =>
      match run_ctx s with
      | Some c =>
          if pickable s next && negb (oeqb (Some c) next) && (negb (shared K c) || ((slo K <=? sp) && (sp <=? shi K - 8)))
          then let s1 := {| smem := smem s; run_ctx := run_ctx s; ssp := upd (ssp s) c sp; sst := sst s; born := born s; gone := gone s; need := need s;
                            from := from s; to := to s; maps := maps s;
                            shist := if shared K c then SOut c sp (live K (smem s) sp) :: shist s else shist s |} in
               (* prepare_to_switch, co_env.cpp 275-293: via the idle context if one of the two is on the shared stack *)
               if is_shared K (Some c) || is_shared K next
               then Some {| smem := smem s1; run_ctx := None; ssp := ssp s1; sst := sst s1; born := born s1; gone := gone s1; need := true;
                            from := Some c; to := next; maps := maps s1; shist := shist s1 |}
               else Some (enter K s1 next)
          else None
      | None => None
      end
  | TIdle next =>
      match run_ctx s with
      | None =>
          if negb (need s) && pickable s (Some next)
          then if shared K next
               then Some {| smem := smem s; run_ctx := None; ssp := ssp s; sst := sst s; born := born s; gone := gone s; need := true; from := None; to := Some next;
                            maps := maps s; shist := shist s |}
               else Some (enter K s (Some next))
          else None
      | Some _ => None
      end
  | TSwitch a =>
      match run_ctx s with
      | None =>
          if need s
          then let s0 := {| smem := smem s; run_ctx := None; ssp := ssp s; sst := sst s; born := born s; gone := gone s; need := false; from := from s; to := to s;
                            maps := maps s; shist := shist s |} in
               let ok := match from s with Some c => if shared K c then unused K s a (shi K - ssp s c) else true | None => true end in
               if ok
               then let s1 := match from s with Some c => if shared K c then save K s0 c a else s0 | None => s0 end in
                    let s2 := match to s with Some c => if shared K c then restore K s1 c else s1 | None => s1 end in
                    Some (enter K s2 (to s))
               else None
          else None
      | Some _ => None
      end
  | TDestroy c =>
      if born s c && negb (gone s c) && negb (oeqb (run_ctx s) (Some c)) && negb (need s && (oeqb (from s) (Some c) || oeqb (to s) (Some c)))
      then (* the stack of a shared-stack coroutine is not destroyed, co_ctx_factory.cpp 41-44 *)
           Some {| smem := smem s; run_ctx := run_ctx s; ssp := ssp s; sst := sst s; born := born s; gone := upd (gone s) c true; need := need s;
                   from := from s; to := to s; maps := maps s; shist := shist s |}
      else None
  end.
(** No coroutine with a shared stack exists; the idle context runs (co_env.cpp 53-56). *)
Definition sinit (K : config) (M : memory) : sstate :=
  {| smem := M; run_ctx := None; ssp := fun _ => 0; sst := fun _ => NoStack; born := fun c => negb (shared K c); gone := fun _ => false; need := false; from := None; to := None;
     maps := []; shist := [] |}.
