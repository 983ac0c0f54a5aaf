(** Model of the creation and destruction of coroutines and environments with their memory: source/cocpp/core/co_stack_factory.cpp,
    co_ctx_factory.cpp, co_env_factory.cpp and the functions of co_manager.cpp and co_env.cpp that call them, with allocations
    that fail.  A failed allocation, a failed constructor and a failed start of a thread throw an exception.

    Simplifications.  A call is one step (the interleaving of creation with reclamation is C43, that of destruction with use is
    C46, C76-C78).  Small blocks that library containers own (list nodes, strings, callbacks) are not listed: they only are
    points at which an allocation can fail.  Copies of shared stacks are C71.  Which environment get_best_env__ chooses (C42)
    is given by the label. *)
From Coq Require Import List Arith Bool.
From Verif Require Import Base.
Import ListNotations.

(** What is held: a mapping of n bytes (co_vos_gcc_x86_64.cpp 172-175), a co_stack, a co_ctx, a co_env, each with its address. *)
Inductive res := RMap (m n : nat) | RStk (k : nat) | RCtx (c : nat) | REnv (e : nat).
(** Equality. No counterpart in the code. *)
Definition res_eq (x y : res) : {x = y} + {x <> y}. Proof. decide equality; apply Nat.eq_dec. Defined.
(** co_stack: stack__, size__ (co_stack.h). *)
Record stack := mkS { smem : nat; ssize : nat }.
(** co_ctx: stack__ (co_ctx.h 48), CO_CTX_FLAG_SHARED_STACK. *)
Record ctxr := mkC { cstk : option nat; cshared : bool }.
(** state() of an environment as far as creation and destruction depend on it: created and without scheduler
    (CO_ENV_FLAG_NO_SCHE_THREAD); scheduling; destroying; past remove_all_ctx__ (co_env.cpp 414). *)
Inductive phase := PCreated | POn | PStop | PEnded.
(** co_env: idle_ctx__, shared_stack__, the coroutines in all_normal_ctx__ (co_env.h 68-77), state. *)
Record envr := mkE { eidle : nat; eshared : option nat; equeue : list nat; ephase : phase }.
(** Everything held; the next address; the objects; the environments in normal_set and expired_set (co_manager.h 29-30); ghost:
    something was given back that was not held; what the creations returned (None: threw), newest first. *)
Record ast := mkA { live : list res; nx : nat; sk : nat -> stack; cx : nat -> ctxr; en : nat -> envr; envs : list nat;
                    err : bool; out : list (option nat) }.
(** At the start. *)
Definition ainit : ast :=
  mkA [] 0 (fun _ => mkS 0 0) (fun _ => mkC None false) (fun _ => mkE 0 None [] PCreated) [] false [].

(** Code that may throw, with the outcomes of the allocations to come (those beyond the list succeed). No counterpart in the
    code. *)
Definition M (A : Type) := ast -> list bool -> option A * ast * list bool.
(** See [M]. No counterpart in the code. *)
Definition ret {A} (x : A) : M A := fun s t => (Some x, s, t).
(** See [M]. No counterpart in the code. *)
Definition throw {A} : M A := fun s t => (None, s, t).
(** See [M]. No counterpart in the code. *)
Definition bind {A B} (m : M A) (f : A -> M B) : M B :=
  fun s t => match m s t with (Some x, s1, t1) => f x s1 t1 | (None, s1, t1) => (None, s1, t1) end.
Notation "x <- m ;; f" := (bind m (fun x => f)) (at level 61, m at next level, right associativity).
(** An allocation or constructor that may throw. *)
Definition attempt : M unit := fun s t => match t with false :: r => (None, s, r) | true :: r => (Some tt, s, r) | [] => (Some tt, s, []) end.
(** Something new is held. No counterpart in the code. *)
Definition acquire (r : nat -> res) : M nat :=
  fun s t => (Some (nx s), mkA (r (nx s) :: live s) (S (nx s)) (sk s) (cx s) (en s) (envs s) (err s) (out s), t).
(** Assignments to the objects. No counterpart in the code. *)
Definition set_sk (k : nat) (x : stack) : M unit :=
  fun s t => (Some tt, mkA (live s) (nx s) (upd (sk s) k x) (cx s) (en s) (envs s) (err s) (out s), t).
(** See [set_sk]. No counterpart in the code. *)
Definition set_cx (c : nat) (x : ctxr) : M unit :=
  fun s t => (Some tt, mkA (live s) (nx s) (sk s) (upd (cx s) c x) (en s) (envs s) (err s) (out s), t).
(** See [set_sk]. No counterpart in the code. *)
Definition set_en (e : nat) (x : envr) : M unit :=
  fun s t => (Some tt, mkA (live s) (nx s) (sk s) (cx s) (upd (en s) e x) (envs s) (err s) (out s), t).
(** See [set_sk]. No counterpart in the code. *)
Definition get_en (e : nat) : M envr := fun s t => (Some (en s e), s, t).
(** See [set_sk]. No counterpart in the code. *)
Definition get_cx (c : nat) : M ctxr := fun s t => (Some (cx s c), s, t).

(** co_stack_factory::create_stack (co_stack_factory.cpp 11-33): mmap, which reports failure (17-20), then new, which throws, so
    that lines 27-31 are never reached. *)
Definition create_stack (n : nat) : M nat :=
  m <- (if n =? 0 then ret 0 else (_ <- attempt ;; acquire (fun m => RMap m n))) ;;
  _ <- attempt ;;
  k <- acquire RStk ;;
  _ <- set_sk k (mkS m n) ;;
  ret k.
(** co_ctx_factory::create_ctx (co_ctx_factory.cpp 15-32): the storage of the object is allocated before the stack is created
    (C++17) and given back by the compiler if the stack or the constructor (co_ctx.cpp 52-58) fails. *)
Definition create_ctx (n : nat) (shared : bool) : M nat :=
  _ <- attempt ;;
  k <- (if shared then ret None else (k <- create_stack n ;; ret (Some k))) ;;
  _ <- attempt ;;
  c <- acquire RCtx ;;
  _ <- set_cx c (mkC k shared) ;;
  ret c.
(** co_env_factory::create_env, create_env_from_this_thread, create_idle_ctx__ (co_env_factory.cpp 14-65): the constructor of
    co_env (co_env.cpp 32-51) allocates and, with [own], starts a thread. *)
Definition create_env (own : bool) : M nat :=
  i <- create_ctx 0 false ;;
  _ <- attempt ;;
  e <- acquire REnv ;;
  _ <- set_en e (mkE i None [] (if own then POn else PCreated)) ;;
  ret e.
(** co_manager::create_env and create_env_from_this_thread__ (co_manager.cpp 87-103, 161-167): subscription and insertion into
    normal_set may fail. *)
Definition manager_env (own : bool) : M nat :=
  e <- create_env own ;;
  _ <- attempt ;;
  _ <- attempt ;;
  _ <- (fun s t => (Some tt, mkA (live s) (nx s) (sk s) (cx s) (en s) (e :: envs s) (err s) (out s), t)) ;;
  ret e.
(** co_env::add_ctx with create_shared_stack__ (co_env.cpp 53-78) and move_ctx_to_here (80-97), whose push_back may fail; sz is
    shared_stack_size__. *)
Definition add_ctx (sz e c : nat) : M unit :=
  x <- get_en e ;;
  match ephase x with
  | POn =>
      y <- get_cx c ;;
      _ <- (if cshared y
            then match eshared x with
                 | None => k <- create_stack sz ;; set_en e (mkE (eidle x) (Some k) (equeue x) (ephase x))
                 | Some _ => ret tt
                 end
            else ret tt) ;;
      _ <- attempt ;;
      x <- get_en e ;;
      set_en e (mkE (eidle x) (eshared x) (equeue x ++ [c]) (ephase x))
  | _ => throw
  end.
(** Where a new coroutine goes: bind_env or an environment that get_best_env__ found; a new one. *)
Inductive place := AtEnv (e : nat) | AtNew.
(** co_manager::create_and_schedule_ctx (co_manager.cpp 421-439); subscribe_ctx_event__ (80-85) allocates. *)
Definition create_and_schedule (sz n : nat) (shared : bool) (p : place) : M nat :=
  c <- create_ctx n shared ;;
  _ <- attempt ;;
  e <- (match p with AtEnv e => ret e | AtNew => manager_env true end) ;;
  _ <- add_ctx sz e c ;;
  ret c.

(** Something is given back (munmap, delete). *)
Definition free (s : ast) (r : res) : ast :=
  if in_dec res_eq r (live s)
  then mkA (remove res_eq r (live s)) (nx s) (sk s) (cx s) (en s) (envs s) (err s) (out s)
  else mkA (live s) (nx s) (sk s) (cx s) (en s) (envs s) true (out s).
(** co_stack_factory::destroy_stack (co_stack_factory.cpp 35-43). *)
Definition destroy_stack (s : ast) (k : nat) : ast :=
  let x := sk s k in free (if ssize x =? 0 then s else free s (RMap (smem x) (ssize x))) (RStk k).
(** co_ctx_factory::destroy_ctx (co_ctx_factory.cpp 34-45). *)
Definition destroy_ctx (s : ast) (c : nat) : ast :=
  let x := cx s c in
  let s1 := free s (RCtx c) in
  if cshared x then s1 else match cstk x with Some k => destroy_stack s1 k | None => s1 end.
(** co_env_factory::destroy_env (co_env_factory.cpp 28-40). *)
Definition destroy_env (s : ast) (e : nat) : ast :=
  let x := en s e in
  let s1 := destroy_ctx (free s (REnv e)) (eidle x) in
  match eshared x with Some k => destroy_stack s1 k | None => s1 end.

(** Labels: a coroutine is created, with the outcomes of the allocations; a thread of the program gets an environment
    (co_manager.cpp 161-176), begins to schedule (co_env.cpp 419-426); an environment is told to stop (349-357); removes a
    finished coroutine (201-214); removes the rest and leaves normal_set (414-415); is destroyed (co_manager.cpp 219-222), also
    if it never scheduled (184-189). *)
Inductive albl := LCreate (n : nat) (shared : bool) (p : place) (t : list bool) | LThread (t : list bool) | LSched (e : nat)
  | LStop (e : nat) | LRemove (e c : nat) | LEnd (e : nat) | LDestroy (e : nat).
(** state() == ... No counterpart in the code. *)
Definition phase_eq (x y : phase) : bool :=
  match x, y with PCreated, PCreated | POn, POn | PStop, PStop | PEnded, PEnded => true | _, _ => false end.
(** Membership. No counterpart in the code. *)
Definition mem (e : nat) (l : list nat) : bool := existsb (Nat.eqb e) l.
(** Environment e gets a new phase and queue (co_env.cpp 336, 353, 392). *)
Definition put_en (s : ast) (e : nat) (x : envr) : ast :=
  mkA (live s) (nx s) (sk s) (cx s) (upd (en s) e x) (envs s) (err s) (out s).
(** Ghost: the outcome of a creation. No counterpart in the code. *)
Definition note (s : ast) (o : option nat) : ast := mkA (live s) (nx s) (sk s) (cx s) (en s) (envs s) (err s) (o :: out s).
(** The transition function; sz is default_shared_stack_size__ (co_manager.h). *)
Definition astep (sz : nat) (s : ast) (l : albl) : option ast :=
  match l with
  | LCreate n sh p t =>
      if match p with AtEnv e => mem e (envs s) | AtNew => true end
      then match create_and_schedule sz n sh p s t with (r, s1, _) => Some (note s1 r) end
      else None
  | LThread t => match manager_env false s t with (r, s1, _) => Some (note s1 r) end
  | LSched e =>
      let x := en s e in
      if mem e (envs s) && phase_eq (ephase x) PCreated then Some (put_en s e (mkE (eidle x) (eshared x) (equeue x) POn)) else None
  | LStop e =>
      let x := en s e in
      if mem e (envs s) && phase_eq (ephase x) POn then Some (put_en s e (mkE (eidle x) (eshared x) (equeue x) PStop)) else None
  | LRemove e c =>
      let x := en s e in
      if mem e (envs s) && mem c (equeue x) && (phase_eq (ephase x) POn || phase_eq (ephase x) PStop)
      then Some (destroy_ctx (put_en s e (mkE (eidle x) (eshared x) (remove Nat.eq_dec c (equeue x)) (ephase x))) c)
      else None
  | LEnd e =>
      let x := en s e in
      if mem e (envs s) && phase_eq (ephase x) PStop
      then Some (fold_left destroy_ctx (equeue x) (put_en s e (mkE (eidle x) (eshared x) [] PEnded)))
      else None
  | LDestroy e =>
      let x := en s e in
      if mem e (envs s) && (phase_eq (ephase x) PEnded || phase_eq (ephase x) PCreated)
      then Some (let s1 := destroy_env s e in mkA (live s1) (nx s1) (sk s1) (cx s1) (en s1) (remove Nat.eq_dec e (envs s1)) (err s1) (out s1))
      else None
  end.
