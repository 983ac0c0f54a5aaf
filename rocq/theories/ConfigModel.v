(** Model of the options of a coroutine and of what creation makes of them (include/cocpp/core/co_ctx_config.h 10-34, include/cocpp/co/co_co.h
    104-138, source/cocpp/core/co_ctx_factory.cpp 15-34, co_manager.cpp 421-439).  Sizes and priorities are numbers; names are strings; envs are
    numbers.  What priority the coroutine gets from the number is C41, failures are C85, the choice of the env is C42. *)
From Coq Require Import List NArith String Bool.
Import ListNotations.

(** co_ctx_config (co_ctx_config.h 10-17). *)
Record config := mkCfg { stack_size : N; cname : string; priority : N; bind_env : option nat; shared_stack : bool }.
(** The initial values (co_ctx_config.h 12-16), with CO_DEFAULT_STACK_SIZE as a parameter (co_define.h). *)
Definition default (dss : N) : config := mkCfg dss "__unknown__" 99 None false.
(** with_stack_size, with_name, with_priority, with_bind_env, with_shared_stack (co_ctx_config.h 30-34). *)
Inductive opt := WStack (n : N) | WName (s : string) | WPrio (n : N) | WBind (e : option nat) | WShared (b : bool).
(** The functions they return (co_ctx_config.h 22-24). *)
Definition set_opt (c : config) (o : opt) : config :=
  match o with
  | WStack n => mkCfg n (cname c) (priority c) (bind_env c) (shared_stack c)
  | WName s => mkCfg (stack_size c) s (priority c) (bind_env c) (shared_stack c)
  | WPrio n => mkCfg (stack_size c) (cname c) n (bind_env c) (shared_stack c)
  | WBind e => mkCfg (stack_size c) (cname c) (priority c) e (shared_stack c)
  | WShared b => mkCfg (stack_size c) (cname c) (priority c) (bind_env c) b
  end.
(** The loop of the constructor (co_co.h 132-136). *)
Definition configure (dss : N) (opts : list opt) : config := fold_left set_opt opts (default dss).
(** What is made: the size of its own stack, if it has one (co_ctx_factory.cpp 17); the number given to set_priority (co_ctx.cpp 57); its name
    (co_ctx.cpp 173); the flags BIND and SHARED_STACK (co_ctx_factory.cpp 23-30); the env it is added to (co_manager.cpp 429-437). *)
Record made := mkMade { own_stack : option N; prio_req : N; mname : string; f_bind : bool; f_shared : bool; on_env : nat }.
(** create_and_schedule_ctx (co_manager.cpp 421-439) with create_ctx (co_ctx_factory.cpp 15-34); [best] is what get_best_env__ returns. *)
Definition create (best : nat) (c : config) : made :=
  mkMade (if shared_stack c then None else Some (stack_size c)) (priority c) (cname c)
         (match bind_env c with Some _ => true | None => false end) (shared_stack c)
         (match bind_env c with Some e => e | None => best end).
(** co::co with options, up to the coroutine (co_co.h 129-138). *)
Definition make (dss : N) (best : nat) (opts : list opt) : made := create best (configure dss opts).
