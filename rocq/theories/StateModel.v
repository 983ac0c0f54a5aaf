(** Model of co_state_manager (include/cocpp/utils/co_state_manager.h 9-36) as used by co_env (include/cocpp/core/co_env.h 64)
    and of the tests co_env makes on it (source/cocpp/core/co_env.cpp). *)
From Coq Require Import List Bool.
Import ListNotations.

(** co_env_state (include/cocpp/core/co_type.h 26-33). *)
Inductive estate := Created | Idle | Busy | Blocked | Destroying.
(** state__ of the manager, flag NO_SCHE_THREAD, coroutines accepted by add_ctx, newest first. *)
Record est := mkE { est_st : estate; nosched : bool; accepted : list nat }.
(** co_state_manager::set_state (co_state_manager.h 22-29) with FinalState destroying. *)
Definition set_state (s : est) (t : estate) : est :=
  match est_st s with Destroying => s | _ => mkE t (nosched s) (accepted s) end.
(** can_schedule_ctx (co_env.cpp 482-487): get_best_env__ offers only such threads (co_manager.cpp 23-71). *)
Definition can_schedule_ctx (s : est) : bool :=
  match est_st s with Blocked | Destroying => false | _ => negb (nosched s) end.
(** The test of add_ctx (co_env.cpp 61-64): true means the coroutine is accepted, false that it throws. *)
Definition add_ok (s : est) : bool := match est_st s with Created | Destroying => false | _ => true end.
(** next_ctx__ (co_env.cpp 216-228): whether it looks at the queues at all. *)
Definition looks (s : est) : bool := match est_st s with Destroying => false | _ => true end.

(** All that can happen to the state: set_state from the scheduler, the manager or the constructor (co_env.cpp 42, 94, 252,
    353, 392, 408, co_manager.cpp 295); stop_schedule (co_env.cpp 349-357); start_schedule_routine__ (391); add_ctx. *)
Inductive elbl := ESet (t : estate) | EStop | EStart | EAdd (c : nat).
(** One of these; add_ctx ends with set_state(busy) (co_env.cpp 94). *)
Definition estep (s : est) (l : elbl) : est :=
  match l with
  | ESet t => set_state s t
  | EStop => if nosched s then s else set_state s Destroying
  | EStart => set_state (mkE (est_st s) false (accepted s)) Idle
  | EAdd c => if add_ok s then set_state (mkE (est_st s) (nosched s) (c :: accepted s)) Busy else s
  end.
(** co_env.cpp 33-51. *)
Definition einit (own_thread : bool) : est :=
  if own_thread then mkE Idle false [] else mkE Created true [].
