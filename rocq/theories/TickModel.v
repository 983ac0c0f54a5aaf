(** Model of one period of the monitor (source/cocpp/core/co_manager.cpp 123-142, 247-264) on the threads of MgrModel.v.  Line numbers refer to
    co_manager.cpp.  Simplification, as in MgrModel.v: each routine sees the threads as they are at one moment. *)
From Coq Require Import List Arith Bool.
From Verif Require Import Base MgrSpec MgrModel.
Import ListNotations.

(** force_schedule__ (247-264): the threads that get the signal (257-261), and all flags reset (262). *)
Definition force (l : list thr) : list nat * list thr :=
  (map tid (filter (fun t => is_blocked t && (1 <? workload t)) l), map reset_swd l).
(** stop_schedule (co_env.cpp 349-357) of the envs chosen by destroy_redundant_env__ (326-334). *)
Definition stop_all (v l : list thr) : list thr :=
  map (fun t => if existsb (fun u => tid u =? tid t) v then set_st t MDestroying else t) l.
(** The subscriber of timing_routine_timeout (123-142); [dbl] is double_timeout, [own] as in MgrModel.redistribute_own.  The result: the
    threads signalled, the threads afterwards, the new double_timeout.  The locks held by others ([lk], [oth]) are the same for both routines. *)
Definition tick_own (own : nat) (lk : nat -> bool) (oth : nat -> nat) (base max nid : nat) (dbl : bool) (l : list thr) : list nat * list thr * bool :=
  let (sg, l1) := force l in
  (sg, if dbl then let l2 := steal_own own lk oth (redistribute_own own lk oth base nid l1) in stop_all (victims l2 max) l2 else l1, negb dbl).
(** The tick as it is (123-142): the routines count their own lock. *)
Definition tick := tick_own 1.
