(** The arithmetic of the library's timeouts (include/cocpp/co/co_co.h 156-173, sync/co_timed_addition.h, co_shared_timed_mutex.h,
    co_counting_semaphore.h 85-105, co_condition_variable.h 119-165; source/cocpp/core/co_env.cpp 99-152, co_timer.cpp,
    co_manager.cpp 352-400, utils/co_utils.cpp), with the 64-bit numbers of chrono on the platform supported.

    Simplification: durations count whole nanoseconds in a signed 64-bit integer, as nanoseconds to hours and the larger units do;
    floating point and finer units are left out. *)
From Coq Require Import List ZArith Bool.
Import ListNotations.
Local Open Scope Z_scope.

(** The result of signed 64-bit arithmetic, None: overflow, the behaviour is undefined (all additions and multiplications of the
    lines cited below). *)
Definition i64 (z : Z) : option Z := if (- 2 ^ 63 <=? z) && (z <? 2 ^ 63) then Some z else None.
(** Conversion to unsigned long long (co_timer.cpp 10 called from co_env.cpp 118-120) and from it to the signed representation
    of milliseconds (co_timer.cpp 91). *)
Definition to_u64 (z : Z) : Z := z mod 2 ^ 64.
(** Conversion from unsigned long long to the signed representation of milliseconds (co_timer.cpp 91). *)
Definition to_i64 (z : Z) : Z := let u := z mod 2 ^ 64 in if u <? 2 ^ 63 then u else u - 2 ^ 64.

(** A duration: a number of units, and how many nanoseconds a unit has (the template arguments of the functions cited). *)
Record dur := mkDur { count : Z; unit_ns : Z }.
(** Conversion to nanoseconds (co_co.h 159; implicit in the additions of the other functions). *)
Definition in_ns (d : dur) : option Z := i64 (count d * unit_ns d).
(** Some now + d: co_timed_addition.h 25, co_shared_timed_mutex.h 25, co_counting_semaphore.h 89, co_condition_variable.h 122 and 163,
    co_co.h 172, co_utils.cpp 9. *)
Definition deadline (now : Z) (d : dur) : option Z := match in_ns d with Some n => i64 (now + n) | None => None end.

(** What the loop of a timed function sees: whether the attempt succeeds, and the clock's reading after a failed attempt
    (co_timed_addition.h 33-42, co_shared_timed_mutex.h 32-41, co_counting_semaphore.h 96-104).  The result, with the last
    reading; None: still in the loop. *)
Fixpoint try_until (e : Z) (obs : list (bool * Z)) : option (bool * Z) :=
  match obs with
  | [] => None
  | (true, c) :: _ => Some (true, c)
  | (false, c) :: r => if c <? e then try_until e r else Some (false, c)
  end.
(** co_timed_call (co_utils.cpp 7-19): the clock is read before each attempt. *)
Fixpoint call_until (e : Z) (obs : list (Z * bool)) : option (bool * Z) :=
  match obs with
  | [] => None
  | (c, ok) :: r => if c <? e then (if ok then Some (true, c) else call_until e r) else Some (false, c)
  end.
(** How a call ends: undefined behaviour, or what the loop gives. *)
Inductive ending := Undefined | Ends (r : option (bool * Z)).
(** try_lock_for (co_timed_addition.h 23-26), try_lock_shared_for (co_shared_timed_mutex.h 23-26), try_acquire_for
    (co_counting_semaphore.h 87-90). *)
Definition try_for (now : Z) (d : dur) (obs : list (bool * Z)) : ending :=
  match deadline now d with Some e => Ends (try_until e obs) | None => Undefined end.
(** co_timed_call (co_utils.cpp 7-19). *)
Definition timed_call (now : Z) (d : dur) (obs : list (Z * bool)) : ending :=
  match deadline now d with Some e => Ends (call_until e obs) | None => Undefined end.

(** update_timeout_time__ of a relative timer (co_timer.cpp 87-93): interval__ is an unsigned long long. *)
Definition relative_due (now interval : Z) : option Z :=
  match i64 (to_i64 interval * 1000000) with Some n => i64 (now + n) | None => None end.
(** is_expired (co_timer.cpp 116-120): the condition on which the timer's callback is launched (co_manager.cpp 364). *)
Definition expired (due clock : Z) : bool := due <=? clock.
(** The timer of wait_ctx with a timeout (co_env.cpp 118-120): duration_cast drops the part of a millisecond. *)
Definition wait_due (now timeout : Z) : option Z := relative_due now (to_u64 (Z.quot timeout 1000000)).
(** co::wait_for (co_co.h 156-160). *)
Definition wait_for_due (now : Z) (d : dur) : option Z := match in_ns d with Some n => wait_due now n | None => None end.
(** co::wait_until (co_co.h 162-167): [now] at the difference, [now'] when the timer is started. *)
Definition wait_until_due (now now' tp : Z) : option Z := match i64 (tp - now) with Some n => wait_due now' n | None => None end.

(** set_timer_tick_duration (co_manager.cpp 387-399); DEFAULT_TIMING_TICK_DURATION_IN_MS is 10 (co_define.h 17). *)
Definition set_tick (d : Z) : Z := if d <? 10 * 1000000 then 10 * 1000000 else d.
(** set_base_schedule_thread_count, set_max_schedule_thread_count (co_manager.cpp 229-245): from size_t to unsigned int. *)
Definition set_count (n : Z) : Z := (if n =? 0 then 1 else n) mod 2 ^ 32.
