(** Model of the counter that decides whether the coroutine a thread runs can be preempted: count__ of schedule_lock__
    (source/cocpp/core/co_env.cpp 770-833), tested by can_force_schedule (687-690) in the handler of the switch signal
    (core/co_vos_gcc_x86_64.cpp 149).  Every function of the library that raises or lowers the counter, switches, or calls back
    into client code is reduced to the program of these operations.

    Simplifications.  What a branch or the number of rounds of a loop depends on is left open: the program may go either way.
    A switch may choose any coroutine that has not ended, also one that waits, and the present one.  That the lock itself
    blocks threads is the subject of C62 and C79; coroutines stay on their thread (C44).  A branch that leaves a function by
    an exception runs the same destructors of guards as one that returns and is not distinguished from it. *)
From Coq Require Import List Arith Bool.
From Verif Require Import Base.
Import ListNotations.

(** Why a switch happens: a lock of the library is taken (co_mutex.cpp 37, 64 and the like); a spin lock is taken (co_spinlock.cpp 16);
    the idle coroutine carries out a switch that needs the shared stack (co_env.cpp 384); any other reason. *)
Inductive kind := Own | Lck | Spin | Shr.
(** Equality of the kinds. No counterpart in the code. *)
Definition kind_eqb (x y : kind) : bool := match x, y with Own, Own | Lck, Lck | Spin, Spin | Shr, Shr => true | _, _ => false end.

(** Programs: nothing; ++count__ (co_env.cpp 772, 803); --count__ (780, 809); switch_to, the counter as it is; a callable of the
    client runs; sequence; branch; loop with any number of rounds. *)
Inductive prog := Skip | Inc | Dec | Sw (k : kind) | User | Seq (p q : prog) | Alt (p q : prog) | Loop (p : prog).
Notation "p ;; q" := (Seq p q) (at level 61, right associativity).

(** co_preempt_guard (co_env.cpp 824-833), co_schedule_guard (813-822), scoped_lock on schedule_lock__, lock_schedule with the
    matching unlock_schedule (629-637): all count alike. *)
Definition guard (p : prog) : prog := Inc ;; p ;; Dec.
(** co_env::sleep_if_need__ (co_env.cpp 667-685): a guard and the lock; in wait_for (673, 683) the lock is released and taken again
    by unlock and lock (770-782). *)
Definition sleep_if_need : prog := guard (guard (Loop (Dec ;; Inc))).
(** co_env::set_state (co_env.cpp 644-648) for the own environment. *)
Definition set_state : prog := guard Skip.
(** co_env::all_ctx__ (co_env.cpp 550-556) and remove_detached_ctx__ (201-214) with destroy_ctx (co_ctx_factory.cpp 34-45) and
    destroy_stack (co_stack_factory.cpp 35-43). *)
Definition remove_detached : prog := guard Skip ;; Loop (guard (guard Skip)).
(** co_env::prepare_to_switch (co_env.cpp 241-294). *)
Definition prepare : prog := Alt set_state (Dec ;; sleep_if_need ;; Inc).
(** co_env::schedule_switch (co_env.cpp 311-329) with switch_normal_ctx__ (296-309). *)
Definition switch (k : kind) : prog := guard (remove_detached ;; prepare ;; Alt Skip (Dec ;; Sw k ;; Inc)).
(** co_env::schedule_switch (co_env.cpp 311-329) with switch_shared_stack_ctx__ (367-386), restore_shared_stack__ (460-475) and
    destroy_stack (co_stack_factory.cpp 35-43). *)
Definition switch_shared : prog := guard (remove_detached ;; guard (Alt Skip (guard Skip) ;; Dec ;; Sw Shr ;; Inc)).
(** co_env::start_schedule_routine__ (co_env.cpp 388-413), the code of the idle coroutine. *)
Definition idle_loop : prog :=
  set_state ;; guard (Loop (Dec ;; Alt (switch Own) switch_shared ;; Inc ;; Alt Skip (set_state ;; Dec ;; sleep_if_need ;; Inc))).

(** co_spinlock::lock (co_spinlock.cpp 12-18). *)
Definition spin : prog := Loop (switch Spin).
(** co_env::wake_up (co_env.cpp 660-665): the guard is on the own environment, the lock on that of the coroutine woken, which may
    be the own one. *)
Definition wake_up : prog := guard (Alt Skip (guard Skip)).
(** co_ctx::leave_wait_resource_state (co_ctx.cpp 192-207). *)
Definition leave_wait : prog := Alt Skip wake_up.
(** CoEnablePreempt, CoYield, CoDisablePreempt (co_define.h 121, 128-129), as in co_mutex.cpp 36-38. *)
Definition open_yield : prog := Dec ;; switch Lck ;; Inc.

(** The locks of the library. *)
Inductive lkind := KMutex | KRec | KShared.
(** co_mutex::lock (co_mutex.cpp 16-68), co_recursive_mutex::lock (co_recursive_mutex.cpp 14-63), co_shared_mutex::lock and lock_shared
    (co_shared_mutex.cpp 15-68, 100-153): the same guards. *)
Definition lock_ (k : lkind) : prog :=
  let tries := Loop (open_yield ;; spin) in
  let waits := Loop (open_yield ;; spin) in
  match k with
  | KMutex => guard (spin ;; tries ;; Alt Skip waits)
  | KRec | KShared => guard (spin ;; Alt Skip (tries ;; Alt Skip waits))
  end.
(** try_lock (co_mutex.cpp 70-81, co_recursive_mutex.cpp 65-77, co_shared_mutex.cpp 70-82) and try_lock_shared (155-167). *)
Definition try_ (k : lkind) : prog := guard spin.
(** co_shared_mutex::wake_up_waiters__ (co_shared_mutex.cpp 185-218). *)
Definition wake_waiters : prog := Alt Skip (Alt leave_wait (Loop leave_wait)).
(** unlock (co_mutex.cpp 83-107, co_recursive_mutex.cpp 79-107, co_shared_mutex.cpp 84-98) and unlock_shared (169-183). *)
Definition unlock_ (k : lkind) : prog :=
  match k with
  | KMutex | KRec => guard (spin ;; Alt Skip leave_wait)
  | KShared => guard (spin ;; Alt Skip wake_waiters)
  end.
(** co_timed_addition::try_lock_until (co_timed_addition.h 28-44), co_shared_timed_mutex::try_lock_shared_until
    (co_shared_timed_mutex.h 28-43). *)
Definition timed_ (k : lkind) : prog := guard (try_ k ;; Alt Skip (open_yield ;; Loop (try_ k ;; open_yield) ;; Alt Skip (try_ k))).

(** co_condition_variable_impl::wait with a lock of kind k (co_condition_variable.h 53-67). *)
Definition cv_wait (k : lkind) : prog := guard (spin ;; unlock_ k ;; switch Own ;; lock_ k).
(** wait with a predicate (co_condition_variable.h 69-88); [u]: what the predicate does. *)
Definition cv_wait_p (k : lkind) (u : prog) : prog :=
  let round := spin ;; unlock_ k ;; switch Own ;; lock_ k ;; u in
  guard (round ;; Loop round).
(** wait_until, wait_for (co_condition_variable.h 90-123). *)
Definition cv_wait_u (k : lkind) : prog := guard (spin ;; unlock_ k ;; Dec ;; switch Own ;; Inc ;; lock_ k).
(** wait_until, wait_for with a predicate (co_condition_variable.h 125-164). *)
Definition cv_wait_up (k : lkind) (u : prog) : prog :=
  let round := spin ;; unlock_ k ;; Dec ;; switch Own ;; Inc ;; lock_ k ;; Alt Skip u in
  guard (round ;; Loop round ;; Alt Skip u).
(** notify_one (co_condition_variable.cpp 29-40). *)
Definition notify_one : prog := guard (spin ;; Alt Skip leave_wait).
(** notify_all (co_condition_variable.cpp 18-27). *)
Definition notify_all : prog := guard (spin ;; Loop leave_wait).
(** A critical section of co_mutex (std::scoped_lock, std::unique_lock). *)
Definition section (p : prog) : prog := lock_ KMutex ;; p ;; unlock_ KMutex.

(** The functions clients call. *)
Inductive fn := FYield | FSleep | FJoin | FJoinFor | FCreate | FIo | FSpinLock | FSpinTry | FSpinUnlock
  | FLock (k : lkind) | FTry (k : lkind) | FUnlock (k : lkind) | FTimed (k : lkind)
  | FCvWait (k : lkind) | FCvWaitP (k : lkind) | FCvWaitU (k : lkind) | FCvWaitUP (k : lkind) | FNotifyOne | FNotifyAll
  | FSemAcquire | FSemRelease | FSemTry | FSemTryUntil | FLatchDown | FLatchTry | FLatchWait | FLatchArriveWait
  | FWgDone | FWgWait | FBarArrive | FBarWait | FBarArriveWait
  | FPushUnlimited | FPushFixed | FPushSync | FPop | FClose | FClosed | FCallOnce.

(** The code of each of them:
    this_co::yield (co.cpp 84-87, CoYield);
    this_co::sleep_until, sleep_for (co_co.h 169-189);
    co_env::wait_ctx (co_env.cpp 154-187) and with a timeout (99-152), where timer and event take no part in the counter;
    co_manager::create_and_schedule_ctx with co_env::move_ctx_to_here (co_env.cpp 80-97): set_state and wake_up, on the own
    environment or on another one;
    reading, writing, connecting, accepting (co_io.cpp 48-90, co_net.cpp 31-215): try, else yield and try again;
    co_spinlock (co_spinlock.cpp 12-28); the locks above;
    co_counting_semaphore (co_counting_semaphore.h 36-105); co_latch (co_latch.cpp 14-47); co_wait_group (co_wait_group.cpp 19-37);
    co_barrier (co_barrier.cpp 14-61); co_chan (co_chan.h 159-334), whose predicates are code of the library;
    co_call_once (co_call_once.h 17-26). *)
Definition sem_acquire : prog := section (Loop (cv_wait KMutex) ;; notify_one).
(** release_one__ (co_counting_semaphore.h 49-60). *)
Definition sem_release1 : prog := section (Loop (cv_wait KMutex) ;; notify_one).
(** try_acquire (co_counting_semaphore.h 71-83). *)
Definition sem_try : prog := section (Alt Skip notify_one).
(** co_latch::count_down (co_latch.cpp 14-26). *)
Definition latch_down : prog := section (Alt Skip notify_all).
(** co_latch::wait (co_latch.cpp 34-41), co_wait_group::wait (co_wait_group.cpp 30-37). *)
Definition latch_wait : prog := section (Loop (cv_wait KMutex)).
(** co_barrier::wait (co_barrier.cpp 28-51). *)
Definition bar_wait : prog := section (Alt Skip (Alt notify_all (cv_wait KMutex))).
(** fixed_chan::push (co_chan.h 159-184). *)
Definition push_fixed : prog := section (Alt Skip (Alt Skip (cv_wait_p KMutex Skip) ;; Alt Skip notify_one)).
(** sync_chan::push (co_chan.h 201-230). *)
Definition push_sync : prog := section (Alt Skip (Alt Skip (cv_wait_p KMutex Skip) ;; Alt Skip (notify_one ;; cv_wait_p KMutex Skip))).
(** chan_base::pop (co_chan.h 238-263). *)
Definition pop_ : prog := section (Alt Skip (Alt Skip (cv_wait_p KMutex Skip) ;; Alt Skip notify_one)).
(** The code of each function, with the sources listed above. *)
Definition code (f : fn) : prog :=
  match f with
  | FYield => switch Own
  | FSleep => guard Skip ;; switch Own
  | FJoin => guard Skip ;; Alt Skip (switch Own)
  | FJoinFor => guard Skip ;; Alt Skip (switch Own)
  | FCreate => Alt Skip set_state ;; wake_up
  | FIo => Loop (switch Own)
  | FSpinLock => spin
  | FSpinTry | FSpinUnlock => Skip
  | FLock k => lock_ k
  | FTry k => try_ k
  | FUnlock k => unlock_ k
  | FTimed k => timed_ k
  | FCvWait k => cv_wait k
  | FCvWaitP k => cv_wait_p k User
  | FCvWaitU k => cv_wait_u k
  | FCvWaitUP k => cv_wait_up k User
  | FNotifyOne => notify_one
  | FNotifyAll => notify_all
  | FSemAcquire => sem_acquire
  | FSemRelease => Loop sem_release1
  | FSemTry => sem_try
  | FSemTryUntil => sem_try ;; Loop (switch Own ;; sem_try)
  | FLatchDown => latch_down
  | FLatchTry => section Skip
  | FLatchWait => latch_wait
  | FLatchArriveWait => latch_down ;; latch_wait
  | FWgDone => section (Alt Skip notify_all)
  | FWgWait => section (Loop (cv_wait KMutex))
  | FBarArrive => section Skip
  | FBarWait => bar_wait
  | FBarArriveWait => section Skip ;; bar_wait
  | FPushUnlimited => section (Alt Skip notify_one)
  | FPushFixed => push_fixed
  | FPushSync => push_sync
  | FPop => pop_
  | FClose => section (notify_all ;; notify_all)
  | FClosed => section Skip
  | FCallOnce => guard (Alt Skip User)
  end.

(** A thread: the coroutine it runs (0: the idle coroutine); what each coroutine has still to do in the library, innermost call
    first, where nothing means client code; ghost: what each coroutine has added to the counter; the counter; how many calls
    other threads are making on this environment with its schedule lock or their guards on its counter (wake_up, set_state,
    take_all_movable_ctx, ... from outside); which coroutines have ended. *)
Record gst := mkG { cur : nat; stk : nat -> list prog; dep : nat -> nat; cnt : nat; out : nat; ended : nat -> bool }.

(** Labels: client code calls f; a callable returns into the library; the next operation of the running code; a branch or loop is
    decided; switch_to coroutine n for reason k; the switch signal arrives, the handler would choose n; another thread begins
    or ends a call on this environment; the entry function returns and n is next. *)
Inductive glab := LCall (f : fn) | LRet | LOp | LPick (b : bool) | LSw (k : kind) (n : nat) | LSig (n : nat) | LOut | LOutEnd | LEnd (n : nat).
(** Outcomes: a state; the assertion in unlock or decreate_count fails (co_env.cpp 781, 810). *)
Inductive gres := GOk (s : gst) | GAbort.

(** At the start the thread runs the idle coroutine; coroutines enter client code when first chosen (co_ctx.cpp 69). *)
Definition ginit : gst := mkG 0 (upd (fun _ => []) 0 [idle_loop]) (fun _ => 0) 0 0 (fun _ => false).
(** The running coroutine continues with [r]. No counterpart in the code. *)
Definition goon (s : gst) (r : list prog) : gst := mkG (cur s) (upd (stk s) (cur s) r) (dep s) (cnt s) (out s) (ended s).
(** Coroutine n is switched to; one that has ended is never chosen (co_ctx.cpp 141-144). *)
Definition goto (s : gst) (n : nat) : option gst :=
  if ended s n then None else Some (mkG n (stk s) (dep s) (cnt s) (out s) (ended s)).
(** Whether a stack of calls is in client code: no call, or a callable runs. *)
Definition in_client (l : list prog) : bool := match l with [] => true | User :: _ => true | _ => false end.
(** Whether the thread runs client code; the idle coroutine has none. *)
Definition client (s : gst) : bool := negb (cur s =? 0) && in_client (stk s (cur s)).

(** The next operation of the running code.  [Inc] and [Dec]: co_env.cpp 770-811. *)
Definition gop (s : gst) (p : prog) (r : list prog) : option gres :=
  let c := cur s in
  match p with
  | Skip => Some (GOk (goon s r))
  | Inc => Some (GOk (mkG c (upd (stk s) c r) (upd (dep s) c (S (dep s c))) (S (cnt s)) (out s) (ended s)))
  | Dec => match cnt s with
           | 0 => Some GAbort
           | S n => Some (GOk (mkG c (upd (stk s) c r) (upd (dep s) c (Nat.pred (dep s c))) n (out s) (ended s)))
           end
  | Seq p q => Some (GOk (goon s (p :: q :: r)))
  | _ => None
  end.
(** One step.  [LSig]: switch_from_outside (co_vos_gcc_x86_64.cpp 142-165) with can_force_schedule (co_env.cpp 687-690); the lock it
    takes is released before it returns.  [LEnd]: real_entry (co_ctx.cpp 65-83), whose guard (75) is never destroyed. *)
Definition gstep_res (s : gst) (l : glab) : option gres :=
  let c := cur s in
  match l with
  | LCall f => if client s then Some (GOk (goon s (code f :: stk s c))) else None
  | LRet => match stk s c with User :: r => Some (GOk (goon s r)) | _ => None end
  | LOp => match stk s c with p :: r => gop s p r | [] => None end
  | LPick b => match stk s c with
               | Alt p q :: r => Some (GOk (goon s ((if b then p else q) :: r)))
               | Loop p :: r => Some (GOk (goon s (if b then p :: Loop p :: r else r)))
               | _ => None
               end
  | LSw k n => match stk s c with
               | Sw k' :: r => if kind_eqb k k' then option_map GOk (goto (goon s r) n) else None
               | _ => None
               end
  | LSig n => if cnt s =? 0 then option_map GOk (goto s n) else Some (GOk s)
  | LOut => Some (GOk (mkG c (stk s) (dep s) (S (cnt s)) (S (out s)) (ended s)))
  | LOutEnd => match out s, cnt s with
               | S o, S n => Some (GOk (mkG c (stk s) (dep s) n o (ended s)))
               | S _, 0 => Some GAbort
               | 0, _ => None
               end
  | LEnd n => match stk s c with
              | [] => if c =? 0 then None
                      else option_map GOk (goto (mkG c (stk s) (upd (dep s) c (S (dep s c))) (S (cnt s)) (out s) (upd (ended s) c true)) n)
              | _ => None
              end
  end.
(** Executions without a failed assertion. *)
Definition gstep (s : gst) (l : glab) : option gst := match gstep_res s l with Some (GOk s') => Some s' | _ => None end.

(** *** Static checks of the programs; no counterpart in the code *)

(** The depth of the guards after a program that starts at depth d, if it is the same whatever branches are taken, loops do not
    change it, and nothing is lowered below 0. *)
Fixpoint eff (d : nat) (p : prog) : option nat :=
  match p with
  | Skip | User | Sw _ => Some d
  | Inc => Some (S d)
  | Dec => match d with 0 => None | S d => Some d end
  | Seq p q => match eff d p with Some d' => eff d' q | None => None end
  | Alt p q => match eff d p, eff d q with Some x, Some y => if x =? y then Some x else None | _, _ => None end
  | Loop p => match eff d p with Some x => if x =? d then Some d else None | None => None end
  end.
(** Whether, from depth d on, client code is called at depth 0 only, and switches for the reasons [g] happen at depth 0 only. *)
Fixpoint ok (g : kind -> bool) (d : nat) (p : prog) : bool :=
  match p with
  | Skip | Inc | Dec => true
  | Sw k => negb (g k) || (d =? 0)
  | User => d =? 0
  | Seq p q => ok g d p && match eff d p with Some d' => ok g d' q | None => false end
  | Alt p q => ok g d p && ok g d q
  | Loop p => ok g d p
  end.
(** All switches of a coroutine. *)
Definition every (k : kind) : bool := match k with Shr => false | _ => true end.
(** All switches but those at a spin lock that is taken. *)
Definition unspun (k : kind) : bool := match k with Own | Lck => true | _ => false end.
(** Of these, all but those at a lock that is taken. *)
Definition own_only (k : kind) : bool := match k with Own => true | _ => false end.
