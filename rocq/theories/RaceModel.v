(** Model of the accesses to memory made by the functions of the scheduler: source/cocpp/core/co_manager.cpp, co_env.cpp, co_ctx.cpp,
    co_timer.cpp, co_ctx_factory.cpp, co_env_factory.cpp, co_vos_gcc_x86_64.cpp, include/cocpp/event/co_event.h,
    include/cocpp/utils/co_state_manager.h, co_flag_manager.h, include/cocpp/co/co_co.h.  Every function is a list of operations on
    locks, atomic objects and ordinary objects; what a branch or a loop depends on is a parameter of the call.
    Where a parameter allows more than the code does, there are more executions here than there.

    Simplifications.  Accesses of constructors and destructors to the members of the object itself are left out: nobody else has
    the object then (C35, C46, C77 are about who has it).  So are stack__, pre_ctx__, shrink_stack_counter__ and ret__ of co_ctx,
    which only the thread that runs the coroutine and, after its end (C32), those who wait for it use; and worker__,
    background_task__ (constructor and destructor); and env__ of co_ctx, which is written before the coroutine is put into a list
    (co_env.cpp 85), and otherwise only when a coroutine is moved, which never happens (C44).  A coroutine stays on its thread; moving it is the subject of C44.
    Environments are numbered like the threads they belong to. *)
From Coq Require Import List Arith Bool.
From Verif Require Import Base RaceSpec.
Import ListNotations.

(** The locks: those of [LockModel] and those of co_flag_manager (co_flag_manager.h 15) and co_state_manager (co_state_manager.h
    13) of environments and coroutines; std::once_flag of the shared stack (co_env.h 70).  All are recursive. *)
Inductive lock := Mgr | TQ | TDur | EvTick | EvTask (e : nat) | EvFin (c : nat) | EvPrio (c : nat) | Sched (e : nat) | Normal (e : nat)
  | MinP (e : nat) | Fin (c : nat) | Wait (c : nat) | Prio (c : nat) | Tm (t : nat) | EFl (e : nat) | ESt (e : nat) | CFl (c : nat)
  | CSt (c : nat) | Once (e : nat).
(** Equality of locks. No counterpart in the code. *)
Definition lock_eq (x y : lock) : {x = y} + {x <> y}. Proof. decide equality; apply Nat.eq_dec. Defined.
(** Objects that synchronise: the locks; count__ of the schedule lock (co_env.h 26); curr_ctx__ (co_env.h 82). *)
Inductive sync := SL (l : lock) | SCount (e : nat) | SCurr (e : nat).

(** Ordinary objects.  Of the manager (co_manager.h 28-52): normal_set, expired_set, base_env_count, max_env_count, clean_up__,
    timer_duration__, timer_queue__, default_shared_stack_size__.  Of an environment (co_env.h 63-115): flags__, state__,
    schedule_thread_tid__, shared_stack__, all_normal_ctx__, ctx_count__, min_priority__, shared_stack_switch_info__.  Of a
    coroutine (co_ctx.h 25-63): flags__, state__, wait_data__.resource, exception__, priority__, locals__, regs__.  Of a
    timer (co_timer.h 38-43): callback__, expire_time__, status__.  Of an event (co_event.h 20-22): cb_list__ and
    current_handler__, named after the lock. *)
Inductive loc := XNormal | XExpired | XBase | XMax | XClean | XTick | XTimers | XSize
  | XEFlags (e : nat) | XEState (e : nat) | XTid (e : nat) | XShared (e : nat) | XList (e : nat) | XCount (e : nat) | XMin (e : nat) | XInfo (e : nat)
  | XCFlags (c : nat) | XCState (c : nat) | XWait (c : nat) | XExc (c : nat) | XPrio (c : nat) | XLocals (c : nat) | XRegs (c : nat)
  | XCall (t : nat) | XExpire (t : nat) | XStatus (t : nat) | XEvent (l : lock).

(** Operations: lock; lock several at once (std::scoped_lock with several locks); unlock; read-modify-write of count__ and load of it;
    load and store of curr_ctx__; read and write of an ordinary object. *)
Inductive rop := Lk (l : lock) | All (ls : list lock) | Ul (l : lock) | Cnt (e : nat) | LdC (e : nat) | Ld (e : nat) | St (e : nat) | Rd (x : loc) | Wr (x : loc).
(** Pieces of program. No counterpart in the code. *)
Notation code_ := (list rop).
(** A critical section (std::scoped_lock, std::unique_lock). *)
Definition crit (l : lock) (p : code_) : code_ := [Lk l] ++ p ++ [Ul l].
(** What is done while a lock that is held is given up. *)
Definition open (l : lock) (p : code_) : code_ := [Ul l] ++ p ++ [Lk l].
(** Unlocking several locks. *)
Definition unall (ls : list lock) : code_ := map Ul ls.
(** std::scoped_lock with several locks. *)
Definition crits (ls : list lock) (p : code_) : code_ := [All ls] ++ p ++ unall ls.
(** A loop over a list that is a parameter of the call. *)
Fixpoint each {A : Type} (f : A -> code_) (xs : list A) : code_ := match xs with [] => [] | x :: r => f x ++ each f r end.
(** A branch that is a parameter of the call. *)
Definition opt {A : Type} (x : option A) (f : A -> code_) : code_ := match x with Some y => f y | None => [] end.
(** A condition that is a parameter of the call. *)
Definition when (b : bool) (p : code_) : code_ := if b then p else [].

(** CoPreemptGuard on the environment m of the thread (co_env.cpp 801-811, 824-833). *)
Definition guard (m : nat) (p : code_) : code_ := [Cnt m] ++ p ++ [Cnt m].
(** A critical section of the schedule lock, which counts (co_env.cpp 770-782). *)
Definition scrit (e : nat) (p : code_) : code_ := [Cnt e] ++ crit (Sched e) p ++ [Cnt e].
(** The schedule lock is given up for a while (co_env.cpp 257-263, 409-411; condition_variable_any in 673, 683). *)
Definition sopen (e : nat) (p : code_) : code_ := open (Sched e) ([Cnt e] ++ p ++ [Cnt e]).

(** co_flag_manager and co_state_manager (co_flag_manager.h 18-32, co_state_manager.h 21-36) of environments and coroutines. *)
Definition eflag (e : nat) (w : bool) : code_ := crit (EFl e) [if w then Wr (XEFlags e) else Rd (XEFlags e)].
(** See [eflag]: set_state reads state__ first (co_state_manager.h 25).
    Simplification: it writes always. *)
Definition estate (e : nat) (w : bool) : code_ := crit (ESt e) ([Rd (XEState e)] ++ when w [Wr (XEState e)]).
(** See [eflag]. *)
Definition cflag (c : nat) (w : bool) : code_ := crit (CFl c) [if w then Wr (XCFlags c) else Rd (XCFlags c)].
(** See [estate]. *)
Definition cstate (c : nat) (w : bool) : code_ := crit (CSt c) ([Rd (XCState c)] ++ when w [Wr (XCState c)]).
(** co_event::sub, unsub and pub (co_event.h 30-53); what the subscribers do is p. *)
Definition event (l : lock) (w : bool) (p : code_) : code_ := crit l ([Rd (XEvent l)] ++ when w [Wr (XEvent l)] ++ p).

(** co_ctx::priority (co_ctx.cpp 85-89). *)
Definition priority (c : nat) : code_ := crit (Prio c) [Rd (XPrio c)].
(** co_env::update_min_priority__ (co_env.cpp 614-621).  Simplification: it writes always. *)
Definition update_min (e : nat) : code_ := crit (MinP e) [Rd (XMin e); Wr (XMin e)].
(** co_env::handle_priority_changed (co_env.cpp 489-500). *)
Definition handle_changed (e c : nat) : code_ :=
  crit (Normal e) ([Rd (XList e); Wr (XList e)] ++ priority c ++ [Wr (XList e)] ++ priority c ++ update_min e).
(** What set_priority finds: the idle coroutine; no change, or no environment yet; a change, with environment e. *)
Inductive found := FIdle | FSame (env : bool) | FChange (e : nat).
(** co_ctx::set_priority (co_ctx.cpp 91-119) with the subscriber of co_manager.cpp 80-85. *)
Definition set_priority (c : nat) (f : found) : code_ :=
  cflag c false ++
  match f with
  | FIdle => []
  | FSame env => crit (Prio c) ([Rd (XPrio c); Wr (XPrio c)] ++ when env [Rd (XPrio c)])
  | FChange e => crit (Prio c) ([Rd (XPrio c); Wr (XPrio c); Rd (XPrio c)] ++ event (EvPrio c) false (handle_changed e c))
  end.
(** co_ctx::can_schedule (co_ctx.cpp 141-144). *)
Definition can_schedule (c : nat) : code_ := cstate c false ++ cflag c false.
(** co_ctx::can_move (co_ctx.cpp 166-169). *)
Definition can_move (c : nat) : code_ := cstate c false ++ cstate c false ++ cflag c false ++ cflag c false.

(** co_env::set_state (co_env.cpp 644-648). *)
Definition set_state (e : nat) : code_ := scrit e (estate e true).
(** co_env::wake_up (co_env.cpp 660-665). *)
Definition wake_up (m e : nat) : code_ := guard m (scrit e []).
(** co_env::workload, ctx_count, has_ctx (co_env.cpp 189-199, 623-627). *)
Definition workload (e : nat) : code_ := crit (Normal e) [Rd (XCount e)].
(** co_env::stop_schedule (co_env.cpp 349-357). *)
Definition stop_schedule (m e : nat) : code_ := eflag e false ++ set_state e ++ wake_up m e.
(** co_env::need_sleep__ and can_schedule__ (co_env.cpp 502-525); the coroutines looked at are cs. *)
Definition need_sleep (e : nat) (cs : list nat) : code_ :=
  crits [Normal e; MinP e] ([Rd (XMin e); Rd (XList e)] ++ each can_schedule cs) ++ estate e false.
(** co_env::choose_ctx_from_normal_list__ (co_env.cpp 527-548). *)
Definition choose (e : nat) (cs : list nat) (found : bool) : code_ :=
  crits [Normal e; MinP e] ([Rd (XMin e); Rd (XList e)] ++ each can_schedule cs ++ when found [Wr (XList e); Wr (XMin e)] ++ [St e]).
(** co_env::sleep_if_need__ (co_env.cpp 667-685) with the looks css, a wait after each, and a last look cs; the second form reads a flag of
    the coroutine w (co_env.cpp 261). *)
Definition sleep_if_need (m e : nat) (css : list (list nat)) (cs : list nat) (w : option nat) : code_ :=
  let look cs := need_sleep e cs ++ opt w (fun w => cflag w false) in guard m (scrit e (each (fun cs => look cs ++ sopen e []) css ++ look cs)).
(** co_env::all_ctx__ (co_env.cpp 550-556). *)
Definition all_ctx (m e : nat) : code_ := guard m (crit (Normal e) [Rd (XList e)]).
(** co_env::remove_ctx (co_env.cpp 331-340) and co_ctx_factory::destroy_ctx (co_ctx_factory.cpp 34-45). *)
Definition remove_ctx (m e c : nat) : code_ := crit (Normal e) (priority c ++ [Wr (XList e); Wr (XCount e)]) ++ guard m (cflag c false).
(** co_env::remove_detached_ctx__ (co_env.cpp 201-214): looks at cs and removes rem. *)
Definition remove_detached (m e : nat) (cs rem : list nat) : code_ :=
  [Ld e] ++ all_ctx m e ++ each (fun c => cstate c false ++ cflag c false) cs ++ each (remove_ctx m e) rem.

(** What schedule_switch does: it carries on with coroutine a; goes from a to b, or, for a shared stack, to the idle coroutine i, or
    stays on it (None) with the switch pending; finds nothing to run, sleeps after looks css and ls, and goes from a to the
    idle coroutine b, with a pending switch or not, or stays; carries out the pending switch from idle coroutine i and a to b. *)
Inductive sw := SwStay (a : nat) | SwGo (a b : nat) | SwVia (a b : nat) (i : option nat)
  | SwIdle (css : list (list nat)) (ls : list nat) (a : nat) (b : option (nat * bool)) | SwShared (i a b : nat).
(** From where to where the processor goes. No counterpart in the code. *)
Definition goes (x : sw) : option (nat * nat) :=
  match x with
  | SwStay _ => None | SwGo a b => Some (a, b) | SwVia a b i => option_map (pair a) i | SwIdle _ _ a b => option_map (fun b => (a, fst b)) b
  | SwShared i a b => Some (i, b)
  end.
(** co_env::update_ctx_state__ and the end of prepare_to_switch (co_env.cpp 230-238, 266-293). *)
Definition change (e a b : nat) (sh : bool) : code_ :=
  cstate a false ++ cstate a true ++ cstate b true ++ cflag a false ++ cflag b false ++ when sh [Wr (XInfo e)].
(** co_env::prepare_to_switch (co_env.cpp 241-294) on the thread of e; cs are the coroutines looked at. *)
Definition prepare (e : nat) (cs : list nat) (x : sw) : code_ :=
  [Ld e] ++ estate e false ++
  match x with
  | SwStay a => choose e cs true ++ eflag e true ++ set_state e
  | SwGo a b => choose e cs true ++ eflag e true ++ set_state e ++ change e a b false
  | SwVia a b _ => choose e cs true ++ eflag e true ++ set_state e ++ change e a b true
  | SwIdle css ls a b => choose e cs false ++ eflag e true ++ sopen e (sleep_if_need e e css ls (Some a)) ++ opt b (fun b => change e a (fst b) (snd b))
  | SwShared _ _ _ => []
  end.
(** The switch itself: the registers of a are saved, those of b loaded (co_env.cpp 307, 384; co_vos_gcc_x86_64.cpp 20-96). *)
Definition go (p : nat * nat) : code_ := [Wr (XRegs (fst p)); Rd (XRegs (snd p))].
(** co_env::schedule_switch (co_env.cpp 296-329, 367-386) of the thread of e up to the switch. *)
Definition schedule_switch (e : nat) (cs rem : list nat) (x : sw) : code_ :=
  match x with
  | SwShared i a b =>
      scrit e (remove_detached e e cs rem ++ [Rd (XInfo e)] ++ guard e ([Wr (XInfo e); Rd (XInfo e)] ++ cflag a false ++ [Rd (XInfo e)] ++ cflag b false ++ [Rd (XShared e)])) ++ [Rd (XInfo e)]
  | _ => scrit e (remove_detached e e cs rem ++ [Rd (XInfo e)] ++ prepare e cs x ++ match goes x with None => [Ld e] | Some _ => [] end)
  end ++ opt (goes x) go.
(** What follows when a coroutine is switched to again: the schedule lock is taken and released (co_env.cpp 308, 324-329, 385). *)
Definition resume (e : nat) : code_ := scrit e [Ld e; Ld e].
(** switch_from_outside, the handler of the signal (co_vos_gcc_x86_64.cpp 141-165), which returns at its first test or goes on;
    a failing try_lock is not modelled. *)
Definition handler (e : nat) (cs : list nat) (x : option sw) : code_ :=
  [LdC e] ++ opt x (fun x => scrit e (prepare e cs x) ++ opt (goes x) go).
(** co_env::start_schedule_routine__ at its beginning (co_env.cpp 390-392) and one round of its loop (394-412). *)
Definition start_routine (e : nat) : code_ := [Wr (XTid e)] ++ eflag e true ++ set_state e.
(** See [start_routine]. *)
Definition routine_round (e : nat) (css : list (list nat)) (cs : list nat) : code_ :=
  scrit e (estate e false ++ [Rd (XInfo e)] ++ set_state e ++ sopen e (sleep_if_need e e css cs None) ++ estate e false).

(** co_env::move_ctx_to_here (co_env.cpp 80-97). *)
Definition move_here (m e c : nat) : code_ :=
  estate e false ++ estate e false ++ crit (Normal e) (priority c ++ [Wr (XList e); Wr (XCount e)]) ++ priority c ++
  update_min e ++ set_state e ++ wake_up m e.
(** co_env::add_ctx (co_env.cpp 58-78) and init_ctx (co_vos_gcc_x86_64.cpp 98-107); the state is read once or twice there, here once; [sh] for a shared stack, true if it is created. *)
Definition add_ctx (m e c : nat) (sh : option bool) : code_ :=
  estate e false ++ cflag c false ++ opt sh (fun b => crit (Once e) (when b [Wr (XShared e)]) ++ [Rd (XShared e)]) ++ [Wr (XRegs c)] ++ move_here m e c.
(** co_manager::create_env (co_manager.cpp 87-103) with co_env::co_env (co_env.cpp 32-51). *)
Definition create_env (e : nat) (keep : bool) : code_ :=
  [Rd XClean; Rd XSize] ++ set_state e ++ event (EvTask e) true [] ++ when keep (eflag e true) ++ crit Mgr [Wr XNormal].
(** co_manager::create_env_from_this_thread__ (co_manager.cpp 161-167). *)
Definition create_env_here (e : nat) : code_ := crit Mgr ([Rd XSize] ++ eflag e true ++ event (EvTask e) true [] ++ [Wr XNormal]).
(** What get_best_env__ looks at (all four tests of the loop or less), whether it reads base_env_count, the environment it
    creates.  No counterpart in the code. *)
Definition best := (list (nat * nat) * bool * option nat)%type.
(** co_manager::get_best_env__ (co_manager.cpp 23-71). *)
Definition get_best (b : best) : code_ :=
  match b with (es, base, new) =>
    crit Mgr ([Rd XNormal] ++
      each (fun p => let e := fst p in match snd p with
                     | 0 => estate e false
                     | 1 => estate e false ++ estate e false ++ eflag e false
                     | 2 => estate e false ++ estate e false ++ eflag e false ++ eflag e false
                     | _ => estate e false ++ estate e false ++ eflag e false ++ eflag e false ++ workload e ++ workload e end) es ++
      when base [Rd XBase] ++ opt new (fun e => create_env e false))
  end.
(** co_manager::create_and_schedule_ctx (co_manager.cpp 421-439) with co_ctx_factory::create_ctx (co_ctx_factory.cpp 15-32) and the
    constructor's set_priority (co_ctx.cpp 57): coroutine c goes to d.  Simplification: both flags are set always. *)
Definition create_ctx (m c : nat) (b : option best) (d : nat) (sh : option bool) : code_ :=
  set_priority c (FSame false) ++ cflag c true ++ event (EvPrio c) true [] ++ cflag c true ++ opt b get_best ++ add_ctx m d c sh.

(** co_ctx::enter_wait_resource_state (co_ctx.cpp 181-190). *)
Definition enter_wait (w : nat) : code_ := crit (Wait w) ([Wr (XWait w)] ++ cflag w true).
(** co_ctx::leave_wait_resource_state (co_ctx.cpp 192-207) by the thread of m; w belongs to e; [last] if nothing is left to wait
    for, [idle] if w is the idle coroutine (co_env.cpp 558-565). *)
Definition leave_wait (m w e : nat) (last idle : bool) : code_ :=
  crit (Wait w) ([Wr (XWait w); Rd (XWait w)] ++ when last (cflag w true)) ++ cflag w false ++
  when last (when (negb idle) (priority w ++ update_min e) ++ wake_up m e).
(** A waiting coroutine as it is woken. No counterpart in the code. *)
Definition wakee := (nat * nat * bool * bool)%type.
(** leave_wait_resource_state of a given coroutine (co_ctx.cpp 192-207). *)
Definition wake (m : nat) (w : wakee) : code_ := match w with (w, e, l, i) => leave_wait m w e l i end.

(** co_manager::insert_timer_to_queue__ and remove_timer_from_queue__ (co_manager.cpp 493-505); the set compares with the timers
    cmp (co_timer.cpp 136-139). *)
Definition enqueue (cmp : list nat) : code_ := crit TQ (each (fun x => crit (Tm x) [Rd (XExpire x)]) cmp ++ [Wr XTimers]).
(** co_timer::start and stop (co_timer.cpp 57-79), which return at once or go on.  Simplification: start writes expire_time__
    always. *)
Definition timer_start (t : nat) (cmp : option (list nat)) : code_ :=
  crit (Tm t) ([Rd (XStatus t)] ++ opt cmp (fun cmp => [Wr (XExpire t); Wr (XStatus t)] ++ enqueue cmp)).
(** See [timer_start]. *)
Definition timer_stop (t : nat) (cmp : option (list nat)) : code_ := crit (Tm t) ([Rd (XStatus t)] ++ opt cmp (fun cmp => [Wr (XStatus t)] ++ enqueue cmp)).
(** co_timer::set_expire_callback (co_timer.cpp 141-147). *)
Definition timer_callback (t : nat) : code_ := crit (Tm t) [Rd (XCall t); Wr (XCall t)].
(** co_timer::run (co_timer.cpp 122-129); the callback wakes w, and unsubscribes from the end of c first (co_env.cpp 127-130). *)
Definition timer_run (m t : nat) (unsub : option nat) (w : wakee) : code_ :=
  crit (Tm t) ([Rd (XCall t)] ++ opt unsub (fun c => event (EvFin c) true []) ++ wake m w).
(** The coroutine created for a timer that has expired, and how the timer is stopped or reset. No counterpart in the code. *)
Definition fire := (nat * option best * nat * option (list nat) * option (option (list nat)))%type.
(** A round of timer_routine__ (co_manager.cpp 351-385): it waits while the queue is empty, or not; it breaks off, or looks at
    timer t, which has expired or not.  Simplification: between two rounds the lock is released. *)
Definition timer_round (m : nat) (empty : bool) (x : option (nat * option fire)) : code_ :=
  crit TQ ([Rd XClean; Rd XTimers] ++ when empty (open TQ []) ++ [Rd XClean] ++
    opt x (fun x => let t := fst x in [Rd XTimers] ++ crit (Tm t) [Rd (XExpire t)] ++
      match snd x with
      | Some (c, b, d, cmp, again) => create_ctx m c b d None ++ timer_stop t cmp ++ opt again (timer_start t)
      | None => crit (Tm t) [Rd (XExpire t)] ++ open TQ []
      end ++ [Rd XClean])).

(** co_env::wait_ctx (co_env.cpp 99-187) by coroutine w on the thread of e for c, up to the switch; with a timer or without; c is
    found finished, or w waits. *)
Definition wait_ctx (e c w : nat) (b : found) (timer : option (nat * list nat)) (go_on : bool) : code_ :=
  [Ld e; Ld e] ++ priority w ++ [Ld e] ++ priority c ++ set_priority w b ++
  crit (Fin c) (scrit e ([Ld e] ++ cstate c false ++ when go_on
    (enter_wait w ++ event (EvFin c) true [] ++ opt timer (fun t => timer_callback (fst t) ++ timer_start (fst t) (Some (snd t)))))).
(** The end of wait_ctx (co_env.cpp 109, 143-151, 164, 185-186; co_ctx.cpp 131-139): the state is read again by the form with a time-out; the exception is taken if
    there is one (ex; None if the wait ends before c does); the priority is set back. *)
Definition wait_end (e c w : nat) (b : found) (timed : bool) (ex : option bool) : code_ :=
  when timed (crit (Fin c) (cstate c false)) ++ opt ex (fun ex => [Rd (XExc c)] ++ when ex [Rd (XExc c); Wr (XExc c)]) ++ [Ld e] ++ set_priority w b.
(** The end of a coroutine (co_ctx.cpp 69-82), by an exception or not, with the callbacks of wait_ctx (co_env.cpp 123-126, 172-174);
    the guard of line 75 is never undone. *)
Definition finish (m c : nat) (ex : bool) (subs : list (option (nat * option (list nat)) * wakee)) : code_ :=
  when ex [Wr (XExc c)] ++ [Cnt m] ++ crit (Fin c) (cstate c true) ++
  event (EvFin c) false (each (fun s => opt (fst s) (fun t => timer_stop (fst t) (snd t)) ++ wake m (snd s)) subs).
(** this_co::sleep_until (co_co.h 175-189) by w on the thread of e with timer t, up to its yield. *)
Definition sleep_until (e w t : nat) (cmp : list nat) : code_ := [Ld e] ++ timer_callback t ++ scrit e (enter_wait w ++ timer_start t (Some cmp)).

(** co_manager::force_schedule__ (co_manager.cpp 247-264) and send_switch_from_outside_signal (co_vos_gcc_x86_64.cpp 119-126): the
    environments and whether they get the signal.  Simplification: normal_set is read even when clean_up__ is set. *)
Definition force_schedule (es : list (nat * bool)) : code_ :=
  crit Mgr ([Rd XClean; Rd XNormal] ++ each (fun p => estate (fst p) false ++ eflag (fst p) false ++ workload (fst p) ++ when (snd p) [Rd (XTid (fst p))] ++ eflag (fst p) true) es).
(** co_env::take_all_movable_ctx and take_one_movable_ctx (co_env.cpp 575-612): the coroutines looked at. *)
Definition take (e : nat) (cs : list nat) : code_ :=
  [Cnt e] ++ crits [Normal e; MinP e; Sched e] ([Rd (XMin e); Rd (XList e)] ++ each can_move cs ++ [Wr (XList e); Wr (XCount e)]) ++ [Cnt e].
(** co_manager::redistribute_ctx__ (co_manager.cpp 266-306): environments (whose schedule lock is free or not, coroutines looked
    at), then the coroutines moved with what get_best_env__ looks at and finds.  Simplification: the test of line 287, which never
    succeeds (C44), is a parameter. *)
Definition redistribute (m : nat) (es : list (nat * bool * option (list nat))) (mv : list (nat * best * nat)) : code_ :=
  crit Mgr ([Rd XClean; Rd XNormal] ++
    each (fun p : nat * bool * option (list nat) => match p with (e, free, tk) =>
      if free then scrit e ([LdC e] ++ opt tk (fun cs => estate e false ++ eflag e false ++ set_state e ++ take e cs ++ eflag e true)) else [Cnt e; Cnt e] end) es ++
    each (fun p : nat * best * nat => match p with (c, b, d) => get_best b ++ move_here m d c end) mv).
(** co_manager::steal_ctx_routine__ (co_manager.cpp 441-491): environments looked at; for each idle one those it tries to take
    from, with the coroutines looked at and the one taken.  Simplification: the tests of lines 463 and 478 are parameters; lines
    458 and 473 succeed. *)
Definition steal (m : nat) (es : list nat) (ps : list (nat * list (nat * option (list nat * option nat)))) : code_ :=
  crit Mgr ([Rd XNormal] ++ each (fun e => estate e false ++ eflag e false) es ++ [Rd XNormal] ++
    each (fun p => let e := fst p in scrit e ([LdC e] ++
      each (fun q => let v := fst q in [Rd XNormal] ++ estate v false ++ scrit v ([LdC v] ++ opt (snd q) (fun r => take v (fst r) ++ opt (snd r) (move_here m e)))) (snd p))) ps).
(** co_manager::destroy_redundant_env__ (co_manager.cpp 308-335). *)
Definition destroy_redundant (m : nat) (es stop : list nat) : code_ :=
  crit Mgr ([Rd XNormal] ++ each (fun e => estate e false ++ eflag e false ++ workload e) es ++ [Rd XMax] ++ each (stop_schedule m) stop).
(** What the monitor does at every second tick. No counterpart in the code. *)
Definition second := (list (nat * bool * option (list nat)) * list (nat * best * nat) * (list nat * list (nat * list (nat * option (list nat * option nat)))) * (list nat * list nat))%type.
(** A round of monitor_routine__ (co_manager.cpp 337-347) with its subscriber (125-143).  timing_duration returns a reference that
    sleep_for reads after the lock was released (401-405, 343). *)
Definition monitor_round (m : nat) (es : list (nat * bool)) (s : option second) : code_ :=
  crit TDur [] ++ [Rd XTick] ++
  event EvTick false (force_schedule es ++ opt s (fun s => match s with (rs, mv, (se, ps), (de, stop)) => redistribute m rs mv ++ steal m se ps ++ destroy_redundant m de stop end)) ++
  crit Mgr [Rd XClean].
(** co_manager::remove_env__ (co_manager.cpp 153-159). *)
Definition remove_env : code_ := crit Mgr [Wr XNormal; Wr XExpired].
(** set_clean_up__ (co_manager.cpp 178-195): environments and whether they have a scheduling thread. *)
Definition tell_stop (m : nat) (es : list (nat * bool)) : code_ := each (fun p : nat * bool => eflag (fst p) false ++ if snd p then stop_schedule m (fst p) else remove_env) es.
(** See [tell_stop]. *)
Definition set_clean_up (m : nat) (es : list (nat * bool)) : code_ := crit Mgr ([Wr XClean; Rd XNormal] ++ tell_stop m es).
(** A round of clean_env_routine__ (co_manager.cpp 197-227): waits, or tells all environments to stop; destroys the expired ones. *)
Definition clean_round (m : nat) (tell : option (list (nat * bool))) : code_ :=
  crit Mgr ([Rd XClean; Rd XNormal; Rd XClean] ++ match tell with Some es => [Rd XNormal] ++ tell_stop m es ++ [Wr XNormal] | None => open Mgr [] end ++
    [Rd XExpired; Wr XExpired; Rd XClean; Rd XNormal]).
(** The end of a scheduling routine (co_env.cpp 414-416): remove_all_ctx__, task_finished().pub() with remove_env__. *)
Definition end_env (e : nat) (rem : list nat) : code_ := all_ctx e e ++ each (remove_ctx e e) rem ++ event (EvTask e) false remove_env.

(** co_ctx::ctx_info (co_ctx.cpp 219-290). *)
Definition ctx_info (c : nat) : code_ := [Rd (XPrio c); Rd (XLocals c); Rd (XExc c); Rd (XRegs c)] ++ cflag c false ++ cstate c false.
(** co_env::env_info (co_env.cpp 697-768) with its coroutines. *)
Definition env_info (p : nat * list nat) : code_ :=
  let e := fst p in
  [Cnt e] ++ crits [Sched e; Normal e; MinP e] (eflag e false ++ estate e false ++ [Rd (XShared e); Rd (XTid e); Rd (XMin e); Rd (XCount e); Ld e; Rd (XList e)] ++ each ctx_info (snd p)) ++ [Cnt e].
(** co_manager::manager_info (co_manager.cpp 507-560) with timer_info (co_timer.cpp 149-177). *)
Definition manager_info (es : list (nat * list nat)) (ts : list nat) : code_ :=
  crits [TQ; TDur; TQ] (crit Mgr ([Rd XNormal] ++ each env_info es ++ [Rd XExpired]) ++ [Rd XBase; Rd XMax; Rd XClean; Rd XTick] ++
    crit TQ ([Rd XTimers] ++ each (fun t => crit (Tm t) [Rd (XExpire t); Rd (XStatus t)]) ts) ++ [Rd XSize]).

(** The calls, by clients and by the library's own threads. *)
Inductive call :=
  | KEnv                                                            (* current_env in a thread without environment *)
  | KCreateEnv (e : nat) (keep : bool)
  | KCreate (c : nat) (b : option best) (d : nat) (sh : option bool)
  | KYield (cs rem : list nat) (x : sw) | KResume | KSignal (cs : list nat) (x : option sw)
  | KStart | KRound (css : list (list nat)) (cs : list nat) | KEndEnv (rem : list nat)
  | KWait (c w : nat) (b : found) (timer : option (nat * list nat)) (go_on : bool) | KWaitEnd (c w : nat) (b : found) (timed : bool) (ex : option bool)
  | KFinish (c : nat) (ex : bool) (subs : list (option (nat * option (list nat)) * wakee))
  | KEnter (w : nat) | KWake (w : wakee)                            (* from the methods of mutexes, condition variables, ... *)
  | KSetPrio (c : nat) (f : found) | KPrio (c : nat)
  | KLocal (c : nat)                                                (* co_ctx::local_storage (co_ctx.h 112-120) *)
  | KMonitor (es : list (nat * bool)) (s : option second) | KClean (tell : option (list (nat * bool))) | KCleanUp (es : list (nat * bool))
  | KInfo (es : list (nat * list nat)) (ts : list nat)
  | KTimer (empty : bool) (x : option (nat * option fire))
  | KRun (t : nat) (unsub : option nat) (w : wakee) | KTimerStart (t : nat) (cmp : option (list nat)) | KTimerStop (t : nat) (cmp : option (list nat))
  | KSleep (w t : nat) (cmp : list nat)
  | KSetBase | KSetMax | KSetSize | KSetTick.                       (* co_manager.cpp 105-108, 229-245, 387-399 *)
(** The programs of the calls when made on thread t. *)
Definition code (t : nat) (k : call) : code_ :=
  match k with
  | KEnv => create_env_here t
  | KCreateEnv e keep => create_env e keep
  | KCreate c b d sh => create_ctx t c b d sh
  | KYield cs rem x => schedule_switch t cs rem x
  | KResume => resume t
  | KSignal cs x => handler t cs x
  | KStart => start_routine t
  | KRound css cs => routine_round t css cs
  | KEndEnv rem => end_env t rem
  | KWait c w b tm g => wait_ctx t c w b tm g
  | KWaitEnd c w b tm ex => wait_end t c w b tm ex
  | KFinish c ex subs => finish t c ex subs
  | KEnter w => enter_wait w
  | KWake w => wake t w
  | KSetPrio c e => set_priority c e
  | KPrio c => priority c
  | KLocal c => [Rd (XLocals c); Wr (XLocals c)]
  | KMonitor es s => monitor_round t es s
  | KClean x => clean_round t x
  | KCleanUp es => set_clean_up t es
  | KInfo es ts => manager_info es ts
  | KTimer b x => timer_round t b x
  | KRun tm u w => timer_run t tm u w
  | KTimerStart tm cmp => timer_start tm cmp
  | KTimerStop tm cmp => timer_stop tm cmp
  | KSleep w tm cmp => sleep_until t w tm cmp
  | KSetBase => [Wr XBase]
  | KSetMax => [Wr XMax]
  | KSetSize => [Wr XSize]
  | KSetTick => crit TDur [Wr XTick]
  end.

(** State: the rest of the program of the k-th activity of thread t (a coroutine, or what was interrupted by a signal); who has a
    lock: the thread and, once for each time it was locked, the activity (the length of the list is the counter of
    std::recursive_mutex; the names are ghosts); the trace. *)
Record st := mkSt { pr : nat -> nat -> code_; ow : lock -> option (nat * list nat); tr : list (RaceSpec.ev sync loc) }.
(** Nothing runs, nothing is locked. *)
Definition init : st := mkSt (fun _ _ => []) (fun _ => None) [].
(** Changing one entry. No counterpart in the code. *)
Definition set_pr (f : nat -> nat -> code_) (t k : nat) (p : code_) : nat -> nat -> code_ :=
  fun u j => if (u =? t) && (j =? k) then p else f u j.
(** Changing one entry. No counterpart in the code. *)
Definition set_ow (f : lock -> option (nat * list nat)) (l : lock) (v : option (nat * list nat)) : lock -> option (nat * list nat) :=
  fun m => if lock_eq m l then v else f m.
(** std::recursive_mutex::lock by activity k of thread t: blocks while another thread has it. *)
Definition acquire (f : lock -> option (nat * list nat)) (t k : nat) (l : lock) : option (lock -> option (nat * list nat)) :=
  match f l with
  | None => Some (set_ow f l (Some (t, [k])))
  | Some (u, ks) => if u =? t then Some (set_ow f l (Some (t, k :: ks))) else None
  end.
(** std::lock: all of them or none. *)
Fixpoint acquire_all (f : lock -> option (nat * list nat)) (t k : nat) (ls : list lock) : option (lock -> option (nat * list nat)) :=
  match ls with [] => Some f | l :: r => match acquire f t k l with Some g => acquire_all g t k r | None => None end end.
(** Takes one occurrence away. No counterpart in the code. *)
Fixpoint without (k : nat) (ks : list nat) : list nat := match ks with [] => [] | j :: r => if j =? k then r else j :: without k r end.
(** std::recursive_mutex::unlock; undefined, here impossible, if the thread does not have it. *)
Definition release (f : lock -> option (nat * list nat)) (t k : nat) (l : lock) : option (lock -> option (nat * list nat)) :=
  match f l with
  | Some (u, ks) => if u =? t then Some (set_ow f l (match without k ks with [] => None | r => Some (t, r) end)) else None
  | None => None
  end.
(** What an operation does to the locks. *)
Definition locks (f : lock -> option (nat * list nat)) (t k : nat) (o : rop) : option (lock -> option (nat * list nat)) :=
  match o with Lk l => acquire f t k l | All ls => acquire_all f t k ls | Ul l => release f t k l | _ => Some f end.
(** What an operation does to memory; the operations on atomic objects are sequentially consistent (co_env.h 26, 82). *)
Definition kinds (o : rop) : list (kind sync loc) :=
  match o with
  | Lk l => [KAcq (SL l)]
  | All ls => map (fun l => KAcq (SL l)) ls
  | Ul l => [KRel (SL l)]
  | Cnt e => [KUpd (SCount e)]
  | LdC e => [KAcq (SCount e)]
  | Ld e => [KAcq (SCurr e)]
  | St e => [KRel (SCurr e)]
  | Rd x => [KRd x]
  | Wr x => [KWr x]
  end.
(** Labels: activity k of thread t begins a call; it makes its next step. *)
Inductive lbl := Begin (t k : nat) (c : call) | Go (t k : nat).
(** One step. *)
Definition step (s : st) (l : lbl) : option st :=
  match l with
  | Begin t k c => match pr s t k with [] => Some (mkSt (set_pr (pr s) t k (code t c)) (ow s) (tr s)) | _ => None end
  | Go t k => match pr s t k with
              | [] => None
              | o :: r => match locks (ow s) t k o with
                          | Some f => Some (mkSt (set_pr (pr s) t k r) f (tr s ++ map (mkEv t) (kinds o)))
                          | None => None
                          end
              end
  end.
