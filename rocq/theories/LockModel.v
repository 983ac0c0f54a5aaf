(** Model of the internal locks of the scheduler: which lock each function takes while it holds which others.  Functions of
    source/cocpp/core/co_env.cpp, co_ctx.cpp, co_manager.cpp, co_timer.cpp, co_env_factory.cpp, co_ctx_factory.cpp,
    co_vos_gcc_x86_64.cpp and include/cocpp/event/co_event.h, include/cocpp/co/co_co.h, include/cocpp/sync/co_condition_variable.h
    are reduced to programs of lock operations; what a branch or a loop depends on is a parameter of the call, except where a
    lock decides it.

    Simplifications.  Left out: the locks of co_state_manager and co_flag_manager (co_state_manager.h 13, co_flag_manager.h 15),
    inside which nothing is acquired; co_spinlock, which yields instead of blocking (C01-C20 are about the spin locks of the
    synchronisation objects); callbacks that clients subscribe themselves (co_co.h 62-63); call_once for the shared stack
    (co_env.cpp 70); the destruction of environments (C75-C78) except for the locks it takes.  Environments are numbered like
    the threads they belong to; coroutines stay on their thread (C44). *)
From Coq Require Import List Arith Bool.
From Verif Require Import Base.
Import ListNotations.

(** The locks: env_set__.normal_lock, mu_timer_queue__, mu_timer_duration__ (co_manager.h 31, 47, 43), mu_cb_list__ (co_event.h
    21) of timing_routine_timeout (co_manager.h 25), of task_finished of an environment (co_env.h 60), of finished and of
    priority_changed of a coroutine (co_ctx.h 32-33); schedule_lock__, mu_normal_ctx__, mu_min_priority__ of an environment
    (co_env.h 86, 78, 85); finish_lock__, wait_data__.mu, priority_lock__ of a coroutine (co_ctx.h 40, 44, 55); mutex__ of a
    timer (co_timer.h 44).  All are recursive. *)
Inductive lock := Mgr | TQ | TDur | EvTick | EvTask (e : nat) | EvFin (c : nat) | EvPrio (c : nat) | Sched (e : nat)
  | Normal (e : nat) | MinP (e : nat) | Fin (c : nat) | Wait (c : nat) | Prio (c : nat) | Tm (t : nat).
(** Equality of locks. No counterpart in the code. *)
Definition lock_eq (x y : lock) : {x = y} + {x <> y}. Proof. decide equality; apply Nat.eq_dec. Defined.
(** Equality of locks. No counterpart in the code. *)
Definition leqb (x y : lock) : bool := if lock_eq x y then true else false.

(** An activity: the k-th coroutine of thread t (for a thread without coroutines: what it runs itself), or the handler of the
    switch signal on thread t (co_vos_gcc_x86_64.cpp 142-165). *)
Inductive agent := AC (t k : nat) | AH (t : nat).
(** Equality of activities. No counterpart in the code. *)
Definition agent_eq (x y : agent) : {x = y} + {x <> y}. Proof. decide equality; apply Nat.eq_dec. Defined.
(** Equality of activities. No counterpart in the code. *)
Definition aeqb (x y : agent) : bool := if agent_eq x y then true else false.
(** The thread that runs an activity. *)
Definition th (a : agent) : nat := match a with AC t _ => t | AH t => t end.

(** Objects that come into being during the run: coroutines and environments. *)
Inductive obj := OC (c : nat) | OE (e : nat).
(** Equality of objects. No counterpart in the code. *)
Definition obj_eq (x y : obj) : {x = y} + {x <> y}. Proof. decide equality; apply Nat.eq_dec. Defined.
(** Who can reach an object: it does not exist; only one activity knows it; everybody. *)
Inductive access := ANone | AMine (a : agent) | APub.

(** Operations: lock; lock several (std::scoped_lock with several locks, which holds none of them while it waits); unlock;
    constructor and destructor of co_preempt_guard (co_env.cpp 824-833) on the environment of the own thread; an object is
    allocated, becomes reachable for others, is taken away from them; state__ becomes finished; the switch signal is sent
    (co_vos 119-126); the wait of a condition variable between unlock and lock; the switch to another coroutine; the call
    returns; exit waits for the threads of the manager (CrashLock; co_manager.cpp 407-419). *)
Inductive op := Acq (l : lock) | All (ls : list lock) | Rel (l : lock) | Inc | Dec | New (o : obj) | Pub (o : obj) | Retire (c : nat)
  | SetFin (c : nat) | Send (e : nat) | Park | Yield | Leave | Halt.
(** Programs: ended; an operation; try_lock with what follows success and failure; the test of co_env::can_force_schedule
    (co_env.cpp 687-690); the test of state() == finished. *)
Inductive prog := Ret | Do (o : op) (k : prog) | Try (l : lock) (k1 k2 : prog) | IfFree (e : nat) (k1 k2 : prog) | Test (c : nat) (k1 k2 : prog).

(** Sequencing: pieces of program are given what follows them. No counterpart in the code. *)
Definition piece := prog -> prog.
(** One operation as a piece. No counterpart in the code. *)
Definition do_ (o : op) : piece := fun k => Do o k.
(** Nothing. No counterpart in the code. *)
Definition skip : piece := fun k => k.
(** First p, then q. No counterpart in the code. *)
Definition seq (p q : piece) : piece := fun k => p (q k).
Notation "p ;; q" := (seq p q) (at level 61, right associativity).
(** A critical section (std::scoped_lock, std::unique_lock). *)
Definition wl (l : lock) (p : piece) : piece := do_ (Acq l) ;; p ;; do_ (Rel l).
(** A loop over a list that is a parameter of the call. *)
Fixpoint each {A : Type} (f : A -> piece) (xs : list A) : piece :=
  match xs with [] => skip | x :: r => f x ;; each f r end.
(** A branch that is a parameter of the call. *)
Definition opt {A : Type} (x : option A) (f : A -> piece) : piece := match x with Some y => f y | None => skip end.
(** A condition that is a parameter of the call. *)
Definition when (b : bool) (p : piece) : piece := if b then p else skip.
(** CoPreemptGuard (co_define.h 127).  Simplification: in a thread that has no environment yet the macro creates one
    (co_manager.cpp 161-176), here a call of its own, KEnv, made beforehand. *)
Definition guarded (p : piece) : piece := do_ Inc ;; p ;; do_ Dec.

(** co_ctx::priority (co_ctx.cpp 85-89). *)
Definition priority (c : nat) : piece := wl (Prio c) skip.
(** co_env::update_min_priority__ (co_env.cpp 614-621). *)
Definition update_min (e : nat) : piece := wl (MinP e) skip.
(** co_env::handle_priority_changed (co_env.cpp 489-500). *)
Definition handle_changed (e c : nat) : piece := wl (Normal e) (priority c ;; priority c ;; update_min e).
(** co_ctx::set_priority (co_ctx.cpp 91-119) with the subscriber of co_manager.cpp 80-85; [e] is the environment if the value
    changes and the coroutine has one. *)
Definition set_priority (c : nat) (e : option nat) : piece :=
  wl (Prio c) (opt e (fun e => wl (EvPrio c) (handle_changed e c))).
(** co_env::set_state (co_env.cpp 644-648). *)
Definition set_state (e : nat) : piece := wl (Sched e) skip.
(** co_env::wake_up (co_env.cpp 660-665). *)
Definition wake_up (e : nat) : piece := guarded (wl (Sched e) skip).
(** co_env::workload, ctx_count, has_ctx (co_env.cpp 189-199, 623-627). *)
Definition workload (e : nat) : piece := wl (Normal e) skip.
(** co_env::stop_schedule (co_env.cpp 349-357). *)
Definition stop_schedule (e : nat) : piece := set_state e ;; wake_up e.
(** co_env::need_sleep__ and can_schedule__ (co_env.cpp 502-525); choose_ctx_from_normal_list__ (527-548): scoped_lock on two
    locks. *)
Definition look (e : nat) : piece := do_ (All [Normal e; MinP e]) ;; do_ (Rel (MinP e)) ;; do_ (Rel (Normal e)).
(** co_env::sleep_if_need__ (co_env.cpp 667-685) with n waits. *)
Fixpoint rounds (e n : nat) : piece :=
  match n with 0 => skip | S n => look e ;; do_ (Rel (Sched e)) ;; do_ Park ;; do_ (Acq (Sched e)) ;; rounds e n end.
(** co_env::sleep_if_need__ (co_env.cpp 667-685). *)
Definition sleep_if_need (e n : nat) : piece := guarded (wl (Sched e) (rounds e n ;; look e)).
(** co_env::all_ctx__ (co_env.cpp 550-556). *)
Definition all_ctx (e : nat) : piece := guarded (wl (Normal e) skip).
(** co_env::remove_ctx (co_env.cpp 331-340) and co_ctx_factory::destroy_ctx (co_ctx_factory.cpp 34-45).  From here on nobody else
    is inside a call that names the coroutine; where the code does not see to that is C46. *)
Definition remove_ctx (e c : nat) : piece := do_ (Retire c) ;; wl (Normal e) (priority c) ;; guarded skip.

(** What schedule_switch does (co_env.cpp 216-309): a coroutine is chosen that is the current one, or another one; the idle
    coroutine is next, after n waits, with a look at the queues first unless the environment is being destroyed, and is or is
    not the current one; the pending switch of the shared stack is carried out (367-386). *)
Inductive sw := SwStay | SwGo | SwIdle (d : bool) (n : nat) (g : bool) | SwShared.
(** The switch itself with the schedule lock released (co_env.cpp 306-308, 383-385). *)
Definition go (e : nat) : piece := do_ (Rel (Sched e)) ;; do_ Yield ;; do_ (Acq (Sched e)).
(** co_env::prepare_to_switch (co_env.cpp 241-294). *)
Definition prepare (e : nat) (x : sw) : piece :=
  match x with
  | SwStay | SwGo => look e ;; set_state e
  | SwIdle d n _ => when d (look e) ;; do_ (Rel (Sched e)) ;; sleep_if_need e n ;; do_ (Acq (Sched e))
  | SwShared => skip
  end.
(** co_env::schedule_switch (co_env.cpp 311-329), which removes the coroutines [rem]. *)
Definition schedule_switch (e : nat) (rem : list nat) (x : sw) : piece :=
  wl (Sched e) (all_ctx e ;; each (remove_ctx e) rem ;; prepare e x ;;
    match x with
    | SwStay => skip
    | SwGo => go e
    | SwIdle _ _ g => when g (go e)
    | SwShared => guarded (go e)
    end).

(** co_env_factory::create_idle_ctx__ (co_env_factory.cpp 56-65); the constructor sets the priority (co_ctx.cpp 57). *)
Definition create_idle (c : nat) : piece := do_ (New (OC c)) ;; set_priority c None.
(** co_manager::create_env (co_manager.cpp 87-103) with the constructor of co_env (co_env.cpp 32-51); environment e with idle
    coroutine c. *)
Definition create_env (e c : nat) : piece :=
  create_idle c ;; do_ (New (OE e)) ;; set_state e ;; wl (EvTask e) skip ;; wl Mgr (do_ (Pub (OC c)) ;; do_ (Pub (OE e))).
(** co_manager::create_env_from_this_thread__ (co_manager.cpp 161-167). *)
Definition create_env_here (e c : nat) : piece :=
  wl Mgr (create_idle c ;; do_ (New (OE e)) ;; wl (EvTask e) skip ;; do_ (Pub (OC c)) ;; do_ (Pub (OE e))).
(** co_manager::get_best_env__ (co_manager.cpp 23-71): the environments whose workload is read, the one created. *)
Definition get_best (es : list nat) (new : option (nat * nat)) : piece :=
  wl Mgr (each workload es ;; opt new (fun p => create_env (fst p) (snd p))).
(** co_env::move_ctx_to_here (co_env.cpp 80-97): from the insertion on others reach the coroutine. *)
Definition move_here (e c : nat) : piece :=
  wl (Normal e) (priority c ;; do_ (Pub (OC c))) ;; priority c ;; update_min e ;; set_state e ;; wake_up e.
(** co_manager::create_and_schedule_ctx (co_manager.cpp 421-439) and add_ctx (co_env.cpp 58-78): coroutine c goes to d. *)
Definition create_ctx (c : nat) (best : option (list nat * option (nat * nat))) (d : nat) : piece :=
  do_ (New (OC c)) ;; set_priority c None ;; wl (EvPrio c) skip ;; opt best (fun b => get_best (fst b) (snd b)) ;; move_here d c.

(** co_ctx::enter_wait_resource_state (co_ctx.cpp 181-190). *)
Definition enter_wait (w : nat) : piece := wl (Wait w) skip.
(** co_ctx::leave_wait_resource_state (co_ctx.cpp 192-207); w belongs to environment e; [last] if nothing is left to wait for,
    [idle] if w is the idle coroutine (co_env.cpp 558-565). *)
Definition leave_wait (w e : nat) (last idle : bool) : piece :=
  wl (Wait w) skip ;; when last (when (negb idle) (priority w ;; update_min e) ;; wake_up e).
(** A waiting coroutine as it is woken: coroutine, environment, whether this was the last resource, whether it is idle. *)
Definition wakee := (nat * nat * bool * bool)%type.
(** leave_wait_resource_state of a given coroutine. *)
Definition wake (w : wakee) : piece := match w with (w, e, l, i) => leave_wait w e l i end.

(** co_timer::start and stop (co_timer.cpp 57-79) with insert_timer_to_queue__ and remove_timer_from_queue__ (co_manager.cpp
    493-505); the set compares with the timers [cmp] (co_timer.cpp 136-139). *)
Definition timer_queue (t : nat) (cmp : list nat) : piece := wl (Tm t) (wl TQ (each (fun x => wl (Tm x) skip) cmp)).

(** co_env::wait_ctx (co_env.cpp 154-187) by coroutine w of environment e for c; w changes its priority before and after. *)
Definition wait_ctx (e c w : nat) (b1 b2 : bool) (rem : list nat) (x : sw) : piece :=
  priority w ;; priority c ;; set_priority w (if b1 then Some e else None) ;;
  do_ (Acq (Fin c)) ;; do_ (Acq (Sched e)) ;;
  (fun k => Test c
    (do_ (Rel (Sched e)) (do_ (Rel (Fin c)) k))
    ((enter_wait w ;; wl (EvFin c) skip ;; do_ (Rel (Sched e)) ;; do_ (Rel (Fin c)) ;; schedule_switch e rem x) k)) ;;
  set_priority w (if b2 then Some e else None).
(** co_env::wait_ctx with a time-out (co_env.cpp 99-152); timer t. *)
Definition wait_ctx_for (e c w t : nat) (cmp : list nat) (b1 b2 : bool) (rem : list nat) (x : sw) : piece :=
  priority w ;; priority c ;; set_priority w (if b1 then Some e else None) ;;
  do_ (Acq (Fin c)) ;; do_ (Acq (Sched e)) ;;
  (fun k => Test c
    (do_ (Rel (Sched e)) (do_ (Rel (Fin c)) k))
    ((enter_wait w ;; wl (EvFin c) skip ;; wl (Tm t) skip ;; timer_queue t cmp ;; do_ (Rel (Sched e)) ;; do_ (Rel (Fin c)) ;;
      schedule_switch e rem x) k)) ;;
  wl (Fin c) skip ;; set_priority w (if b2 then Some e else None).
(** The end of a coroutine (co_ctx.cpp 75-80) with the callbacks of the calls of wait_ctx (co_env.cpp 123-126, 172-174): each may
    stop a timer and wakes its coroutine.  The final schedule_switch (82) is a call of its own; the guard of line 75 is never
    undone. *)
Definition finish (c : nat) (subs : list (option (nat * list nat) * wakee)) : piece :=
  do_ Inc ;; wl (Fin c) (do_ (SetFin c)) ;;
  wl (EvFin c) (each (fun s => opt (fst s) (fun t => timer_queue (fst t) (snd t)) ;; wake (snd s)) subs).

(** this_co::sleep_until (co_co.h 176-189) by coroutine w of environment e with timer t. *)
Definition sleep_until (e w t : nat) (cmp : list nat) (rem : list nat) (x : sw) : piece :=
  wl (Tm t) skip ;; wl (Sched e) (enter_wait w ;; timer_queue t cmp) ;; schedule_switch e rem x.
(** co_condition_variable_impl::wait_until (co_condition_variable.h 91-117) up to and including its yield: the unlock of the
    mutex wakes [nx] (co_mutex.cpp 71-85). *)
Definition cv_wait_until (e w t : nat) (cmp : list nat) (nx : option wakee) (rem : list nat) (x : sw) : piece :=
  do_ (Acq (Sched e)) ;; timer_queue t cmp ;; opt nx wake ;; enter_wait w ;; do_ (Rel (Sched e)) ;; schedule_switch e rem x.
(** co_timer::run (co_timer.cpp 122-129) with the callbacks of sleep_until and of the timed waits of condition variables
    (co_co.h 181-183, co_condition_variable.h 96-101), and of wait_ctx (co_env.cpp 127-130), which first leaves the event of c. *)
Definition timer_run (t : nat) (unsub : option nat) (w : wakee) : piece :=
  wl (Tm t) (opt unsub (fun c => wl (EvFin c) skip) ;; wake w).
(** A round of timer_routine__ (co_manager.cpp 353-384) with timer t in front: it is not expired, or its callback is handed to
    coroutine c and the timer is stopped (372-374) and, if periodic, started again (377). *)
Definition timer_round (t : nat) (fire : option (nat * option (list nat * option (nat * nat)) * nat * list nat)) : piece :=
  wl TQ (wl (Tm t) skip ;;
    match fire with
    | Some (c, best, d, cmp) => create_ctx c best d ;; timer_queue t cmp ;; timer_queue t cmp
    | None => wl (Tm t) skip ;; do_ (Rel TQ) ;; do_ Park ;; do_ (Acq TQ)
    end).

(** co_manager::force_schedule__ (co_manager.cpp 247-264): the environments examined and whether they get the signal. *)
Definition force_schedule (es : list (nat * bool)) : piece :=
  wl Mgr (each (fun p => workload (fst p) ;; when (snd p) (do_ (Send (fst p)))) es).
(** co_manager::redistribute_ctx__ (co_manager.cpp 266-306): try_lock, the test of line 287, and what would follow it: set_state
    and take_all_movable_ctx (co_env.cpp 575-593), which is left out beyond its locks. *)
Definition redistribute (es : list nat) : piece :=
  wl Mgr (each (fun e k => Try (Sched e)
    (IfFree e (set_state e (do_ (All [Normal e; MinP e; Sched e]) (do_ (Rel (Sched e)) (do_ (Rel (MinP e)) (do_ (Rel (Normal e)) (do_ (Rel (Sched e)) k))))))
      (do_ (Rel (Sched e)) k)) k) es).
(** co_manager::steal_ctx_routine__ (co_manager.cpp 441-491) up to the test of line 463, whose second branch is always taken; what
    follows the first is left out (C44). *)
Definition steal (es : list nat) : piece :=
  wl Mgr (each (fun e k => Try (Sched e) (IfFree e (do_ (Rel (Sched e)) k) (do_ (Rel (Sched e)) k)) k) es).
(** co_manager::destroy_redundant_env__ (co_manager.cpp 308-335). *)
Definition destroy_redundant (es stop : list nat) : piece := wl Mgr (each workload es ;; each stop_schedule stop).
(** A round of monitor_routine__ (co_manager.cpp 340-346) and its subscriber (125-143). *)
Definition monitor_round (es : list (nat * bool)) (second : option (list nat * list nat * list nat * list nat)) : piece :=
  wl TDur skip ;;
  wl EvTick (force_schedule es ;;
    match second with
    | Some (a, b, c, d) => redistribute a ;; steal b ;; destroy_redundant c d
    | None => skip
    end) ;;
  wl Mgr skip.
(** A round of clean_env_routine__ (co_manager.cpp 200-226): waits, or tells all environments to stop. *)
Definition clean_round (tell : option (list nat * nat)) : piece :=
  wl Mgr (match tell with
    | Some (es, n) => each stop_schedule es ;; each (fun _ => wl Mgr skip) (repeat tt n)
    | None => do_ (Rel Mgr) ;; do_ Park ;; do_ (Acq Mgr)
    end).
(** set_clean_up__ (co_manager.cpp 178-195). *)
Definition set_clean_up (es : list nat) (n : nat) : piece := wl Mgr (each stop_schedule es ;; each (fun _ => wl Mgr skip) (repeat tt n)).
(** The end of a scheduling routine: task_finished().pub() with its subscriber remove_env__ (co_env.cpp 415-416, co_manager.cpp
    73-78, 153-159). *)
Definition end_env (e : nat) (rem : list nat) : piece := all_ctx e ;; each (remove_ctx e) rem ;; wl (EvTask e) (wl Mgr skip).
(** co_env::env_info (co_env.cpp 697-768): scoped_lock on three locks; ctx_info takes none. *)
Definition env_info (e : nat) : piece :=
  do_ (All [Sched e; Normal e; MinP e]) ;; do_ (Rel (MinP e)) ;; do_ (Rel (Normal e)) ;; do_ (Rel (Sched e)).
(** co_manager::manager_info (co_manager.cpp 507-560); timer_info (co_timer.cpp 149-177). *)
Definition manager_info (es ts : list nat) : piece :=
  do_ (All [TQ; TDur; TQ]) ;; wl Mgr (each env_info es) ;; wl TQ (each (fun t => wl (Tm t) skip) ts) ;;
  do_ (Rel TQ) ;; do_ (Rel TDur) ;; do_ (Rel TQ).

(** The calls, by clients and by the library's own threads. *)
Inductive call :=
  | KEnv (c : nat)                                  (* current_env in a thread without environment *)
  | KCreateEnv (e c : nat)
  | KCreate (c : nat) (best : option (list nat * option (nat * nat))) (d : nat)
  | KYield (rem : list nat) (x : sw)
  | KSleepIf (n : nat)
  | KWait (c w : nat) (b1 b2 : bool) (rem : list nat) (x : sw)
  | KFinish (c : nat) (subs : list (option (nat * list nat) * wakee))
  | KEnter (w : nat) | KWake (w : wakee)            (* from the methods of mutexes, condition variables, ... *)
  | KSetPrio (c : nat) (e : option nat)
  | KMonitor (es : list (nat * bool)) (second : option (list nat * list nat * list nat * list nat))
  | KClean (tell : option (list nat * nat)) | KCleanUp (es : list nat) (n : nat) | KEndEnv (rem : list nat)
  | KInfo (es ts : list nat)
  | KTimer (t : nat) (fire : option (nat * option (list nat * option (nat * nat)) * nat * list nat))
  | KRun (t : nat) (unsub : option nat) (w : wakee)
  | KTimerQueue (t : nat) (cmp : list nat)          (* start or stop *)
  | KSleep (w t : nat) (cmp rem : list nat) (x : sw)
  | KWaitFor (c w t : nat) (cmp : list nat) (b1 b2 : bool) (rem : list nat) (x : sw)
  | KCvUntil (w t : nat) (cmp : list nat) (nx : option wakee) (rem : list nat) (x : sw).
(** The programs of the calls when made on thread t. *)
Definition code (t : nat) (k : call) : piece :=
  match k with
  | KEnv c => create_env_here t c
  | KCreateEnv e c => create_env e c
  | KCreate c b d => create_ctx c b d
  | KYield rem x => schedule_switch t rem x
  | KSleepIf n => sleep_if_need t n
  | KWait c w b1 b2 rem x => wait_ctx t c w b1 b2 rem x
  | KFinish c subs => finish c subs
  | KEnter w => enter_wait w
  | KWake w => wake w
  | KSetPrio c e => set_priority c e
  | KMonitor es s => monitor_round es s
  | KClean x => clean_round x
  | KCleanUp es n => set_clean_up es n
  | KEndEnv rem => end_env t rem
  | KInfo es ts => manager_info es ts
  | KTimer tm f => timer_round tm f
  | KRun tm u w => timer_run tm u w
  | KTimerQueue tm cmp => timer_queue tm cmp
  | KSleep w tm cmp rem x => sleep_until t w tm cmp rem x
  | KWaitFor c w tm cmp b1 b2 rem x => wait_ctx_for t c w tm cmp b1 b2 rem x
  | KCvUntil w tm cmp nx rem x => cv_wait_until t w tm cmp nx rem x
  end.

(** The coroutine and the environment in a wake-up. No counterpart in the code. *)
Definition wctx (w : wakee) : nat := fst (fst (fst w)).
(** See [wctx]. No counterpart in the code. *)
Definition wenv (w : wakee) : nat := snd (fst (fst w)).
(** Coroutines that exist already and that a call is about. No counterpart in the code. *)
Definition olds (k : call) : list nat :=
  match k with
  | KWait c w _ _ _ _ | KWaitFor c w _ _ _ _ _ _ => [c; w]
  | KFinish c subs => c :: map (fun s => wctx (snd s)) subs
  | KEnter w | KSleep w _ _ _ _ => [w]
  | KWake w => [wctx w]
  | KSetPrio c _ => [c]
  | KRun _ u w => wctx w :: match u with Some c => [c] | None => [] end
  | KCvUntil w _ _ nx _ _ => w :: match nx with Some x => [wctx x] | None => [] end
  | _ => []
  end.
(** The idle coroutine of an environment that get_best_env__ creates. No counterpart in the code. *)
Definition best_new (b : option (list nat * option (nat * nat))) : list nat :=
  match b with Some (_, Some (_, c)) => [c] | _ => [] end.
(** Coroutines that a call creates. No counterpart in the code. *)
Definition news (k : call) : list nat :=
  match k with
  | KEnv c | KCreateEnv _ c => [c]
  | KCreate c b _ => c :: best_new b
  | KTimer _ (Some (c, b, _, _)) => c :: best_new b
  | _ => []
  end.
(** The environments whose workload get_best_env__ reads. No counterpart in the code. *)
Definition best_envs (b : option (list nat * option (nat * nat))) : list nat := match b with Some (es, _) => es | None => [] end.
(** The environment that get_best_env__ creates. No counterpart in the code. *)
Definition best_env_new (b : option (list nat * option (nat * nat))) : list nat :=
  match b with Some (_, Some (e, _)) => [e] | _ => [] end.
(** Environments that exist already and that a call on thread t is about; the one a new coroutine goes to may be created by the
    call itself. No counterpart in the code. *)
Definition envs (t : nat) (k : call) : list nat :=
  match k with
  | KEnv _ => []
  | KCreateEnv _ _ | KEnter _ => []
  | KCreate _ b d => best_envs b ++ filter (fun e => negb (existsb (Nat.eqb e) (best_env_new b))) [d]
  | KTimer _ (Some (_, b, d, _)) => best_envs b ++ filter (fun e => negb (existsb (Nat.eqb e) (best_env_new b))) [d]
  | KTimer _ None | KTimerQueue _ _ => []
  | KYield _ _ | KSleepIf _ | KWait _ _ _ _ _ _ | KEndEnv _ | KSleep _ _ _ _ _ | KWaitFor _ _ _ _ _ _ _ _ => [t]
  | KCvUntil _ _ _ nx _ _ => t :: match nx with Some x => [wenv x] | None => [] end
  | KFinish _ subs => map (fun s => wenv (snd s)) subs
  | KWake w | KRun _ _ w => [wenv w]
  | KSetPrio _ e => match e with Some e => [e] | None => [] end
  | KMonitor es s => map fst es ++ match s with Some (a, b, c, d) => a ++ b ++ c ++ d | None => [] end
  | KClean x => match x with Some (es, _) => es | None => [] end
  | KCleanUp es _ => es
  | KInfo es _ => es
  end.

(** State: for each lock the activities that hold it, once per level, all on one thread; the part of count__ (co_env.h 26) that
    comes from preempt guards; what is still to be executed; the activity each thread executes; state__ == finished; who can
    reach an object; the activities inside a call about a coroutine (ghost, see [remove_ctx]); pending switch signals. *)
Record lst := mkL { lk : lock -> list agent; grd : nat -> nat; pr : agent -> prog; cur : nat -> agent; fin : nat -> bool;
  acc : obj -> access; use : nat -> list agent; sig : nat -> bool }.
(** Nothing has been created; no call has begun. *)
Definition linit : lst :=
  mkL (fun _ => []) (fun _ => 0) (fun _ => Ret) (fun t => AC t 0) (fun _ => false) (fun _ => ANone) (fun _ => []) (fun _ => false).

(** std::recursive_mutex::try_lock: free or held by the own thread. *)
Definition avail (s : lst) (a : agent) (l : lock) : bool :=
  match lk s l with [] => true | b :: _ => th b =? th a end.
(** co_recursive_mutex_with_count::count (co_env.cpp 770-799).  Simplification: the increment of a thread that is still waiting
    for the lock is not counted, which allows more switches than the code does. *)
Definition count (s : lst) (e : nat) : nat := grd s e + length (lk s (Sched e)).

(** Field updates. No counterpart in the code. *)
Definition with_lk (s : lst) (l : lock) (x : list agent) : lst :=
  mkL (fun y => if lock_eq y l then x else lk s y) (grd s) (pr s) (cur s) (fin s) (acc s) (use s) (sig s).
(** Field update. No counterpart in the code. *)
Definition with_grd (s : lst) (e n : nat) : lst := mkL (lk s) (upd (grd s) e n) (pr s) (cur s) (fin s) (acc s) (use s) (sig s).
(** Field update. No counterpart in the code. *)
Definition with_pr (s : lst) (a : agent) (p : prog) : lst :=
  mkL (lk s) (grd s) (fun y => if agent_eq y a then p else pr s y) (cur s) (fin s) (acc s) (use s) (sig s).
(** Field update. No counterpart in the code. *)
Definition with_cur (s : lst) (t : nat) (a : agent) : lst := mkL (lk s) (grd s) (pr s) (upd (cur s) t a) (fin s) (acc s) (use s) (sig s).
(** Field update. No counterpart in the code. *)
Definition with_fin (s : lst) (c : nat) : lst := mkL (lk s) (grd s) (pr s) (cur s) (upd (fin s) c true) (acc s) (use s) (sig s).
(** Field update. No counterpart in the code. *)
Definition with_acc (s : lst) (o : obj) (x : access) : lst :=
  mkL (lk s) (grd s) (pr s) (cur s) (fin s) (fun y => if obj_eq y o then x else acc s y) (use s) (sig s).
(** Field update. No counterpart in the code. *)
Definition with_use (s : lst) (u : nat -> list agent) : lst := mkL (lk s) (grd s) (pr s) (cur s) (fin s) (acc s) u (sig s).
(** Field update. No counterpart in the code. *)
Definition with_sig (s : lst) (e : nat) (b : bool) : lst := mkL (lk s) (grd s) (pr s) (cur s) (fin s) (acc s) (use s) (upd (sig s) e b).

(** One level of a recursive lock is taken. *)
Definition take (s : lst) (a : agent) (l : lock) : lst := with_lk s l (a :: lk s l).
(** Several locks are taken. *)
Fixpoint take_all (s : lst) (a : agent) (ls : list lock) : lst :=
  match ls with [] => s | l :: r => take_all (take s a l) a r end.
(** Removal of one occurrence. No counterpart in the code. *)
Fixpoint rem1 (a : agent) (xs : list agent) : list agent :=
  match xs with [] => [] | x :: r => if agent_eq x a then r else x :: rem1 a r end.
(** Membership. No counterpart in the code. *)
Definition has (a : agent) (xs : list agent) : bool := existsb (aeqb a) xs.

(** One operation of activity a. *)
Definition do_op (s : lst) (a : agent) (o : op) : option lst :=
  match o with
  | Acq l => if avail s a l then Some (take s a l) else None
  | All ls => if forallb (avail s a) ls then Some (take_all s a ls) else None
  | Rel l => if has a (lk s l) then Some (with_lk s l (rem1 a (lk s l))) else None
  | Inc => Some (with_grd s (th a) (S (grd s (th a))))
  | Dec => Some (with_grd s (th a) (pred (grd s (th a))))
  | New o => match acc s o with ANone => Some (with_acc s o (AMine a)) | _ => None end
  | Pub o => match acc s o with AMine b => if aeqb b a then Some (with_acc s o APub) else None | _ => None end
  | Retire c => match acc s (OC c), use s c with APub, [] => Some (with_acc s (OC c) (AMine a)) | _, _ => None end
  | SetFin c => Some (with_fin s c)
  | Send e => Some (with_sig s e true)
  | Park => Some s
  | Yield | Halt => None
  | Leave => Some (with_use s (fun c => filter (fun b => negb (aeqb b a)) (use s c)))
  end.
(** One step of activity a, which is the one its thread executes; a switch is a step of its own (LYield). *)
Definition step_of (s : lst) (a : agent) : option lst :=
  if aeqb (cur s (th a)) a then
    match pr s a with
    | Ret => None
    | Do o k => match do_op s a o with Some s1 => Some (with_pr s1 a k) | None => None end
    | Try l k1 k2 => if avail s a l then Some (with_pr (take s a l) a k1) else Some (with_pr s a k2)
    | IfFree e k1 k2 => Some (with_pr s a (if count s e =? 0 then k1 else k2))
    | Test c k1 k2 => Some (with_pr s a (if fin s c then k1 else k2))
    end
  else None.

(** Labels: activity a begins a call; makes a step; switches to b; the switch signal arrives on thread t, where the handler finds
    what x says. *)
Inductive llbl := LCall (a : agent) (k : call) | LStep (a : agent) | LYield (a b : agent) | LSig (t : nat) (x : sw).

(** Whether a coroutine or environment can be reached by everybody. No counterpart in the code. *)
Definition is_pub (s : lst) (o : obj) : bool := match acc s o with APub => true | _ => false end.
(** The transition function.  A call is about coroutines and environments that exist.  The handler (co_vos 142-165) gives up if
    count is not 0 or the schedule lock is taken by somebody else. *)
Definition lstep (s : lst) (l : llbl) : option lst :=
  match l with
  | LCall a k =>
      match a, pr s a with
      | AC t _, Ret =>
          if aeqb (cur s t) a && forallb (fun c => is_pub s (OC c)) (olds k) && forallb (fun e => is_pub s (OE e)) (envs t k)
          then Some (with_pr (with_use s (fun c => if existsb (Nat.eqb c) (olds k ++ news k) then a :: use s c else use s c)) a
                       (code t k (Do Leave Ret)))
          else None
      | _, _ => None
      end
  | LStep a => step_of s a
  | LYield a b =>
      match pr s a, b with
      | Do Yield k, AC t _ => if aeqb (cur s (th a)) a && (t =? th a) then Some (with_cur (with_pr s a k) t b) else None
      | _, _ => None
      end
  | LSig t x =>
      match cur s t with
      | AC _ _ =>
          if sig s t && (count s t =? 0) && avail s (AH t) (Sched t)
          then Some (with_pr (with_cur (with_sig (take s (AH t) (Sched t)) t false) t (AH t)) (AH t)
                       (prepare t x (Do (Rel (Sched t)) (Do Yield Ret))))
          else None
      | AH _ => None
      end
  end.
