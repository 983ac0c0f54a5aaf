(** Model of the life of environments under the manager and of its shutdown: source/cocpp/core/co_manager.cpp (create_env,
    create_env_from_this_thread__, current_env, remove_env__, set_clean_up__, the three background routines, the destructor),
    source/cocpp/core/co_env_factory.cpp (destroy_env) and the parts of source/cocpp/core/co_env.cpp that begin and end the
    scheduling of an environment.

    Simplifications.  Coroutines are not in this model: an environment schedules until it notices that it was told to stop,
    at any later time or never.  What the timer thread finds in its queue is given by the labels, as is what the monitor
    reclaims.  The sets of environments are recorded as the place of each environment; environments are numbered and their
    storage is never reused.  The lock of the set is free whenever the cleaner does not hold it, since every other critical
    section is one step.  Adding a coroutine to an environment that was chosen before is C43. *)
From Coq Require Import List Arith Bool.
From Verif Require Import Base ShutSpec.
Import ListNotations.

(** Where an environment is: in normal_set, in expired_set (co_manager.h 30-32), in neither (after clear, co_manager.cpp 215),
    deleted (co_env_factory.cpp 34). *)
Inductive place := Normal | Expired | Dropped | Freed.
(** Scheduling of an environment (co_env.cpp 388-420): none, in the loop, past remove_env__ but still publishing
    task_finished (418), over. *)
Inductive phase := PNone | PRun | PPub | PGone.
(** An environment: the thread it belongs to; whether it has a thread of its own (worker__, co_env.h 67; co_env.cpp 39-43);
    CO_ENV_FLAG_NO_SCHE_THREAD; state destroying; its scheduling; its place. *)
Record env := mkE { own : thr; wrk : bool; nos : bool; told : bool; ph : phase; pl : place }.
(** clean_env_routine__ (co_manager.cpp 197-226): before the lock; at the test (200); waiting (219); woken; in the loop over
    expired_set (221); in destroy_ctx within destroy_env (co_env_factory.cpp 35); ended. *)
Inductive cpc := CStart | CTest | CWait | CRelock | CLoop | CIdle | CEnd.
(** monitor_routine__ (336-346): at the test with the lock to be taken; sleeping; publishing; ended. *)
Inductive mpc := MTest | MSleep | MPub | MEnd.
(** timer_routine__ (348-385), mu_timer_queue__ held except while waiting: at the test (353); at the test of the queue (355);
    about to wait (357); waiting; at the second test (359); at the front timer (363); about to wait until (382); waiting
    until; ended. *)
Inductive tpc := RTest | REmpty | RPark | RWait | RCheck | RFront | RParkU | RWaitU | REnd.
(** ~co_manager (407-419): not called; waiting for the cleaner, the monitor, the timer thread; returned. *)
Inductive dpc := DNone | DCleaner | DMonitor | DTimer | DRet.

(** State: environments and their number; current_env__ of the client's threads (co_env.h 151) and of the cleaner; clean_up__;
    the background threads; the destructor; what happened (ghost). *)
Record sst := mkS { envs : nat -> env; next : nat; cur : nat -> option nat; ccur : option nat; clean : bool;
  cp : cpc; mp : mpc; tp : tpc; dp : dpc; hist : list sev }.
(** co_manager.cpp 144-149 and 107-118: the background threads start with the manager. *)
Definition sinit : sst := mkS (fun _ => mkE TDestroyer false false false PNone Freed) 0 (fun _ => None) None false CStart MTest RTest DNone [].

(** Field updates and events. No counterpart in the code. *)
Definition with_env (s : sst) (e : nat) (x : env) : sst :=
  mkS (upd (envs s) e x) (next s) (cur s) (ccur s) (clean s) (cp s) (mp s) (tp s) (dp s) (hist s).
(** Field update. No counterpart in the code. *)
Definition with_cur (s : sst) (n : nat) (x : option nat) : sst :=
  mkS (envs s) (next s) (upd (cur s) n x) (ccur s) (clean s) (cp s) (mp s) (tp s) (dp s) (hist s).
(** Field update. No counterpart in the code. *)
Definition with_ccur (s : sst) (x : option nat) : sst :=
  mkS (envs s) (next s) (cur s) x (clean s) (cp s) (mp s) (tp s) (dp s) (hist s).
(** Field update. No counterpart in the code. *)
Definition with_cp (s : sst) (x : cpc) : sst :=
  mkS (envs s) (next s) (cur s) (ccur s) (clean s) x (mp s) (tp s) (dp s) (hist s).
(** Field update. No counterpart in the code. *)
Definition with_mp (s : sst) (x : mpc) : sst :=
  mkS (envs s) (next s) (cur s) (ccur s) (clean s) (cp s) x (tp s) (dp s) (hist s).
(** Field update. No counterpart in the code. *)
Definition with_tp (s : sst) (x : tpc) : sst :=
  mkS (envs s) (next s) (cur s) (ccur s) (clean s) (cp s) (mp s) x (dp s) (hist s).
(** Field update. No counterpart in the code. *)
Definition with_dp (s : sst) (x : dpc) : sst :=
  mkS (envs s) (next s) (cur s) (ccur s) (clean s) (cp s) (mp s) (tp s) x (hist s).
(** An event happens (ghost). *)
Definition ev (s : sst) (v : sev) : sst :=
  mkS (envs s) (next s) (cur s) (ccur s) (clean s) (cp s) (mp s) (tp s) (dp s) (v :: hist s).

(** Whether the lock of the set is held by the cleaner (co_manager.cpp 199): from the lock to the wait or the end. *)
Definition locked (s : sst) : bool := match cp s with CTest | CLoop | CIdle => true | _ => false end.
(** Places compared. No counterpart in the code. *)
Definition place_eqb (a b : place) : bool :=
  match a, b with Normal, Normal | Expired, Expired | Dropped, Dropped | Freed, Freed => true | _, _ => false end.
(** normal_set or expired_set as the list of its members. *)
Definition at_place (s : sst) (p : place) : list nat := filter (fun e => place_eqb (pl (envs s e)) p) (seq 0 (next s)).

(** A new environment in normal_set: co_manager.cpp 87-102 with co_env_factory.cpp 14-26 and co_env.cpp 39-43, when it has a
    thread of its own; co_manager.cpp 161-167 with co_env_factory.cpp 43-55 and co_env.cpp 45-50, when made for thread t. *)
Definition add_env (s : sst) (t : thr) (w : bool) : sst :=
  let e := next s in
  let x := if w then mkE (TWorker e) true false false PRun Normal else mkE t false true false PNone Normal in
  mkS (upd (envs s) e x) (S e) (cur s) (ccur s) (clean s) (cp s) (mp s) (tp s) (dp s) (VMake t e w :: VMgr t :: hist s).

(** notify_one of cv_expired_env (co_manager.cpp 158, 194): the cleaner is the only thread that waits there. *)
Definition wake_cleaner (s : sst) : sst := match cp s with CWait => with_cp s CRelock | _ => s end.
(** notify_one of cv_timer_queue__ (195, 495, 502): the timer thread is the only one that waits there. *)
Definition wake_timer (s : sst) : sst :=
  match tp s with RWait => with_tp s RCheck | RWaitU => with_tp s RTest | _ => s end.

(** stop_schedule by thread t (co_env.cpp 349-357). *)
Definition tell (t : thr) (s : sst) (e : nat) : sst :=
  let x := envs s e in
  ev (with_env s e (mkE (own x) (wrk x) (nos x) (told x || negb (nos x)) (ph x) (pl x))) (VTold t e).
(** remove_env__ (co_manager.cpp 153-159), its lock taken by the caller. *)
Definition expire (s : sst) (e : nat) : sst :=
  let x := envs s e in
  wake_cleaner (ev (with_env s e (mkE (own x) (wrk x) (nos x) (told x) (ph x) Expired)) (VExp e)).
(** The body of the loops of set_clean_up__ (183-193) and of the cleaner (205-214). *)
Definition sweep1 (t : thr) (s : sst) (e : nat) : sst := if nos (envs s e) then expire s e else tell t s e.
(** The loops over a copy of normal_set. *)
Definition sweep (t : thr) (s : sst) : sst := fold_left (sweep1 t) (at_place s Normal) s.
(** normal_set.clear() (215). *)
Definition drop1 (s : sst) (e : nat) : sst :=
  let x := envs s e in with_env s e (mkE (own x) (wrk x) (nos x) (told x) (ph x) Dropped).
(** The whole of it. *)
Definition drop (s : sst) : sst := fold_left drop1 (at_place s Normal) s.

(** CoPreemptGuard() on the cleaner (co_define.h 118-127; co_ctx_factory.cpp 35; co_manager.cpp 169-176): the current environment
    of the thread, made if there is none, is used. *)
Definition guard_cleaner (s : sst) : sst :=
  match ccur s with
  | Some e => ev s (VUse TCleaner e)
  | None => let e := next s in ev (with_ccur (add_env s TCleaner false) (Some e)) (VUse TCleaner e)
  end.

(** Steps of the client: thread t makes an environment with its own thread (co_manager.cpp 87); thread n uses its current
    environment (169); it schedules there (co_env.cpp 422-429); a timer is started or stopped (491-503).
    Steps of environment e: it notices that it was told to stop (397) and publishes task_finished (418), that is
    remove_env__; the rest of pub and current_env__ = nullptr (419).
    Steps of the manager: the cleaner, with the member of expired_set it destroys; the monitor, with the environments it
    reclaims; the timer thread, with what it finds; the end of a timed wait; wake-ups without cause; the destructor. *)
Inductive slbl := LMake (t : thr) | LCur (n : nat) | LSched (n : nat) | LIns
  | LFin (e : nat) | LPub (e : nat)
  | LC | LFree (e : nat) | LM (l : list nat) | LT (b : bool) | LTimeout | LSpurC | LSpurT | LD.

(** Threads of the client, and coroutines on threads of environments, make environments (co_manager.cpp 89: not after clean-up,
    by assertion); the timer thread does too, when it creates a coroutine (369). *)
Definition maker (t : thr) : bool := match t with TUser _ | TWorker _ | TTimer => true | _ => false end.
(** destroy_redundant_env__ (313-334) only stops environments in normal_set that can be destroyed automatically (co_env.cpp
    441-445): with a thread of their own.  That they are idle and how many are too many is C43. *)
Definition reclaim1 (s : sst) (e : nat) : sst :=
  if place_eqb (pl (envs s e)) Normal && wrk (envs s e) && (e <? next s) then tell TMonitor s e else s.

(** clean_env_routine__ (197-226). *)
Definition cstep (s : sst) : option sst :=
  match cp s with
  | CStart => Some (ev (ev (with_cp s CTest) VReady) (VMgr TCleaner))
  | CTest =>
      if clean s then
        match at_place s Normal with
        | [] => Some (ev (with_cp s CEnd) (VMgr TCleaner))
        | _ => Some (ev (with_cp (drop (sweep TCleaner s)) CLoop) (VMgr TCleaner))
        end
      else Some (ev (with_cp s CWait) (VMgr TCleaner))
  | CRelock => Some (ev (with_cp s CLoop) (VMgr TCleaner))
  | CLoop => match at_place s Expired with [] => Some (ev (with_cp s CTest) (VMgr TCleaner)) | _ => None end
  | CIdle => Some (with_cp (guard_cleaner s) CLoop)
  | CWait | CEnd => None
  end.
(** destroy_env (co_env_factory.cpp 28-36): the destructor of worker__ (co_env.h 67) waits for the environment's thread. *)
Definition free (s : sst) (e : nat) : option sst :=
  let x := envs s e in
  match cp s, pl x with
  | CLoop, Expired =>
      if (e <? next s) && (negb (wrk x) || match ph x with PGone => true | _ => false end)
      then Some (ev (with_cp (with_env s e (mkE (own x) (wrk x) (nos x) (told x) (ph x) Freed)) CIdle) (VFree e))
      else None
  | _, _ => None
  end.
(** monitor_routine__ (336-346) with the callback of the timeout (120-142). *)
Definition mstep (s : sst) (l : list nat) : option sst :=
  match mp s with
  | MTest => if locked s then None else Some (ev (with_mp s (if clean s then MEnd else MSleep)) (VMgr TMonitor))
  | MSleep => Some (with_mp s MPub)
  | MPub => if locked s then None else Some (ev (with_mp (fold_left reclaim1 l s) MTest) (VMgr TMonitor))
  | MEnd => None
  end.
(** timer_routine__ (348-385). *)
Definition tstep (s : sst) (b : bool) : option sst :=
  match tp s with
  | RTest => Some (with_tp s (if clean s then REnd else REmpty))
  | REmpty => Some (with_tp s (if b then RPark else RCheck))
  | RPark => Some (with_tp s RWait)
  | RCheck => Some (with_tp s (if clean s then REnd else RFront))
  | RFront => Some (with_tp s (if b then RTest else RParkU))
  | RParkU => Some (with_tp s RWaitU)
  | RWait | RWaitU | REnd => None
  end.
(** ~co_manager (407-419) with set_clean_up__ (178-196). *)
Definition dstep (s : sst) : option sst :=
  match dp s with
  | DNone => if locked s then None else
      let s1 := ev (ev (mkS (envs s) (next s) (cur s) (ccur s) true (cp s) (mp s) (tp s) DCleaner (hist s)) VClean) (VMgr TDestroyer) in
      Some (wake_timer (wake_cleaner (sweep TDestroyer s1)))
  | DCleaner => match cp s with CEnd => Some (ev (with_dp s DMonitor) (VMgr TDestroyer)) | _ => None end
  | DMonitor => match mp s with MEnd => Some (ev (with_dp s DTimer) (VMgr TDestroyer)) | _ => None end
  | DTimer => match tp s with REnd => Some (ev (with_dp s DRet) VReturn) | _ => None end
  | DRet => None
  end.

(** All steps. *)
Definition sstep (s : sst) (l : slbl) : option sst :=
  match l with
  | LMake t => if locked s || clean s || negb (maker t) then None else Some (add_env s t true)
  | LCur n => match cur s n with
              | Some e => match ph (envs s e) with PPub => None | _ => Some (ev s (VUse (TUser n) e)) end
              | None => if locked s then None
                        else let e := next s in Some (ev (with_cur (add_env s (TUser n) false) n (Some e)) (VUse (TUser n) e))
              end
  | LSched n => match cur s n with
                | Some e => let x := envs s e in
                    if nos x then Some (ev (with_env s e (mkE (own x) (wrk x) false (told x) PRun (pl x))) (VUse (TUser n) e)) else None
                | None => None
                end
  | LIns => match tp s with RTest | REnd | RWait | RWaitU => Some (wake_timer s) | _ => None end
  | LFin e => let x := envs s e in
      match ph x with
      | PRun => if told x && negb (locked s) && (e <? next s)
                then let s1 := expire (with_env s e (mkE (own x) (wrk x) (nos x) (told x) PPub (pl x))) e in Some (ev s1 (VMgr (own x)))
                else None
      | _ => None
      end
  | LPub e => let x := envs s e in
      match ph x with
      | PPub => let s1 := with_env s e (mkE (own x) (wrk x) (nos x) (told x) PGone (pl x)) in
                let s2 := match own x with TUser n => with_cur s1 n None | _ => s1 end in
                Some (ev (ev s2 (VUse (own x) e)) (VEnd e))
      | _ => None
      end
  | LC => cstep s
  | LFree e => free s e
  | LM l => mstep s l
  | LT b => tstep s b
  | LTimeout => match tp s with RWaitU => Some (with_tp s RTest) | _ => None end
  | LSpurC => match cp s with CWait => Some (with_cp s CRelock) | _ => None end
  | LSpurT => match tp s with RWait => Some (with_tp s RCheck) | RWaitU => Some (with_tp s RTest) | _ => None end
  | LD => dstep s
  end.
