(** Model of the end of a coroutine (source/cocpp/core/co_ctx.cpp 65-83) against any number of calls of co_env::wait_ctx
    with and without time-out (source/cocpp/core/co_env.cpp 99-187) on it, the timers of the timed calls
    (source/cocpp/core/co_timer.cpp 57-79, 122-129, source/cocpp/core/co_manager.cpp 349-385) and their callbacks, at the
    granularity of lock operations.  Line numbers without a file name refer to co_env.cpp.

    Each call [j] is an agent of its own, made on a thread (env) [env j]; [timed j] says which of the two overloads it is.
    Simplifications.  The wait set of the caller (co_ctx.cpp 181-207) is represented by one bit per call: whether the resource
    the call put in is still there; that the caller is scheduled only when all resources are gone is C38.  Timers fire at
    any time after they have been started (time is an oracle here; C47-C49 are about the timer queue).  Locks that are
    taken and released without acquiring another one in between are one step. *)
From Coq Require Import List Arith Bool.
From Verif Require Import Base JoinSpec.
Import ListNotations.

(** The parties: the finishing coroutine (real_entry), a call of wait_ctx, the coroutine running the callback of the timer
    of call j (co_manager.cpp 366-370), the timer thread. *)
Inductive agent := AFin | ACall (j : nat) | ACb (j : nat) | ATim.
(** finish_lock__ of the target (co_ctx.h 40); schedule_lock__ of a thread (co_env.h); mu_cb_list__ of the event finished
    (co_event.h 21); mutex__ of the timer of call j (co_timer.h 48); mu_timer_queue__ (co_manager.h 47). *)
Inductive lock := LF | LS (e : nat) | LM | LT (j : nat) | LQ.
(** Equality of locks. No counterpart in the code. *)
Definition lock_eqb (a b : lock) : bool :=
  match a, b with
  | LF, LF | LM, LM | LQ, LQ => true
  | LS e, LS f => e =? f
  | LT i, LT j => i =? j
  | _, _ => false
  end.

(** real_entry: running the function; wants finish_lock__ (77); holds it (78); wants mu_cb_list__ (80, co_event.h 48); in
    the loop (co_event.h 49) with the callbacks still to call; in the callback of a timed call j (123-126): wants its timer
    mutex, holds it and wants mu_timer_queue__ (co_timer.cpp 77-78); leave_wait_resource_state of the caller of j (125,
    173): its critical section, its wake_up; done (82). *)
Inductive fpc := FRun | FLk | FSet | FPubL | FPub (r : list nat) | FT (j : nat) (r : list nat) | FQ (j : nat) (r : list nat)
               | FW (j : nat) (r : list nat) | FK (j : nat) (r : list nat) | FDone.
(** wait_ctx: not begun; wants finish_lock__ (113, 166); wants schedule_lock__ (114, 167); tests the state (116, 169); wants
    mu_cb_list__ for sub (123, 172); holds it; starts its timer (131): wants its mutex, holds it and wants the queue;
    unlock_schedule (133, 175); unlock_finished_state (134, 176); switched out before it by the preemption signal
    (co_vos_gcc_x86_64.cpp 142-165, which asks only that the schedule lock is not taken); switched out (135, 177); the other branch: 139 and 140, 181
    and 182; timed only: wants finish_lock__ (143), holds it (144-149); check_and_rethrow_exception reads exception__
    (co_ctx.cpp 133-135); clears it and rethrows (136-137); returned. *)
Inductive cpc := C0 | C1 | C2 | C3 | C4 | C5 | C6 | C7 | C8 | C8b | C8p | CP | C9 | C9b | CG | CG2 | CE | CE2 (e : nat) | CD.
(** Callback of the timer of call j (127-130): not created; wants the timer mutex (co_timer.cpp 124); holds it and wants
    mu_cb_list__ for unsub (128); leave_wait_resource_state (129): critical section, wake_up; done. *)
Inductive bpc := BN | B1 | B2 | B3 | B4 | BD.
(** timer_routine__: holds nothing; holds mu_timer_queue__ and wants the mutex of timer j for is_expired (co_manager.cpp
    364); has created the callback coroutine and wants it for stop (373). *)
Inductive rpc := RI | RT (j : nat) | RS (j : nat).
(** Status of the timer of call j (co_timer.h 30-34): not created, running, stopped. *)
Inductive tstat := TN | TR | TS.

(** Owners of the locks; state__ == finished; exception__ and ret__ (co_ctx.h); cb_list__ of the event, as call numbers in
    order of their handles; whether the resource of call j is in the wait set of its caller; timers; the agents; priority of
    the caller of j and the value saved by the call (107, 161); whether the target has been destroyed; the calls
    switched out by the preemption signal between lines 133 and 134 (175 and 176), whose thread keeps finish_lock__; ghost
    history. *)
Record jst := mkJ { own : lock -> option agent; fin : bool; exc : option nat; ret : option nat; subs : list nat; wt : nat -> bool;
                    tst : nat -> tstat; fp : fpc; cp : nat -> cpc; bp : nat -> bpc; rp : rpc; pri : nat -> nat;
                    sv : nat -> nat; freed : bool; pend : list nat; jh : jhist }.

(** The target runs, nobody waits; [p0] are the priorities of the callers. *)
Definition jinit (p0 : nat -> nat) : jst :=
  mkJ (fun _ => None) false None None [] (fun _ => false) (fun _ => TN) FRun (fun _ => C0) (fun _ => BN) RI p0 (fun _ => 0) false [] [].

(** Configuration: which calls have a time-out; the thread of the caller; the priority of the target (108, 162);
    the thread of the target. *)
Record jcfg := mkCfg { timed : nat -> bool; env : nat -> nat; tprio : nat; tenv : nat }.

(** Lock and unlock of a std::mutex or std::recursive_mutex by a thread that does not hold it. *)
Definition is_free (s : jst) (l : lock) : bool := match own s l with None => true | Some _ => false end.
(** finish_lock__ for a coroutine of thread e: it is a std::recursive_mutex (co_ctx.h 40), which belongs to threads, so that
    preempted holders on the same thread do not count.  Simplification: preemption of a holder that is not in a wait is not
    represented; such a holder goes on by itself, and the order of the critical sections is the same. *)
Definition lf_free (c : jcfg) (s : jst) (e : nat) : bool := is_free s LF && forallb (fun j => env c j =? e) (pend s).
(** Assignment of the owner of a lock. *)
Definition setown (s : jst) (l : lock) (o : option agent) : jst :=
  mkJ (fun x => if lock_eqb x l then o else own s x) (fin s) (exc s) (ret s) (subs s) (wt s) (tst s) (fp s) (cp s) (bp s) (rp s)
      (pri s) (sv s) (freed s) (pend s) (jh s).
(** Program counters of the four parties (lines as at their types). *)
Definition setf (s : jst) (p : fpc) : jst :=
  mkJ (own s) (fin s) (exc s) (ret s) (subs s) (wt s) (tst s) p (cp s) (bp s) (rp s) (pri s) (sv s) (freed s) (pend s) (jh s).
(** See setf. *)
Definition setc (s : jst) (j : nat) (p : cpc) : jst :=
  mkJ (own s) (fin s) (exc s) (ret s) (subs s) (wt s) (tst s) (fp s) (upd (cp s) j p) (bp s) (rp s) (pri s) (sv s) (freed s) (pend s) (jh s).
(** See setf. *)
Definition setb (s : jst) (j : nat) (p : bpc) : jst :=
  mkJ (own s) (fin s) (exc s) (ret s) (subs s) (wt s) (tst s) (fp s) (cp s) (upd (bp s) j p) (rp s) (pri s) (sv s) (freed s) (pend s) (jh s).
(** See setf. *)
Definition setr (s : jst) (p : rpc) : jst :=
  mkJ (own s) (fin s) (exc s) (ret s) (subs s) (wt s) (tst s) (fp s) (cp s) (bp s) p (pri s) (sv s) (freed s) (pend s) (jh s).
(** enter_wait_resource_state / leave_wait_resource_state of the caller of j for the resource of call j (co_ctx.cpp 183-187,
    194-201). *)
Definition setw (s : jst) (j : nat) (b : bool) : jst :=
  mkJ (own s) (fin s) (exc s) (ret s) (subs s) (upd (wt s) j b) (tst s) (fp s) (cp s) (bp s) (rp s) (pri s) (sv s) (freed s) (pend s) (jh s).
(** status__ of the timer of j (co_timer.cpp 65, 77). *)
Definition sett (s : jst) (j : nat) (t : tstat) : jst :=
  mkJ (own s) (fin s) (exc s) (ret s) (subs s) (wt s) (upd (tst s) j t) (fp s) (cp s) (bp s) (rp s) (pri s) (sv s) (freed s) (pend s) (jh s).
(** cb_list__ (co_event.h 34, 42). *)
Definition setsubs (s : jst) (l : list nat) : jst :=
  mkJ (own s) (fin s) (exc s) (ret s) l (wt s) (tst s) (fp s) (cp s) (bp s) (rp s) (pri s) (sv s) (freed s) (pend s) (jh s).
(** exception__, ret__ (co_ctx.cpp 69, 73, 136). *)
Definition setres (s : jst) (e r : option nat) : jst :=
  mkJ (own s) (fin s) e r (subs s) (wt s) (tst s) (fp s) (cp s) (bp s) (rp s) (pri s) (sv s) (freed s) (pend s) (jh s).
(** Priority of the caller of j and the saved value (107-109, 161-164). *)
Definition setpri (s : jst) (j p v : nat) : jst :=
  mkJ (own s) (fin s) (exc s) (ret s) (subs s) (wt s) (tst s) (fp s) (cp s) (bp s) (rp s) (upd (pri s) j p) (upd (sv s) j v) (freed s) (pend s) (jh s).
(** Calls preempted while their thread holds finish_lock__ (133-134, 175-176). *)
Definition setpend (s : jst) (l : list nat) : jst :=
  mkJ (own s) (fin s) (exc s) (ret s) (subs s) (wt s) (tst s) (fp s) (cp s) (bp s) (rp s) (pri s) (sv s) (freed s) l (jh s).
(** Ghost history. *)
Definition jlog (e : jev) (s : jst) : jst :=
  mkJ (own s) (fin s) (exc s) (ret s) (subs s) (wt s) (tst s) (fp s) (cp s) (bp s) (rp s) (pri s) (sv s) (freed s) (pend s) (e :: jh s).
(** set_state(finished) (co_ctx.cpp 78). *)
Definition setfin (s : jst) : jst :=
  mkJ (own s) true (exc s) (ret s) (subs s) (wt s) (tst s) (fp s) (cp s) (bp s) (rp s) (pri s) (sv s) (freed s) (pend s) (jh s).
(** Destruction of the target (co_env.cpp 339). *)
Definition setfreed (s : jst) : jst :=
  mkJ (own s) (fin s) (exc s) (ret s) (subs s) (wt s) (tst s) (fp s) (cp s) (bp s) (rp s) (pri s) (sv s) true (pend s) (jh s).

(** The result stored by real_entry (co_ctx.cpp 67-74), in the form of the specification. *)
Definition result (s : jst) : res := match exc s with Some e => Thr e | None => RetV (ret s) end.
(** The call returns or throws; CoDefer restores the priority (109, 164). *)
Definition leave (s : jst) (j : nat) (r : cres) : jst := jlog (HRet j r) (setpri (setc s j CD) j (sv s j) (sv s j)).

(** Labels: the function ends; the finishing coroutine goes on; call j begins; goes on; the callback coroutine of j goes on;
    the timer of j is found expired; the timer thread goes on; the preemption signal hits call j;
    the target is destroyed (by then the handle has been
    released, so no call is in progress). *)
Inductive jlbl := LEnd (r : res) | LFin | LCall (j : nat) | LStep (j : nat) | LCb (j : nat) | LTim (j : nat) | LTs | LPre (j : nat) | LFree.
(** [JFreed]: a callback uses the destroyed target. *)
Inductive jres := JOk (s : jst) | JFreed.

(** If the lock is free: take it and go on. *)
Definition take (s : jst) (l : lock) (a : agent) (s' : jst -> jst) : option jres :=
  if is_free s l then Some (JOk (s' (setown s l (Some a)))) else None.
(** The same for finish_lock__, on thread e (co_ctx.cpp 209-217). *)
Definition takef (c : jcfg) (s : jst) (e : nat) (a : agent) (s' : jst -> jst) : option jres :=
  if lf_free c s e then Some (JOk (s' (setown s LF (Some a)))) else None.
(** If the lock is free: take it, do something, release it. *)
Definition during (s : jst) (l : lock) (s' : jst) : option jres := if is_free s l then Some (JOk s') else None.

(** real_entry (co_ctx.cpp 65-83). *)
Definition fstep (c : jcfg) (s : jst) : option jres :=
  match fp s with
  | FRun => None
  | FLk => takef c s (tenv c) AFin (fun s => setf s FSet)
  | FSet => Some (JOk (jlog (HFin (result s)) (setown (setf (setfin s) FPubL) LF None)))
  | FPubL => take s LM AFin (fun s => setf s (FPub (subs s)))
  | FPub [] => Some (JOk (setown (setf s FDone) LM None))
  | FPub (j :: r) => Some (JOk (setf s (if timed c j then FT j r else FW j r)))
  | FT j r => match tst s j with
              | TR => take s (LT j) AFin (fun s => setf (sett s j TS) (FQ j r))
              | _ => during s (LT j) (setf s (FW j r))
              end
  | FQ j r => during s LQ (setown (setf s (FW j r)) (LT j) None)
  | FW j r => Some (JOk (setf (setw s j false) (FK j r)))
  | FK j r => during s (LS (env c j)) (setf s (FPub r))
  | FDone => None
  end.
(** wait_ctx (99-187). *)
Definition cstep (c : jcfg) (s : jst) (j : nat) : option jres :=
  match cp s j with
  | C0 => None
  | C1 => takef c s (env c j) (ACall j) (fun s => setc s j C2)
  | C2 => take s (LS (env c j)) (ACall j) (fun s => setc s j C3)
  | C3 => Some (JOk (if fin s then setc s j C9 else setc (setw s j true) j C4))
  | C4 => take s LM (ACall j) (fun s => setc s j C5)
  | C5 => Some (JOk (setown (setc (setsubs s (subs s ++ [j])) j (if timed c j then C6 else C8)) LM None))
  | C6 => take s (LT j) (ACall j) (fun s => setc s j C7)
  | C7 => during s LQ (setown (setc (sett s j TR) j C8) (LT j) None)
  | C8 => Some (JOk (setown (setc s j C8b) (LS (env c j)) None))
  | C8b => Some (JOk (setown (setc s j CP) LF None))
  | C8p => if wt s j then None
           else Some (JOk (setc (setpend s (filter (fun x => negb (j =? x)) (pend s))) j CP))
  | CP => if wt s j then None else Some (JOk (setc s j (if timed c j then CG else CE)))
  | C9 => Some (JOk (setown (setc s j C9b) (LS (env c j)) None))
  | C9b => Some (JOk (setown (setc s j (if timed c j then CG else CE)) LF None))
  | CG => takef c s (env c j) (ACall j) (fun s => setc s j CG2)
  | CG2 => let s1 := jlog (HSee j (fin s)) (setown s LF None) in
           Some (JOk (if fin s then setc s1 j CE else leave s1 j RNone))
  | CE => Some (JOk (match exc s with
                     | Some e => jlog (HGot j) (setc s j (CE2 e))
                     | None => leave s j (RVal (ret s))
                     end))
  | CE2 e => Some (JOk (leave (setres s None (ret s)) j (RExc e)))
  | CD => None
  end.
(** The callback of the timer of call j (127-130) under co_timer::run (co_timer.cpp 122-129). *)
Definition bstep (c : jcfg) (s : jst) (j : nat) : option jres :=
  match bp s j with
  | BN => None
  | B1 => take s (LT j) (ACb j) (fun s => setb s j B2)
  | B2 => if freed s then Some JFreed
          else during s LM (setb (setsubs s (filter (fun x => negb (j =? x)) (subs s))) j B3)
  | B3 => Some (JOk (setb (setw s j false) j B4))
  | B4 => during s (LS (env c j)) (setown (setb s j BD) (LT j) None)
  | BD => None
  end.
(** timer_routine__ (co_manager.cpp 349-385). *)
Definition rstep (s : jst) : option jres :=
  match rp s with
  | RI => None
  | RT j => during s (LT j) (jlog (HExp j) (setr (setb s j B1) (RS j)))
  | RS j => during s (LT j) (setown (setr (sett s j TS) RI) LQ None)
  end.
(** Number of calls in progress, from the ghost history (guard of the destruction of the target: the program keeps the handle
    while a call on it is in progress). *)
Fixpoint open_calls (h : jhist) : nat :=
  match h with
  | [] => 0
  | HCall _ :: r => S (open_calls r)
  | HRet _ _ :: r => pred (open_calls r)
  | _ :: r => open_calls r
  end.
(** All steps (lines as cited at the functions called); LEnd: co_ctx.cpp 67-74; LPre: co_vos_gcc_x86_64.cpp
    142-165; LFree: co_env.cpp 339. *)
Definition jstep (c : jcfg) (s : jst) (l : jlbl) : option jres :=
  match l with
  | LEnd r => match fp s with
              | FRun => Some (JOk (setf (setres s (match r with Thr e => Some e | _ => None end)
                                                  (match r with RetV v => v | _ => None end)) FLk))
              | _ => None
              end
  | LFin => fstep c s
  | LCall j => match cp s j, freed s with
               | C0, false => Some (JOk (jlog (HCall j) (setpri (setc s j C1) j (tprio c) (pri s j))))
               | _, _ => None
               end
  | LStep j => cstep c s j
  | LCb j => bstep c s j
  | LTim j => match rp s, tst s j with
              | RI, TR => take s LQ ATim (fun s => setr s (RT j))
              | _, _ => None
              end
  | LTs => rstep s
  | LPre j => match cp s j with
              | C8b => Some (JOk (setown (setpend (setc s j C8p) (j :: pend s)) LF None))
              | _ => None
              end
  | LFree => match fp s, open_calls (jh s), freed s with
             | FDone, 0, false => Some (JOk (setfreed s))
             | _, _, _ => None
             end
  end.
(** A step without access to destroyed memory. *)
Definition jstep_ok (c : jcfg) (s : jst) (l : jlbl) : option jst := match jstep c s l with Some (JOk s') => Some s' | _ => None end.
