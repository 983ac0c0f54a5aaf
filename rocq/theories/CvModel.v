(** Model of co_condition_variable (include/cocpp/sync/co_condition_variable.h 54-164,
    source/cocpp/sync/co_condition_variable.cpp 18-40) with one user lock, one step per access of shared memory.

    Simplifications: the user lock is an abstract mutual exclusion lock (lock() takes effect at once when the lock is
    free), which is what C01-C04 prove of co_mutex; timer->stop() does not wait for a callback that is already running
    (this only adds executions); the schedule lock taken by wait_until (line 93) is not part of this
    model (see C62). *)
From Coq Require Import List Arith Bool.
From Verif Require Import Base LinSpec CvSpec.
Import ListNotations.

(** Who can hold the spin lock of the condition variable: a client coroutine, or one of the coroutines that the timer
    thread creates to run a timer's callback (source/cocpp/core/co_manager.cpp 367-371). *)
Inductive agent := Th (t : tid) | Cb (a : nat).

(** Program counter of a client coroutine.  Line numbers are those of co_condition_variable.h (waits) and
    co_condition_variable.cpp (notifications). *)
Inductive pc :=
| Out
| PDo (o : cvop)               (* lock(), unlock(), a modification: about to take effect *)
| PTim (o : cvop)              (* 103 / 138: timer->start() *)
| W1 (o : cvop)                (* 59 / 78 / 105 / 142: cv_lock__.lock() *)
| W2 (o : cvop)                (* 61 / 79 / 107 / 144: waiters__.push_back(ctx) *)
| W3 (o : cvop)                (* 62 / 80 / 108 / 145: lock.unlock() *)
| W4 (o : cvop)                (* 63 / 81 / 109 / 146: enter_wait_resource_state *)
| W5 (o : cvop)                (* 64 / 82 / 110 / 147: cv_lock__.unlock() *)
| W6 (o : cvop)                (* 65 / 84 / 112 / 149: CoYield() *)
| W7 (o : cvop)                (* 66 / 86 / 114 / 151: lock.lock() *)
| W8 (o : cvop)                (* 67 / 87 / 115 / 152: the loop condition *)
| W9 (o : cvop)                (* 67 / 88 / 115-116 / 154-156: timer->stop(), the result *)
| N1 (o : cvop)                (* cpp 21 / 32: cv_lock__.lock() *)
| N2                           (* cpp 33-38: empty(), front(), pop_front() *)
| N3 (u : tid)                 (* cpp 39: leave_wait_resource_state *)
| A2 (l : list tid)            (* cpp 22-25: the loop; [l] is what the iterator has still to visit *)
| A3                           (* cpp 26: clear() *)
| N4 (o : cvop)                (* cpp 27 / 40: cv_lock__.unlock() *)
| PRet (o : cvop) (r : cvres). (* about to return r *)

(** Program counter of a callback (co_condition_variable.h 97-100 / 132-135): created for the waiter [t], not started;
    holding cv_lock__ before waiters__.remove; before timeout__ = true; before leave_wait_resource_state; before
    releasing cv_lock__. *)
Inductive cbpc := CNone | CReady (t : tid) | CRem (t : tid) | CFlag (t : tid) | CLeave (t : tid) | CRel.

Section Model.
  Variables (D : Type) (modf : nat -> D -> D) (pred : nat -> D -> bool).

  (** [cvl]: cv_lock__ (with its holder, ghost); [wq]: waiters__; [tmo]: timeout__ (co_condition_variable.h 29-31);
      [ulk]: the user lock; [dat]: the data it protects; [mk t]: the condition variable is in the set of resources t
      waits for (co_ctx.cpp 181-207); [tarm t]: the timer of t's current timed wait is queued. *)
  Record cst := mkC {
    cvl : option agent; wq : list tid; tmo : bool; ulk : option tid; dat : D; mk : tid -> bool;
    pcs : tid -> pc; tarm : tid -> bool; cbs : nat -> cbpc; hist : list cvev
  }.

  (** A fresh condition variable (co_condition_variable.h 29-31), the user lock free. *)
  Definition cinit (d : D) : cst :=
    mkC None [] false None d (fun _ => false) (fun _ => Out) (fun _ => false) (fun _ => CNone) [].

  (** Labels: a call; the next step of a coroutine; the deadline of t's timer passes and the timer thread creates the
      coroutine [a] for its callback (co_manager.cpp 367-371); the next step of callback [a]. *)
  Inductive lbl := Call (t : tid) (o : cvop) | Run (t : tid) | Fire (t : tid) (a : nat) | CbRun (a : nat).

  (** Start of a method. *)
  Definition entry (o : cvop) : pc :=
    match o with
    | OLock | OUnlock | OMod _ => PDo o
    | OWait | OWaitP _ => W1 o
    | OWaitU | OWaitUP _ => PTim o
    | ONotify1 | ONotifyAll => N1 o
    end.

  (** Assignments to the components of the state above; no code of their own. *)
  Definition set_pc (s : cst) (t : tid) (p : pc) : cst :=
    mkC (cvl s) (wq s) (tmo s) (ulk s) (dat s) (mk s) (upd (pcs s) t p) (tarm s) (cbs s) (hist s).
  (** See set_pc; cv_lock__ (co_condition_variable.h 29). *)
  Definition set_cvl (s : cst) (x : option agent) : cst :=
    mkC x (wq s) (tmo s) (ulk s) (dat s) (mk s) (pcs s) (tarm s) (cbs s) (hist s).
  (** See set_pc; waiters__ (co_condition_variable.h 30). *)
  Definition set_wq (s : cst) (x : list tid) : cst :=
    mkC (cvl s) x (tmo s) (ulk s) (dat s) (mk s) (pcs s) (tarm s) (cbs s) (hist s).
  (** See set_pc; timeout__ (co_condition_variable.h 31). *)
  Definition set_tmo (s : cst) (x : bool) : cst :=
    mkC (cvl s) (wq s) x (ulk s) (dat s) (mk s) (pcs s) (tarm s) (cbs s) (hist s).
  (** See set_pc; the lock of the user. *)
  Definition set_ulk (s : cst) (x : option tid) : cst :=
    mkC (cvl s) (wq s) (tmo s) x (dat s) (mk s) (pcs s) (tarm s) (cbs s) (hist s).
  (** See set_pc. *)
  Definition set_dat (s : cst) (x : D) : cst :=
    mkC (cvl s) (wq s) (tmo s) (ulk s) x (mk s) (pcs s) (tarm s) (cbs s) (hist s).
  (** See set_pc. *)
  Definition set_mk (s : cst) (t : tid) (x : bool) : cst :=
    mkC (cvl s) (wq s) (tmo s) (ulk s) (dat s) (upd (mk s) t x) (pcs s) (tarm s) (cbs s) (hist s).
  (** See set_pc. *)
  Definition set_tarm (s : cst) (t : tid) (x : bool) : cst :=
    mkC (cvl s) (wq s) (tmo s) (ulk s) (dat s) (mk s) (pcs s) (upd (tarm s) t x) (cbs s) (hist s).
  (** See set_pc. *)
  Definition set_cb (s : cst) (a : nat) (x : cbpc) : cst :=
    mkC (cvl s) (wq s) (tmo s) (ulk s) (dat s) (mk s) (pcs s) (tarm s) (upd (cbs s) a x) (hist s).
  (** Ghost history; no code. *)
  Definition log (s : cst) (e : cvev) : cst :=
    mkC (cvl s) (wq s) (tmo s) (ulk s) (dat s) (mk s) (pcs s) (tarm s) (cbs s) (e :: hist s).

  (** co_spinlock.cpp 12-18: enabled when the lock is free. *)
  Definition tas (s : cst) (a : agent) : option cst :=
    match cvl s with None => Some (set_cvl s (Some a)) | Some _ => None end.

  (** Loop condition of the waits: 87 and 152; wait(lock) and wait_until(lock, time) have none. *)
  Definition loops (s : cst) (o : cvop) : bool :=
    match o with
    | OWaitP k => negb (pred k (dat s))
    | OWaitUP k => negb (tmo s) && negb (pred k (dat s))
    | _ => false
    end.
  (** Result of a timed wait: 116 and 156. *)
  Definition result (s : cst) (o : cvop) : cvres :=
    match o with
    | OWaitU => RB (negb (tmo s))
    | OWaitUP k => RB (negb (tmo s) && pred k (dat s))
    | _ => ROk
    end.

  (** The method is about to return r (co_condition_variable.h 67, 88, 116, 156); the effect is recorded in the history. *)
  Definition fin (s : cst) (t : tid) (o : cvop) (r : cvres) : cst := log (set_pc s t (PRet o r)) (ELin t o r).

  (** One step of coroutine [t].  Notifications take effect when they get cv_lock__. *)
  Definition step_run (s : cst) (t : tid) : option cst :=
    match pcs s t with
    | Out => None
    | PDo OLock => match ulk s with None => Some (fin (set_ulk s (Some t)) t OLock ROk) | Some _ => None end
    | PDo OUnlock => Some (fin (set_ulk s None) t OUnlock ROk)
    | PDo (OMod m) => Some (fin (set_dat s (modf m (dat s))) t (OMod m) ROk)
    | PDo _ => None
    | PTim o => Some (set_pc (set_tarm s t true) t (W1 o))
    | W1 o => option_map (fun s => set_pc s t (W2 o)) (tas s (Th t))
    | W2 o => Some (set_pc (set_wq s (wq s ++ [t])) t (W3 o))
    | W3 o => Some (log (set_pc (set_ulk s None) t (W4 o)) (EAux t AEnter))
    | W4 o => Some (set_pc (set_mk s t true) t (W5 o))
    | W5 o => Some (set_pc (set_cvl s None) t (W6 o))
    (* the scheduler resumes only coroutines that wait for nothing (co_ctx.cpp 141-144) *)
    | W6 o => if mk s t then None else Some (set_pc s t (W7 o))
    | W7 o => match ulk s with
              | None => Some (log (set_pc (set_ulk s (Some t)) t (W8 o)) (EAux t AReacq))
              | Some _ => None
              end
    | W8 o => Some (set_pc s t (if loops s o then W1 o else W9 o))
    | W9 o => Some (fin (set_tarm s t false) t o (result s o))
    | N1 o => option_map (fun s1 => log (set_pc s1 t (match o with ONotifyAll => A2 (wq s) | _ => N2 end)) (ELin t o ROk))
                         (tas s (Th t))
    | N2 => match wq s with
            | [] => Some (set_pc s t (N4 ONotify1))
            | u :: r => Some (set_pc (set_wq s r) t (N3 u))
            end
    | N3 u => Some (set_pc (set_mk s u false) t (N4 ONotify1))
    | A2 [] => Some (set_pc s t A3)
    | A2 (u :: l) => Some (set_pc (set_mk s u false) t (A2 l))
    | A3 => Some (set_pc (set_wq s []) t (N4 ONotifyAll))
    | N4 o => Some (set_pc (set_cvl s None) t (PRet o ROk))
    | PRet o r => Some (log (set_pc s t Out) (ERet t o r))
    end.

  (** One step of callback [a]. *)
  Definition step_cb (s : cst) (a : nat) : option cst :=
    match cbs s a with
    | CNone => None
    | CReady t => option_map (fun s => set_cb s a (CRem t)) (tas s (Cb a))
    | CRem t => Some (log (set_cb (set_wq s (filter (fun u => negb (Nat.eqb u t)) (wq s))) a (CFlag t)) (EAux t ATimeout))
    | CFlag t => Some (set_cb (set_tmo s true) a (CLeave t))
    | CLeave t => Some (set_cb (set_mk s t false) a CRel)
    | CRel => Some (set_cb (set_cvl s None) a CNone)
    end.

  (** A step of the system: the lines given with the program counters and labels (co_condition_variable.h 55-165, co_condition_variable.cpp 18-40). *)
  Definition cstep (s : cst) (l : lbl) : option cst :=
    match l with
    | Call t o => match pcs s t with
                  | Out => if allowed (hist s) t o then Some (log (set_pc s t (entry o)) (ECall t o)) else None
                  | _ => None
                  end
    | Run t => step_run s t
    | Fire t a => match tarm s t, cbs s a with
                  | true, CNone => Some (log (set_cb (set_tarm s t false) a (CReady t)) (EAux t ADeadline))
                  | _, _ => None
                  end
    | CbRun a => step_cb s a
    end.
End Model.
