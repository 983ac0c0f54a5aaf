(** The accesses to memory made by co_condition_variable (include/cocpp/sync/co_condition_variable.h 54-164,
    source/cocpp/sync/co_condition_variable.cpp 18-40) and by the timers of its timed waits (source/cocpp/core/co_timer.cpp 57-79, 122-129,
    source/cocpp/core/co_manager.cpp 349-385, 493-505): [CvModel] with a trace. *)
From Coq Require Import List Arith Bool.
From Verif Require Import Base RaceSpec LinSpec CvSpec CvModel.
Import ListNotations.

(** What synchronises: cv_lock__ (co_condition_variable.h 29); the lock of the user; the lock of the set of awaited resources of a
    coroutine (co_ctx.cpp 141-207); mutex__ of a timer (co_timer.h 44); mu_timer_queue__ (co_manager.cpp 349-385, 493-505); the creation of
    the coroutine that runs a callback (co_manager.cpp 367-371).  Timers and callbacks have numbers of their own that are not used again. *)
Inductive vsync := VCv | VUser | VSet (t : tid) | VTim (k : nat) | VQueue | VStart (k : nat).
(** Ordinary objects: waiters__, timeout__ (co_condition_variable.h 30-31), the data that the user's lock protects. *)
Inductive vloc := VWaiters | VTimeout | VData.
(** Events of this model. No counterpart in the code. *)
Notation vev := (RaceSpec.ev vsync vloc).

(** Threads of the trace: the timer thread, the clients, the coroutines of callbacks (by their number). No counterpart in the code. *)
Definition v_timer : nat := 0.
(** As [v_timer]. *)
Definition v_client (t : tid) : nat := 2 * t + 2.
(** As [v_timer]. *)
Definition v_callback (k : nat) : nat := 2 * k + 1.

Section CvRace.
  Variables (D : Type) (modf : nat -> D -> D) (pred : nat -> D -> bool).

  (** [tmr t]: the number of the timer of t's current timed wait; [nam a]: the number of the coroutine of callback a; [cbt a]: the timer
      whose callback it is; [busy k]: mutex__ of timer k is held by its callback (co_timer.cpp 124); [nxt]: the next number (ghost, as are the
      numbers); [trc]: the trace, oldest first. *)
  Record vst := mkV { cv : cst D; nxt : nat; tmr : tid -> nat; nam : nat -> nat; cbt : nat -> nat; busy : nat -> bool; trc : list vev }.
  (** A fresh condition variable, nothing done. *)
  Definition vinit (d : D) : vst := mkV (cinit D d) 0 (fun _ => 0) (fun _ => 0) (fun _ => 0) (fun _ => false) [].

  (** start() of timer k, a new one (co_timer.cpp 57-67, co_manager.cpp 493-498). *)
  Definition start_ops (k : nat) : list (kind vsync vloc) := [KAcq (VTim k); KAcq VQueue; KRel VQueue; KRel (VTim k)].
  (** stop() of timer k; [q]: it is running (co_timer.cpp 69-79, co_manager.cpp 500-505). *)
  Definition stop_ops (k : nat) (q : bool) : list (kind vsync vloc) :=
    [KAcq (VTim k)] ++ (if q then [KAcq VQueue; KRel VQueue] else []) ++ [KRel (VTim k)].

  (** What the step of client t does to memory; the cases are those of [CvModel.step_run] and cite the same lines.  test_and_set is a
      read-modify-write with acq_rel, clear a store with release (co_spinlock.cpp 14, 22, 27).  Taking and giving back the lock of a set of
      awaited resources is one read-modify-write here.  [k]: the number of a timer that is created now. *)
  Definition veffects (s : vst) (t : tid) : list (kind vsync vloc) :=
    let c := cv s in
    match pcs D c t with
    | Out | PRet _ _ => []
    | PDo OLock => [KAcq VUser]
    | PDo OUnlock => [KRel VUser]
    | PDo (OMod _) => [KRd VData; KWr VData]
    | PDo _ => []
    | PTim _ => start_ops (nxt s)
    | W1 _ | N1 _ => [KUpd VCv]
    | W2 _ => [KRd VWaiters; KWr VWaiters]
    | W3 _ => [KRel VUser]
    | W4 _ | W6 _ => [KUpd (VSet t)]
    | W5 _ | N4 _ => [KRel VCv]
    | W7 _ => [KAcq VUser]
    (* 87; 152: !timeout__ && !pred() *)
    | W8 (OWaitP _) => [KRd VData]
    | W8 (OWaitUP _) => KRd VTimeout :: if tmo D c then [] else [KRd VData]
    | W8 _ => []
    (* 115-116; 154-156: timer->stop(), !timeout__ && pred() *)
    | W9 OWaitU => stop_ops (tmr s t) (tarm D c t) ++ [KRd VTimeout]
    | W9 (OWaitUP _) => stop_ops (tmr s t) (tarm D c t) ++ KRd VTimeout :: if tmo D c then [] else [KRd VData]
    | W9 _ => []
    | N2 => match wq D c with [] => [KRd VWaiters] | _ => [KRd VWaiters; KWr VWaiters] end
    | N3 u => [KUpd (VSet u)]
    | A2 [] => [KRd VWaiters]
    | A2 (u :: _) => [KRd VWaiters; KUpd (VSet u)]
    | A3 => [KWr VWaiters]
    end.

  (** What the step of callback a does to memory (co_manager.cpp 367-371, co_timer.cpp 122-129, co_condition_variable.h 97-100 / 132-135). *)
  Definition cb_effects (s : vst) (a : nat) : list (kind vsync vloc) :=
    match cbs D (cv s) a with
    | CNone => []
    | CReady _ => [KAcq (VStart (nam s a)); KAcq (VTim (cbt s a)); KUpd VCv]
    | CRem _ => [KRd VWaiters; KWr VWaiters]
    | CFlag _ => [KWr VTimeout]
    | CLeave t => [KUpd (VSet t)]
    | CRel => [KRel VCv; KRel (VTim (cbt s a))]
    end.

  (** Labels: those of [CvModel.lbl]; a failed test_and_set of a client, of a callback (co_spinlock.cpp 14-17). *)
  Inductive vlbl := VL (l : lbl) | VFail (t : tid) | VFailCb (a : nat).

  (** Coroutines that wait for cv_lock__ (co_spinlock.cpp 14-17). *)
  Definition wants (p : pc) : bool := match p with W1 _ | N1 _ => true | _ => false end.
  (** As [wants]. *)
  Definition cb_wants (p : cbpc) : bool := match p with CReady _ => true | _ => false end.
  (** cv_lock__ is taken. *)
  Definition taken (s : vst) : bool := match cvl D (cv s) with Some _ => true | None => false end.
  (** timer->stop() (co_condition_variable.h 115, 154) waits while the callback runs. *)
  Definition stop_waits (s : vst) (t : tid) : bool :=
    match pcs D (cv s) t with W9 o => is_timed o && busy s (tmr s t) | _ => false end.

  (** Steps.  When the deadline passes, the timer thread, which holds mu_timer_queue__, asks the timer whether it has expired, creates the
      coroutine and stops the timer (co_manager.cpp 363-375); simplification: it does this before the coroutine starts, and all at
      once. *)
  Definition vstep (s : vst) (l : vlbl) : option vst :=
    match l with
    | VL (Call t o) => option_map (fun c => mkV c (nxt s) (tmr s) (nam s) (cbt s) (busy s) (trc s)) (cstep D modf pred (cv s) (Call t o))
    | VL (Run t) =>
        if stop_waits s t then None
        else let tr := trc s ++ map (mkEv (v_client t)) (veffects s t) in
             option_map (fun c => match pcs D (cv s) t with
                                  | PTim _ => mkV c (S (nxt s)) (upd (tmr s) t (nxt s)) (nam s) (cbt s) (busy s) tr
                                  | _ => mkV c (nxt s) (tmr s) (nam s) (cbt s) (busy s) tr
                                  end) (cstep D modf pred (cv s) (Run t))
    | VL (Fire t a) =>
        let k := tmr s t in
        let tr := trc s ++ map (mkEv v_timer) ([KAcq VQueue; KAcq (VTim k); KRel (VTim k); KRel (VStart (nxt s)); KAcq (VTim k); KRel (VTim k); KRel VQueue]) in
        option_map (fun c => mkV c (S (nxt s)) (tmr s) (upd (nam s) a (nxt s)) (upd (cbt s) a k) (busy s) tr) (cstep D modf pred (cv s) (Fire t a))
    | VL (CbRun a) =>
        let tr := trc s ++ map (mkEv (v_callback (nam s a))) (cb_effects s a) in
        let b := match cbs D (cv s) a with CReady _ => upd (busy s) (cbt s a) true | CRel => upd (busy s) (cbt s a) false | _ => busy s end in
        option_map (fun c => mkV c (nxt s) (tmr s) (nam s) (cbt s) b tr) (cstep D modf pred (cv s) (CbRun a))
    | VFail t => if wants (pcs D (cv s) t) && taken s
                 then Some (mkV (cv s) (nxt s) (tmr s) (nam s) (cbt s) (busy s) (trc s ++ [mkEv (v_client t) (KUpd VCv)])) else None
    | VFailCb a => if cb_wants (cbs D (cv s) a) && taken s
                   then Some (mkV (cv s) (nxt s) (tmr s) (nam s) (cbt s) (busy s) (trc s ++ [mkEv (v_callback (nam s a)) (KUpd VCv)])) else None
    end.
End CvRace.
