(** Objects made of one co_mutex and some co_condition_variables, step by step: the co_mutex is the one of MutexModel.v (a step
    per access of its spin lock and per block under it), the condition variables are modelled with their spin locks
    (include/cocpp/sync/co_condition_variable.h 54-88, source/cocpp/sync/co_condition_variable.cpp 18-40), and every
    coroutine has its set of awaited resources (source/cocpp/core/co_ctx.cpp 181-207).  The methods are given as in
    Monitor.v by their segments: what they do to the data while they hold the mutex.  FineProps.v shows that every execution
    is matched by one of Monitor.v.

    Line numbers without a file name refer to co_condition_variable.h, those after cpp to co_condition_variable.cpp.

    Simplifications: the notifications of a segment come after its change of the data and before its end, in their order; a
    failed attempt at a spin lock (co_spinlock.cpp 12-18: yield and try again) is a step that is not enabled. *)
From Coq Require Import List Arith Bool.
From Verif Require Import Base LinSpec Monitor.
From Verif Require MutexSpec MutexModel.
Import ListNotations.
Set Implicit Arguments.

Section Fine.
  Variables (D Op Res Aux Loc : Type).

  (** How a segment ends, without its effects (Monitor.v [outcome]): return; cv.wait (54-88); unlock and lock. *)
  Inductive fin := ERe (r : Res) | EWa (c : nat) (l : Loc) | EAg (l : Loc).
  (** notify_one, notify_all (cpp 18-40): none; 32 done, at 33; at 39; 21 done, in the loop 22-25 with a rest; at 26; at 27/40. *)
  Inductive npc := N0 | N2 (c : nat) | N3 (c : nat) (u : tid) | A2 (c : nat) (l : list tid) | A3 (c : nat) | N4 (c : nat).
  (** wait (54-67, 70-88): at 59/78; at 61/79; in lock.unlock() (62/80); at 63/81; at 64/82; in CoYield (65/84). *)
  Inductive wpc := W1 | W2 | W3 | W4 | W5 | W6.
  (** A coroutine with respect to the object: outside; in mutex.lock(), coming from a wait on a condition variable or not (ghost);
      lock() has returned, before a segment; notifying, with notifications still to start; in mutex.unlock(); waiting;
      about to return. *)
  Inductive fpc :=
  | FOut
  | FLck (o : Op) (c : option nat) (l : Loc)
  | FSeg (o : Op) (c : option nat) (l : Loc)
  | FN (p : npc) (o : Op) (sg : list sig) (e : fin)
  | FUn (o : Op) (e : fin)
  | FW (p : wpc) (o : Op) (c : nat) (l : Loc)
  | FDone (o : Op) (r : Res).

  (** The mutex (MutexModel.v); the data; cv_lock__ with its holder (ghost) and waiters__ of each condition variable
      (co_condition_variable.h 29-30); the condition variables in the wait set of each coroutine (co_ctx.h 48-54; the mutex
      in it is [waiting] of MutexModel.v); program counters; ghost history. *)
  Record fst_ := mkF { mx : MutexModel.st; fdat : D; cvl : nat -> option tid; wq : nat -> list tid; ws : tid -> list nat;
                       fpcs : tid -> fpc; fhist : list (ev Op Res Aux) }.

  (** Everything unlocked and empty (co_mutex.h, co_condition_variable.h 29-30). *)
  Definition finit (d : D) : fst_ := mkF MutexModel.init d (fun _ => None) (fun _ => []) (fun _ => []) (fun _ => FOut) [].

  Variable entry : Op -> Loc.
  Variable body : tid -> Loc -> bool -> D -> outcome D Res Aux Loc.

  (** Assignments: program counter (the lines cited there). *)
  Definition setp (s : fst_) (t : tid) (p : fpc) : fst_ := mkF (mx s) (fdat s) (cvl s) (wq s) (ws s) (upd (fpcs s) t p) (fhist s).
  (** The mutex (co_mutex.cpp 17-108). *)
  Definition setm (s : fst_) (m : MutexModel.st) : fst_ := mkF m (fdat s) (cvl s) (wq s) (ws s) (fpcs s) (fhist s).
  (** cv_lock__ (co_spinlock.cpp 12-28). *)
  Definition setl (s : fst_) (c : nat) (x : option tid) : fst_ := mkF (mx s) (fdat s) (upd (cvl s) c x) (wq s) (ws s) (fpcs s) (fhist s).
  (** waiters__ (61, cpp 26, 38). *)
  Definition setq (s : fst_) (c : nat) (q : list tid) : fst_ := mkF (mx s) (fdat s) (cvl s) (upd (wq s) c q) (ws s) (fpcs s) (fhist s).
  (** The wait set (co_ctx.cpp 185, 196). *)
  Definition setw (s : fst_) (t : tid) (w : list nat) : fst_ := mkF (mx s) (fdat s) (cvl s) (wq s) (upd (ws s) t w) (fpcs s) (fhist s).
  (** Ghost history; no counterpart in the code. *)
  Definition logf (s : fst_) (h : list (ev Op Res Aux)) : fst_ := mkF (mx s) (fdat s) (cvl s) (wq s) (ws s) (fpcs s) h.

  (** enter_wait_resource_state (co_ctx.cpp 181-190), leave_wait_resource_state (co_ctx.cpp 192-207). *)
  Definition enter (s : fst_) (t : tid) (c : nat) : fst_ := setw s t (if existsb (Nat.eqb c) (ws s t) then ws s t else c :: ws s t).
  (** leave_wait_resource_state (co_ctx.cpp 192-207). *)
  Definition leave (s : fst_) (t : tid) (c : nat) : fst_ := setw s t (filter (fun x => negb (Nat.eqb c x)) (ws s t)).

  (** Call of a method of the mutex: 62, 66, 80, 86, constructors and destructors of scoped_lock and unique_lock. *)
  Definition mcall (s : fst_) (t : tid) (o : MutexSpec.mop) (p : fpc) : option fst_ :=
    match MutexModel.step (mx s) (MutexModel.Call t o) with Some m => Some (setp (setm s m) t p) | None => None end.
  (** The next step in a method of the mutex; [done] when it returns, nothing when it throws (co_mutex.cpp 93: the program
      ends).  A yield (co_mutex.cpp 37, 64) ends only if nothing at all is awaited (co_ctx.cpp 141-144). *)
  Definition mrun (s : fst_) (t : tid) (b : bool) (done : fst_ -> option fst_) : option fst_ :=
    let y := match MutexModel.pcs (mx s) t with MutexModel.LkYield | MutexModel.LkPark => match ws s t with [] => true | _ => false end
                                              | MutexModel.UnRet false => false
                                              | _ => true end in
    if y then
      match MutexModel.step (mx s) (MutexModel.Run t b) with
      | Some m => match MutexModel.pcs m t with
                  | MutexModel.Idle => done (setm s m)
                  | _ => Some (setm s m)
                  end
      | None => None
      end
    else None.
  (** co_spinlock.cpp 12-18. *)
  Definition take (s : fst_) (t : tid) (c : nat) (p : fpc) : option fst_ :=
    match cvl s c with None => Some (setp (setl s c (Some t)) t p) | Some _ => None end.

  (** One execution of a segment (the methods of the object). *)
  Definition seg (s : fst_) (t : tid) (o : Op) (l : Loc) (b : bool) : fst_ :=
    match body t l b (fdat s) with
    | ORet d xs sg r => mkF (mx s) d (cvl s) (wq s) (ws s) (upd (fpcs s) t (FN N0 o sg (ERe r))) (ELin t o r :: log_aux t xs (fhist s))
    | OWait d xs sg c l => mkF (mx s) d (cvl s) (wq s) (ws s) (upd (fpcs s) t (FN N0 o sg (EWa c l))) (log_aux t xs (fhist s))
    | OAgain d xs sg l => mkF (mx s) d (cvl s) (wq s) (ws s) (upd (fpcs s) t (FN N0 o sg (EAg l))) (log_aux t xs (fhist s))
    end.

  (** Notifications. *)
  Definition nstep (s : fst_) (t : tid) (p : npc) (o : Op) (sg : list sig) (e : fin) : option fst_ :=
    match p with
    | N0 => match sg with
            | SOne c :: r => take s t c (FN (N2 c) o r e)                   (* cpp 32 *)
            | SAll c :: r => take s t c (FN (A2 c (wq s c)) o r e)          (* cpp 21 *)
            | [] => match e with
                    | EWa c l => Some (setp s t (FW W1 o c l))
                    | _ => mcall s t MutexSpec.OUnlock (FUn o e)
                    end
            end
    | N2 c => match wq s c with                                           (* cpp 33-38 *)
              | [] => Some (setp s t (FN (N4 c) o sg e))
              | u :: r => Some (setp (setq s c r) t (FN (N3 c u) o sg e))
              end
    | N3 c u => Some (setp (leave s u c) t (FN (N4 c) o sg e))            (* cpp 39 *)
    | A2 c (u :: l) => Some (setp (leave s u c) t (FN (A2 c l) o sg e))   (* cpp 22-25 *)
    | A2 c [] => Some (setp s t (FN (A3 c) o sg e))
    | A3 c => Some (setp (setq s c []) t (FN (N4 c) o sg e))              (* cpp 26 *)
    | N4 c => Some (setp (setl s c None) t (FN N0 o sg e))                (* cpp 27, 40 *)
    end.
  (** wait. *)
  Definition wstep (s : fst_) (t : tid) (b : bool) (p : wpc) (o : Op) (c : nat) (l : Loc) : option fst_ :=
    match p with
    | W1 => take s t c (FW W2 o c l)                                                   (* 59 *)
    | W2 => mcall (setq s c (wq s c ++ [t])) t MutexSpec.OUnlock (FW W3 o c l)           (* 61 *)
    | W3 => mrun s t b (fun s => Some (setp s t (FW W4 o c l)))                          (* 62 *)
    | W4 => Some (setp (enter s t c) t (FW W5 o c l))                                  (* 63 *)
    | W5 => Some (setp (setl s c None) t (FW W6 o c l))                                (* 64 *)
    | W6 => match ws s t, MutexModel.waiting (mx s) t with                               (* 65-66 *)
            | [], false => mcall s t MutexSpec.OLock (FLck o (Some c) l)
            | _, _ => None
            end
    end.

  (** A call of a method; the next step of a coroutine, with the answer of the clock (in co_mutex.cpp 26 or in a segment). *)
  Inductive flbl := FCall (t : tid) (o : Op) | FRun (t : tid) (b : bool).
  (** One step; the lines are cited above. *)
  Definition fstep (s : fst_) (x : flbl) : option fst_ :=
    match x with
    | FCall t o => match fpcs s t with
                   | FOut => mcall (logf s (ECall t o :: fhist s)) t MutexSpec.OLock (FLck o None (entry o))
                   | _ => None
                   end
    | FRun t b =>
        match fpcs s t with
        | FOut => None
        | FLck o c l => mrun s t b (fun s => Some (setp s t (FSeg o c l)))
        | FSeg o c l => Some (seg s t o l b)
        | FN p o sg e => nstep s t p o sg e
        | FUn o e => mrun s t b (fun s => match e with
                                          | ERe r => Some (setp s t (FDone o r))
                                          | EAg l => mcall s t MutexSpec.OLock (FLck o None l)
                                          | EWa _ _ => None
                                          end)
        | FW p o c l => wstep s t b p o c l
        | FDone o r => Some (logf (setp s t FOut) (ERet t o r :: fhist s))
        end
    end.

  (** No coroutine inside can move. *)
  Definition fquiet (s : fst_) : Prop := forall t b, fstep s (FRun t b) = None.
End Fine.

Arguments FOut {Op Res Loc}.
Arguments FLck {Op Res Loc}.
Arguments FSeg {Op Res Loc}.
Arguments FN {Op Res Loc}.
Arguments FUn {Op Res Loc}.
Arguments FW {Op Res Loc}.
Arguments FDone {Op Res Loc}.
Arguments ERe {Res Loc}.
Arguments EWa {Res Loc}.
Arguments EAg {Res Loc}.
Arguments FCall {Op}.
Arguments FRun {Op}.
