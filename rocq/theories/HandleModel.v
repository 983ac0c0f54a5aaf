(** Model of the handle class co (source/cocpp/co/co.cpp, include/cocpp/co/co_co.h) and of the reclamation of coroutines
    (source/cocpp/core/co_env.cpp 201-214, 331-340, 415, 429-434).  Any number of handles and coroutines.

    Simplifications.  What happens between the calls is C32 (wait) and C36-C40 (scheduling); here a wait ends some time after
    the coroutine has finished.  A handle is an ordinary object: the program uses it from one place at a time, except that
    any number of coroutines may be in wait() on it; it is not joined, detached, moved or destroyed meanwhile. *)
From Coq Require Import List Arith Bool.
From Verif Require Import Base HandleSpec.
Import ListNotations.

(** Handle objects: none, empty (ctx__ == nullptr), with a coroutine, in join() called by the program, by the destructor, by
    the move assignment from another handle (co.cpp 31-34, 41-62, 70-79). *)
Inductive jkind := KJoin | KDtor | KAssign (src : nat).
(** The handle objects, as said above (co.cpp 31-34, 41-62, 70-79; ctx__ in co_co.h). *)
Inductive hobj := ONone | OEmpty | OCtx (c : nat) | OJoin (c : nat) (k : jkind).
(** Coroutines: not made, alive, destroyed; fields of co_ctx: state__ == finished, exception__ (co_ctx.h), the flag
    CO_CTX_FLAG_LOCKED (co_ctx.cpp 146-159); whether it is curr_ctx__ of its thread. *)
Record ctx := mkX { made_ : bool; dead : bool; done : bool; exc : bool; lck : bool; crr : bool }.
(** Handles, coroutines, for each coroutine the number of calls of wait() in progress, ghost history. *)
Record hst := mkH { ob : nat -> hobj; cx : nat -> ctx; wts : nat -> nat; hh : hhist }.
(** Nothing exists. *)
Definition hinit : hst := mkH (fun _ => ONone) (fun _ => mkX false false false false false false) (fun _ => 0) [].
(** Assignments to the parts of the state (lines at the users). *)
Definition seto (s : hst) (h : nat) (o : hobj) : hst := mkH (upd (ob s) h o) (cx s) (wts s) (hh s).
(** See seto. *)
Definition setx (s : hst) (c : nat) (x : ctx) : hst := mkH (ob s) (upd (cx s) c x) (wts s) (hh s).
(** See seto. *)
Definition setw (s : hst) (c n : nat) : hst := mkH (ob s) (cx s) (upd (wts s) c n) (hh s).
(** Ghost history. *)
Definition hlog (e : hev) (s : hst) : hst := mkH (ob s) (cx s) (wts s) (e :: hh s).
(** co_ctx::unlock_destroy (co_ctx.cpp 156-159). *)
Definition unlock_destroy (s : hst) (c : nat) : hst :=
  let x := cx s c in setx s c (mkX (made_ x) (dead x) (done x) (exc x) false (crr x)).
(** check_and_rethrow_exception (co_ctx.cpp 131-139): the stored exception is cleared. *)
Definition clear_exc (s : hst) (c : nat) : hst :=
  let x := cx s c in setx s c (mkX (made_ x) (dead x) (done x) false (lck x) (crr x)).
(** co_ctx_factory::destroy_ctx (co_ctx_factory.cpp 34-45). *)
Definition destroy (s : hst) (c : nat) : hst :=
  let x := cx s c in hlog (AKill c) (setx s c (mkX (made_ x) true (done x) (exc x) (lck x) (crr x))).

(** Labels: a handle is constructed with coroutine c; default of a moved-from target: move construction; move assignment;
    join(); destructor; detach(); the end of a join in progress; wait<T>() or wait_for() begins, ends; the thread of c
    switches to it or away; its function ends; it is reclaimed by remove_detached_ctx__; its thread is shut down. *)
Inductive hlbl := LNew (h c : nat) | LMoveC (d s : nat) | LMoveA (d s : nat) | LJoin (h : nat) | LDtor (h : nat) | LDetach (h : nat)
                | LJoinEnd (h : nat) | LWait (h : nat) | LWaitEnd (c : nat) | LRun (c : nat) | LStop (c : nat) | LEnd (c : nat) (e : bool)
                | LReap (c : nat) | LShut (c : nat).
(** Outcomes: a state; use of a destroyed coroutine; std::terminate (an exception leaves a noexcept function); a null
    pointer is dereferenced, or the exception "can't wait self" is thrown (co_env.cpp 101-104 with curr_ctx__ == nullptr). *)
Inductive hres := HOk (s : hst) | HFreed | HTerm | HNull.
(** Every access to a coroutine goes through this check. *)
Definition use (s : hst) (c : nat) (r : hres) : hres := if dead (cx s c) then HFreed else r.
(** detach and the last part of join: the handle is emptied, then the coroutine is unlocked (co.cpp 17-19, 54-56). *)
Definition give (s : hst) (h c : nat) : hst := unlock_destroy (hlog (AGive h) (seto s h OEmpty)) c.
(** Contents of a handle go over (co.cpp 66-67, 75-76). *)
Definition transfer (s : hst) (d src : nat) (o : hobj) : hst := hlog (AMove d src) (seto (seto s src OEmpty) d o).
(** Whether a handle can be used by an operation now: it exists and is not in a join. *)
Definition still (s : hst) (o : hobj) : bool :=
  match o with OEmpty => true | OCtx c => wts s c =? 0 | _ => false end.

(** All operations (lines as cited). *)
Definition hstep (s : hst) (l : hlbl) : option hres :=
  match l with
  | LNew h c => (* co_co.h 103-126; co_manager.cpp 421-439: lock_destroy before add_ctx *)
      match ob s h with
      | ONone => if made_ (cx s c) then None
                 else Some (HOk (hlog (ANew h c) (setx (seto s h (OCtx c)) c (mkX true false false false true false))))
      | _ => None
      end
  | LMoveC d src => (* co.cpp 64-68 *)
      match ob s d with
      | ONone => if still s (ob s src) then Some (HOk (transfer s d src (ob s src))) else None
      | _ => None
      end
  | LMoveA d src => (* co.cpp 70-79 *)
      if still s (ob s d) && still s (ob s src) then
        if d =? src then Some (HOk s)
        else match ob s d with
             | OCtx c => Some (use s c (HOk (seto s d (OJoin c (KAssign src)))))
             | _ => Some (HOk (transfer s d src (ob s src)))
             end
      else None
  | LJoin h => (* co.cpp 41-62, co_co.h 146-154 *)
      match ob s h with
      | OCtx c => if wts s c =? 0 then Some (use s c (HOk (seto s h (OJoin c KJoin)))) else None
      | OEmpty => Some (HOk s)
      | _ => None
      end
  | LDtor h => (* co.cpp 31-34 *)
      match ob s h with
      | OCtx c => if wts s c =? 0 then Some (use s c (HOk (seto s h (OJoin c KDtor)))) else None
      | OEmpty => Some (HOk (seto s h ONone))
      | _ => None
      end
  | LDetach h => (* co.cpp 11-20 *)
      match ob s h with
      | OCtx c => if wts s c =? 0 then Some (use s c (HOk (give s h c))) else None
      | OEmpty => Some (HOk s)
      | _ => None
      end
  | LJoinEnd h => (* the wait ends (co_env.cpp 185-186), then co.cpp 52-61 and the rest of the caller *)
      match ob s h with
      | OJoin c k =>
          if done (cx s c) then
            let s1 := give (clear_exc s c) h c in
            match k with
            | KJoin => Some (use s c (HOk s1))
            | KDtor => Some (use s c (if exc (cx s c) then HTerm else HOk (seto s1 h ONone)))
            | KAssign src => (* meanwhile the program leaves the source alone *)
                if still s (ob s src)
                then Some (use s c (if exc (cx s c) then HTerm else HOk (transfer s1 h src (ob s src)))) else None
            end
          else None
      | _ => None
      end
  | LWait h => (* co_co.h 140-144, 156-160 *)
      match ob s h with
      | OCtx c => Some (use s c (HOk (setw s c (S (wts s c)))))
      | OEmpty => Some HNull
      | _ => None
      end
  | LWaitEnd c => (* co_env.cpp 143-152, 185-186 *)
      match wts s c with
      | S n => if done (cx s c) then Some (use s c (HOk (clear_exc (setw s c n) c))) else None
      | 0 => None
      end
  | LRun c => (* co_env.cpp 230-238, 527-548: never a finished coroutine *)
      let x := cx s c in
      if made_ x && negb (dead x) && negb (done x) && negb (crr x)
      then Some (HOk (hlog (ARun c) (setx s c (mkX true false false (exc x) (lck x) true)))) else None
  | LStop c => (* co_env.cpp 241-294 *)
      let x := cx s c in
      if crr x then Some (use s c (HOk (hlog (AStop c) (setx s c (mkX (made_ x) (dead x) (done x) (exc x) (lck x) false))))) else None
  | LEnd c e => (* co_ctx.cpp 65-83 *)
      let x := cx s c in
      if crr x && negb (done x) then Some (use s c (HOk (hlog (AEnd c e) (setx s c (mkX (made_ x) (dead x) true e (lck x) true))))) else None
  | LReap c => (* co_env.cpp 201-214 *)
      let x := cx s c in
      if made_ x && negb (dead x) && done x && negb (lck x) && negb (crr x) then Some (HOk (destroy s c)) else None
  | LShut c => (* co_env.cpp 415, 429-434: no condition on the coroutine *)
      let x := cx s c in
      if made_ x && negb (dead x) then Some (HOk (destroy s c)) else None
  end.
(** A step with a proper outcome. *)
Definition hstep_ok (s : hst) (l : hlbl) : option hst := match hstep s l with Some (HOk s') => Some s' | _ => None end.
