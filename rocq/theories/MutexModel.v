(** Model of co_mutex (source/cocpp/sync/co_mutex.cpp 17-108) on top of co_spinlock
    (source/cocpp/sync/co_spinlock.cpp 12-28), one step per access of the
    spin lock and one per block of accesses made while it is held. *)
From Coq Require Import List Arith Bool.
From Verif Require Import Base LinSpec MutexSpec.
Import ListNotations.

(** Program counter of a coroutine with respect to one mutex.
    Line numbers are those of co_mutex.cpp. *)
Inductive pc : Type :=
| Idle              (* not in a method of this mutex *)
| LkSpin            (* 22: scoped_lock lock(spinlock__) *)
| LkTry             (* 26: head of the co_timed_call loop (co_utils.cpp 10), spin lock held *)
| LkRel             (* 35: spinlock__.unlock() *)
| LkYield           (* 36-38: CoYield() while not marked waiting *)
| LkSpin2           (* 39: spinlock__.lock() *)
| LkCheck2          (* 48-55: last check after the timed loop, else push_back *)
| LkLoop            (* 57-60: while (owner__ != ctx) enter_wait_resource_state *)
| LkRel2            (* 61: spinlock__.unlock() *)
| LkPark            (* 63-65: CoYield() while marked waiting *)
| LkSpin3           (* 68: spinlock__.lock() *)
| LkRet             (* 44/51/70: return, ~scoped_lock releases the spin lock *)
| TrySpin           (* 76 *)
| TryBody           (* 77-81 *)
| TryRet (b : bool) (* 79/82: return b, ~scoped_lock *)
| UnSpin            (* 89 *)
| UnBody            (* 90-106 *)
| UnHand (o : tid)  (* 107: obj->leave_wait_resource_state(this) *)
| UnRet (ok : bool) (* 93/100/108: throw or return, ~scoped_lock *).

(** Shared state.  [spin]: co_spinlock::locked__ (include/cocpp/sync/co_spinlock.h);
    [owner], [q]: owner__, wait_deque__ (include/cocpp/sync/co_mutex.h);
    [waiting t]: the coroutine t has this mutex in its set of awaited resources
    (source/cocpp/core/co_ctx.cpp 181-207).  [hist] is ghost: the API history. *)
Record st := mkSt {
  spin : bool;
  owner : option tid;
  q : list tid;
  waiting : tid -> bool;
  pcs : tid -> pc;
  hist : list mev
}.

(** A fresh mutex (include/cocpp/sync/co_mutex.h member initialisers). *)
Definition init : st := mkSt false None [] (fun _ => false) (fun _ => Idle) [].

(** Labels: a client calls a method; a coroutine makes its next step.  The boolean
    of [Run] is the answer of the clock at co_utils.cpp 10 (true: the deadline
    of the timed loop has passed); ignored elsewhere. *)
Inductive lbl := Call (t : tid) (o : mop) | Run (t : tid) (late : bool).

(** Start of a method: co_mutex.cpp 17 / 72 / 85. *)
Definition entry (o : mop) : pc :=
  match o with OLock => LkSpin | OTry => TrySpin | OUnlock => UnSpin end.

(** Assignments to the components of the state above; no code of their own. *)
Definition set_pc (s : st) (t : tid) (p : pc) : st :=
  mkSt (spin s) (owner s) (q s) (waiting s) (upd (pcs s) t p) (hist s).
(** See set_pc; spinlock__ (co_mutex.h 16). *)
Definition set_spin (s : st) (b : bool) : st :=
  mkSt b (owner s) (q s) (waiting s) (pcs s) (hist s).
(** See set_pc; owner__ (co_mutex.h 15). *)
Definition set_owner (s : st) (o : option tid) : st :=
  mkSt (spin s) o (q s) (waiting s) (pcs s) (hist s).
(** See set_pc; wait_deque__ (co_mutex.h 17). *)
Definition set_q (s : st) (l : list tid) : st :=
  mkSt (spin s) (owner s) l (waiting s) (pcs s) (hist s).
(** See set_pc; the wait mark (co_ctx.cpp 181-207). *)
Definition set_waiting (s : st) (t : tid) (b : bool) : st :=
  mkSt (spin s) (owner s) (q s) (upd (waiting s) t b) (pcs s) (hist s).
(** Ghost history; no code. *)
Definition log (s : st) (e : mev) : st :=
  mkSt (spin s) (owner s) (q s) (waiting s) (pcs s) (e :: hist s).

(** co_spinlock.cpp 12-18: one test_and_set; when it fails the coroutine yields
    and tries again, i.e. the step is not enabled. *)
Definition tas (s : st) (t : tid) (p : pc) : option st :=
  if spin s then None else Some (set_pc (set_spin s true) t p).

(** co_spinlock.cpp 25-28. *)
Definition clear (s : st) (t : tid) (p : pc) : st := set_pc (set_spin s false) t p.

(** owner__ == ctx (co_mutex.cpp 57, 90). *)
Definition is_owner (s : st) (t : tid) : bool :=
  match owner s with Some u => Nat.eqb u t | None => false end.

(** One step of coroutine [t].  The [ELin] events are ghost: they are emitted where
    the operation takes effect. *)
Definition step_run (s : st) (t : tid) (late : bool) : option st :=
  match pcs s t with
  | Idle => None
  (* co_mutex.cpp 22 *)
  | LkSpin => tas s t LkTry
  (* co_utils.cpp 10-17 with the body co_mutex.cpp 28-35 *)
  | LkTry =>
      if late then Some (set_pc s t LkCheck2)
      else match owner s with
           | None => Some (log (set_pc (set_owner s (Some t)) t LkRet) (ELin t OLock ROk))
           | Some _ => Some (set_pc s t LkRel)
           end
  (* co_mutex.cpp 35 *)
  | LkRel => Some (clear s t LkYield)
  (* co_mutex.cpp 36-38; the scheduler resumes only coroutines that wait for
     nothing (co_ctx.cpp 141-144) *)
  | LkYield => if waiting s t then None else Some (set_pc s t LkSpin2)
  (* co_mutex.cpp 39-40 *)
  | LkSpin2 => tas s t LkTry
  (* co_mutex.cpp 48-55 *)
  | LkCheck2 =>
      match owner s with
      | None => Some (log (set_pc (set_owner s (Some t)) t LkRet) (ELin t OLock ROk))
      | Some _ => Some (log (set_pc (set_q s (q s ++ [t])) t LkLoop) (EAux t APark))
      end
  (* co_mutex.cpp 57-60 *)
  | LkLoop => if is_owner s t then Some (set_pc s t LkRet)
              else Some (set_pc (set_waiting s t true) t LkRel2)
  (* co_mutex.cpp 61 *)
  | LkRel2 => Some (clear s t LkPark)
  (* co_mutex.cpp 63-65 *)
  | LkPark => if waiting s t then None else Some (set_pc s t LkSpin3)
  (* co_mutex.cpp 68 *)
  | LkSpin3 => tas s t LkLoop
  (* co_mutex.cpp 44 / 51 / 70 *)
  | LkRet => Some (log (clear s t Idle) (ERet t OLock ROk))
  (* co_mutex.cpp 76 *)
  | TrySpin => tas s t TryBody
  (* co_mutex.cpp 77-81 *)
  | TryBody =>
      match owner s with
      | Some _ => Some (log (set_pc s t (TryRet false)) (ELin t OTry RFalse))
      | None => Some (log (set_pc (set_owner s (Some t)) t (TryRet true)) (ELin t OTry RTrue))
      end
  (* co_mutex.cpp 79 / 82 *)
  | TryRet b => Some (log (clear s t Idle) (ERet t OTry (if b then RTrue else RFalse)))
  (* co_mutex.cpp 89 *)
  | UnSpin => tas s t UnBody
  (* co_mutex.cpp 90-106.  A hand-off is the effect of this unlock followed by the
     effect of the lock() of the coroutine at the front of the queue. *)
  | UnBody =>
      if is_owner s t then
        match q s with
        | [] => Some (log (set_pc (set_owner s None) t (UnRet true)) (ELin t OUnlock ROk))
        | o :: q' => Some (log (log (set_pc (set_owner (set_q s q') (Some o)) t (UnHand o))
                                    (ELin t OUnlock ROk)) (ELin o OLock ROk))
        end
      else Some (log (set_pc s t (UnRet false)) (ELin t OUnlock RThrow))
  (* co_mutex.cpp 107; waking the scheduler thread of [o] is the subject of SleepModel *)
  | UnHand o => Some (set_pc (set_waiting s o false) t (UnRet true))
  (* co_mutex.cpp 93 / 100 / 108 *)
  | UnRet ok => Some (log (clear s t Idle) (ERet t OUnlock (if ok then ROk else RThrow)))
  end.

(** A client may call any method when it is outside. *)
Definition step (s : st) (l : lbl) : option st :=
  match l with
  | Call t o => match pcs s t with
                | Idle => Some (log (set_pc s t (entry o)) (ECall t o))
                | _ => None
                end
  | Run t late => step_run s t late
  end.
