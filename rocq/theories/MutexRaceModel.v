(** The accesses to memory made by co_mutex (source/cocpp/sync/co_mutex.cpp 17-108) and co_spinlock (source/cocpp/sync/
    co_spinlock.cpp 12-28): [MutexModel] with a trace.  The clients use data that the mutex protects. *)
From Coq Require Import List Arith Bool.
From Verif Require Import Base LinSpec MutexSpec MutexModel RaceSpec.
Import ListNotations.

(** The only atomic object: co_spinlock::locked__ (co_spinlock.h 13). *)
Inductive flag := Locked.
(** Ordinary objects: owner__, wait_deque__ (co_mutex.h 18-20); the data of the clients. *)
Inductive mloc := XOwner | XQueue | XData.
(** Events of this model. No counterpart in the code. *)
Notation mmev := (RaceSpec.ev flag mloc).

(** What the step that a coroutine makes at [p] does to memory, with the mutex in state [s]; the cases are those of
    [MutexModel.step_run] and cite the same lines.  test_and_set is a read-modify-write with acq_rel, clear a store with release
    (co_spinlock.cpp 14, 22, 27).  Simplification: the locks inside enter_wait_resource_state, leave_wait_resource_state and
    CoYield are left out; they could only add order. *)
Definition effects (s : st) (t : tid) (late : bool) : list (kind flag mloc) :=
  match pcs s t with
  | Idle | LkYield | LkPark | UnHand _ => []
  | LkSpin | LkSpin2 | LkSpin3 | TrySpin | UnSpin => [KUpd Locked]
  | LkTry => if late then [] else match owner s with None => [KRd XOwner; KWr XOwner] | Some _ => [KRd XOwner] end
  | LkCheck2 => match owner s with None => [KRd XOwner; KWr XOwner] | Some _ => [KRd XOwner; KWr XQueue] end
  | LkLoop => [KRd XOwner]
  | TryBody => match owner s with None => [KRd XOwner; KWr XOwner] | Some _ => [KRd XOwner] end
  | UnBody => if is_owner s t then match q s with [] => [KRd XOwner; KRd XQueue; KWr XOwner] | _ => [KRd XOwner; KRd XQueue; KWr XQueue; KWr XOwner] end
              else [KRd XOwner]
  | LkRel | LkRel2 | LkRet | TryRet _ | UnRet _ => [KRel Locked]
  end.
(** Coroutines that wait for the spin lock (co_spinlock.cpp 14-17). *)
Definition spinning (p : pc) : bool := match p with LkSpin | LkSpin2 | LkSpin3 | TrySpin | UnSpin => true | _ => false end.

(** The mutex with the trace of the accesses, oldest first. *)
Record rst := mkR { mx : st; trc : list mmev }.
(** Labels: a step of the mutex; a test_and_set that fails (co_spinlock.cpp 14-17), also a read-modify-write; a client that
    holds the mutex reads or writes the data. *)
Inductive rlbl := RM (l : lbl) | RFail (t : tid) | RUse (t : tid) (w : bool).
(** The fresh mutex, nothing done. *)
Definition rinit : rst := mkR init [].
(** Accesses of one coroutine in a row. No counterpart in the code. *)
Definition by_ (t : tid) (ks : list (kind flag mloc)) : list mmev := map (mkEv t) ks.
(** The data may be used between the return of lock or try_lock and the call of unlock: the rule for clients. *)
Definition rstep (s : rst) (l : rlbl) : option rst :=
  match l with
  | RM (Call t o) => option_map (fun m => mkR m (trc s)) (step (mx s) (Call t o))
  | RM (Run t late) => option_map (fun m => mkR m (trc s ++ by_ t (effects (mx s) t late))) (step (mx s) (Run t late))
  | RFail t => if spinning (pcs (mx s) t) && spin (mx s) then Some (mkR (mx s) (trc s ++ [mkEv t (KUpd Locked)])) else None
  | RUse t w => match pcs (mx s) t with
                | Idle => if holding (hist (mx s)) t then Some (mkR (mx s) (trc s ++ [mkEv t (if w then KWr XData else KRd XData)])) else None
                | _ => None
                end
  end.
