(** The accesses to memory made by co_recursive_mutex (source/cocpp/sync/co_recursive_mutex.cpp 14-107) and co_shared_mutex
    (source/cocpp/sync/co_shared_mutex.cpp 13-218): SpinObj.v with a trace.  The clients use data that the mutex protects. *)
From Coq Require Import List Arith Bool.
From Verif Require Import Base RaceSpec LinSpec SpinObj.
Import ListNotations.

(** What synchronises: co_spinlock::locked__ of spinlock__ (co_spinlock.h 13; co_recursive_mutex.h, co_shared_mutex.h), and the lock of
    the set of awaited resources of a coroutine (co_ctx.cpp 141-207). *)
Inductive psync := PSpin | PSet (t : tid).
(** Ordinary objects: the members of the mutex that spinlock__ protects (owner__, lock_count__, wait_deque__; owners__, lock_type__;
    simplification: taken as one object), and the data of the clients, numbered. *)
Inductive ploc := PObj | PData (x : nat).
(** Events of this model. No counterpart in the code. *)
Notation pev := (RaceSpec.ev psync ploc).

Section SpinRace.
  Variables (D Op Res Aux Loc : Type).
  Variable entry : Op -> Loc.
  Variable seg : tid -> Op -> Loc -> bool -> D -> sout D Op Res Aux Loc.
  (** The rule of the clients: may the coroutine write ([true]) or read the data now, judging by the history of calls and returns? *)
  Variable may : list (ev Op Res Aux) -> tid -> bool -> bool.

  (** What the step that a coroutine makes at [p] does to memory; the cases are those of [SpinObj.fstep] and cite the same lines.
      test_and_set is a read-modify-write with acq_rel, clear a store with release (co_spinlock.cpp 14, 22, 27).  Simplification: a block
      under the spin lock counts as reading and writing all members.  Entering and leaving the waiting state, and being found
      schedulable again, take the lock of the coroutine's set (co_ctx.cpp 141-144, 181-207); taking and giving back that lock is one
      read-modify-write here. *)
  Definition peffects (p : fpc Op Res Loc) (t : tid) : list (kind psync ploc) :=
    match p with
    | FOut => []
    | FWant _ _ => [KUpd PSpin]
    | FIn _ _ => [KRd PObj; KWr PObj]
    | FRelY _ _ | FRelP _ _ => [KRel PSpin]
    | FYield _ _ | FMark _ _ | FPark _ _ => [KUpd (PSet t)]
    | FUn _ (g :: _) _ => [KUpd (PSet g)]
    | FUn _ [] _ => [KRel PSpin]
    end.

  (** The mutex with the trace of the accesses, oldest first. *)
  Record pst := mkP { po : fst_ D Op Res Aux Loc; trc : list pev }.
  (** Labels: a step of the mutex; a test_and_set that fails (co_spinlock.cpp 14-17), also a read-modify-write; a client reads or writes
      datum x. *)
  Inductive plbl := PM (l : slbl Op) | PFail (t : tid) | PUse (t : tid) (x : nat) (w : bool).
  (** The fresh mutex, nothing done (co_recursive_mutex.h, co_shared_mutex.h: initial values of the members). *)
  Definition pinit (d : D) : pst := mkP (finit Op Res Aux Loc d) [].
  (** co_recursive_mutex.cpp 14-107, co_shared_mutex.cpp 13-218 with the accesses.  A client outside the methods uses the data as the
      rule allows. *)
  Definition pstep (s : pst) (l : plbl) : option pst :=
    match l with
    | PM (SCall t o) => option_map (fun m => mkP m (trc s)) (fstep entry seg (po s) (SCall t o))
    | PM (SRun t b) => option_map (fun m => mkP m (trc s ++ map (mkEv t) (peffects (fpcs (po s) t) t))) (fstep entry seg (po s) (SRun t b))
    | PFail t => match fpcs (po s) t with
                 | FWant _ _ => if fspin (po s) then Some (mkP (po s) (trc s ++ [mkEv t (KUpd PSpin)])) else None
                 | _ => None
                 end
    | PUse t x w => match fpcs (po s) t with
                    | FOut => if may (fhist (po s)) t w then Some (mkP (po s) (trc s ++ [mkEv t (if w then KWr (PData x) else KRd (PData x))])) else None
                    | _ => None
                    end
    end.
End SpinRace.
Arguments mkP {D Op Res Aux Loc}. Arguments po {D Op Res Aux Loc}. Arguments trc {D Op Res Aux Loc}.
Arguments PM {Op}. Arguments PFail {Op}. Arguments PUse {Op}.
Arguments pstep {D Op Res Aux Loc}.
Arguments peffects {Op Res Loc}.
Arguments pinit {D}.
