(** The accesses to memory made by the objects that consist of one co_mutex and some co_condition_variables: co_latch,
    co_wait_group, co_counting_semaphore, co_barrier, co_chan.  [FineModel] with a trace.  The clients use data of their own
    between their calls.

    Line numbers as in FineModel.v. *)
From Coq Require Import List Arith Bool.
From Verif Require Import Base LinSpec Monitor FineModel RaceSpec.
From Verif Require MutexSpec MutexModel MutexRaceModel.
Import ListNotations.
Set Implicit Arguments.

(** Objects that synchronise: the spin lock of the mutex (co_mutex.h 18); cv_lock__ of a condition variable (co_condition_variable.h
    29); the lock of the wait set of a coroutine (co_ctx.h 48-54). *)
Inductive osync := OMu | OCv (c : nat) | OSet (t : tid).
(** Ordinary objects: owner__ and wait_deque__ of the mutex (co_mutex.h 19-20); waiters__ of a condition variable
    (co_condition_variable.h 30); the data of the object, taken as one; the data of the clients. *)
Inductive oloc := OOwner | OQueue | OWq (c : nat) | ODat | OCl (x : nat).
(** Events of this model. No counterpart in the code. *)
Notation oev := (RaceSpec.ev osync oloc).

(** The objects of MutexRaceModel.v under their names here. No counterpart in the code. *)
Definition oname (x : MutexRaceModel.mloc) : oloc :=
  match x with MutexRaceModel.XOwner => OOwner | MutexRaceModel.XQueue => OQueue | MutexRaceModel.XData => ODat end.
(** See [oname]. *)
Definition okind (k : kind MutexRaceModel.flag MutexRaceModel.mloc) : kind osync oloc :=
  match k with KAcq _ => KAcq OMu | KRel _ => KRel OMu | KUpd _ => KUpd OMu | KRd x => KRd (oname x) | KWr x => KWr (oname x) end.

Section Order.
  Variables (D Op Res Aux Loc : Type).
  Variable entry : Op -> Loc.
  Variable body : tid -> Loc -> bool -> D -> outcome D Res Aux Loc.
  Notation fst_ := (fst_ D Op Res Aux Loc).

  (** What the next step of coroutine t does to memory; the cases are those of [fstep] and cite the same lines.  A segment reads and
      writes the data.  enter_wait_resource_state, leave_wait_resource_state (co_ctx.cpp 181-207) and can_schedule (co_ctx.cpp
      141-144) lock and unlock the lock of the wait set.  Simplification: the locks of the scheduler that the yields use are left
      out; they could only add order. *)
  Definition feffects (s : fst_) (t : tid) (b : bool) : list (kind osync oloc) :=
    let m := map okind (MutexRaceModel.effects (mx s) t b) in
    match fpcs s t with
    | FOut | FDone _ _ => []
    | FLck _ _ _ | FUn _ _ | FW W3 _ _ _ => m
    | FSeg _ _ _ => [KRd ODat; KWr ODat]
    | FN N0 _ (SOne c :: _) _ => [KUpd (OCv c)]
    | FN N0 _ (SAll c :: _) _ => [KUpd (OCv c); KRd (OWq c)]
    | FN N0 _ [] _ => []
    | FN (N2 c) _ _ _ => match wq s c with [] => [KRd (OWq c)] | _ => [KRd (OWq c); KWr (OWq c)] end
    | FN (N3 c u) _ _ _ => [KUpd (OSet u)]
    | FN (A2 c (u :: _)) _ _ _ => [KRd (OWq c); KUpd (OSet u)]
    | FN (A2 c []) _ _ _ => [KRd (OWq c)]
    | FN (A3 c) _ _ _ => [KWr (OWq c)]
    | FN (N4 c) _ _ _ => [KRel (OCv c)]
    | FW W1 _ c _ => [KUpd (OCv c)]
    | FW W2 _ c _ => [KRd (OWq c); KWr (OWq c)]
    | FW W4 _ _ _ => [KUpd (OSet t)]
    | FW W5 _ c _ => [KRel (OCv c)]
    | FW W6 _ _ _ => [KUpd (OSet t)]
    end.
  (** A failed test_and_set (co_spinlock.cpp 14-17), of the lock of the mutex or of a condition variable. *)
  Definition ffails (s : fst_) (t : tid) : option osync :=
    let cv c := match cvl s c with Some _ => Some (OCv c) | None => None end in
    match fpcs s t with
    | FLck _ _ _ | FUn _ _ | FW W3 _ _ _ =>
        if MutexRaceModel.spinning (MutexModel.pcs (mx s) t) && MutexModel.spin (mx s) then Some OMu else None
    | FN N0 _ (SOne c :: _) _ | FN N0 _ (SAll c :: _) _ => cv c
    | FW W1 _ c _ => cv c
    | _ => None
    end.

  (** The object, the trace of the accesses (oldest first), the history of calls with the number of accesses made before each
      event (newest first). *)
  Record ost := mkO { fo : fst_; trc : list oev; marks : list (LinSpec.ev Op Res Aux * nat) }.
  (** The fresh object, nothing done. *)
  Definition oinit (d : D) : ost := mkO (finit Op Res Aux Loc d) [] [].
  (** Accesses of one coroutine in a row. No counterpart in the code. *)
  Definition obys (t : tid) (ks : list (kind osync oloc)) : list oev := map (mkEv t) ks.
  (** The events that a step has added, with the number of accesses made before the step. Ghost. *)
  Definition stamp (s : ost) (f : fst_) : list (LinSpec.ev Op Res Aux * nat) :=
    map (fun e => (e, length (trc s))) (firstn (length (fhist f) - length (fhist (fo s))) (fhist f)) ++ marks s.
  (** Labels: a step of the object; a failed test_and_set; a client outside the object reads or writes data of its own. *)
  Inductive olbl := OF (x : flbl Op) | OFail (t : tid) | OUse (t : tid) (x : nat) (w : bool).
  (** One step; the lines are cited above and in FineModel.v. *)
  Definition ostep (s : ost) (l : olbl) : option ost :=
    match l with
    | OF (FCall t o) => match fstep entry body (fo s) (FCall t o) with Some f => Some (mkO f (trc s) (stamp s f)) | None => None end
    | OF (FRun t b) => match fstep entry body (fo s) (FRun t b) with
                       | Some f => Some (mkO f (trc s ++ obys t (feffects (fo s) t b)) (stamp s f))
                       | None => None
                       end
    | OFail t => match ffails (fo s) t with Some l => Some (mkO (fo s) (trc s ++ [mkEv t (KUpd l)]) (marks s)) | None => None end
    | OUse t x w => match fpcs (fo s) t with
                    | FOut => Some (mkO (fo s) (trc s ++ [mkEv t (if w then KWr (OCl x) else KRd (OCl x))]) (marks s))
                    | _ => None
                    end
    end.
End Order.
Arguments OF {Op}. Arguments OFail {Op}. Arguments OUse {Op}.
