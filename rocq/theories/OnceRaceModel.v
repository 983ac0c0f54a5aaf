(** The accesses to memory of co_call_once (include/cocpp/sync/co_call_once.h 11-26): CallOnceModel.v with a trace. *)
From Coq Require Import List Arith Bool.
From Verif Require Import Base CallOnceSpec CallOnceModel RaceSpec.
Import ListNotations.

(** co_call_once.h 14: flag__, the only object that synchronises.  CoPreemptGuard (20) uses locks of the caller's own environment, that
    is of its own thread.  The data: ordinary objects of the clients, numbered. *)
Inductive osync := Flag.
(** Events of this model. No counterpart in the code. *)
Notation rev_ := (RaceSpec.ev osync nat).
(** The callers and what they did to memory, oldest first. *)
Record rst := mkR { oc : ost; trc : list rev_ }.
(** co_call_once.h 14: nothing done. *)
Definition rinit : rst := mkR oinit [].
(** co_call_once.h 22: compare_exchange_strong with the default orders (seq_cst): a read-modify-write that acquires and releases if it
    succeeds, a load that acquires if it fails.  The other steps do not touch shared memory. *)
Definition effects (s : ost) (t : tid) : list (kind osync nat) :=
  match pcs s t with PCas => [if flag s then KAcq Flag else KUpd Flag] | _ => [] end.
(** Labels: a step of CallOnceModel.v; caller t reads or writes datum x, inside the callable or outside co_call_once. *)
Inductive rlbl := RO (l : lbl) | RUse (t : tid) (x : nat) (w : bool).
(** co_call_once.h 18-26, with the accesses. *)
Definition rstep (s : rst) (l : rlbl) : option rst :=
  match l with
  | RO l => match ostep (oc s) l with
            | Some o => Some (mkR o (trc s ++ match l with Run t => map (mkEv t) (effects (oc s) t) | _ => [] end))
            | None => None
            end
  | RUse t x w => match pcs (oc s) t with
                  | Out | PBody => Some (mkR (oc s) (trc s ++ [mkEv t (if w then KWr x else KRd x)]))
                  | _ => None
                  end
  end.
