(** Which operations of the objects are meant to pass on what was done before them, and to whom.  Independent of the model of the code. *)
From Coq Require Import List ZArith Bool.
From Verif Require Import LinSpec HistSpec.
From Verif Require LatchSpec WgSpec SemSpec BarrierSpec ChanSpec.
Import ListNotations.
Local Open Scope Z_scope.

(** The coroutine of an event. *)
Definition actor {Op Res Aux} (e : ev Op Res Aux) : nat := match e with ECall t _ | ELin t _ _ | ERet t _ _ | EAux t _ => t end.

(** Latch: operations whose success says that the latch is open. *)
Definition open_op (o : LatchSpec.lop) (r : LatchSpec.lres) : Prop :=
  match o, r with
  | LatchSpec.OWaitL, LatchSpec.ROk | LatchSpec.OArrive _, LatchSpec.ROk | LatchSpec.OTryWait, LatchSpec.RTrue => True
  | _, _ => False
  end.
(** Latch: an event that counts down, by a positive amount. *)
Definition counts (e : LatchSpec.lev) : Prop :=
  match e with
  | ELin _ (LatchSpec.OCount n) LatchSpec.ROk => 0 < n
  | EAux _ (LatchSpec.ADown n) => 0 < n
  | _ => False
  end.

(** Wait group: waiting for it, or destroying it (which waits). *)
Definition awaits (o : WgSpec.wop) : Prop := o = WgSpec.OWaitG \/ o = WgSpec.ODestroy.

(** Semaphore: the units added so far; the acquisitions so far. *)
Definition units (h : list SemSpec.sev) : Z := total (fun e => match e with EAux _ SemSpec.AUnit => 1 | _ => 0 end) h.
Definition got (o : SemSpec.sop) (r : SemSpec.sres) : bool :=
  match o, r with
  | SemSpec.OAcquire, SemSpec.ROk | SemSpec.OTryAcq, SemSpec.RTrue | SemSpec.OTryUntil, SemSpec.RTrue => true
  | _, _ => false
  end.
Definition gots (h : list SemSpec.sev) : Z := total (fun e => match e with ELin _ o r => if got o r then 1 else 0 | _ => 0 end) h.

(** Barrier: the token of an arrival. *)
Definition arrival (e : BarrierSpec.bev) : option BarrierSpec.token :=
  match e with
  | ELin _ (BarrierSpec.OArrive _) (BarrierSpec.RTok k) => Some k
  | EAux _ (BarrierSpec.AArr k) | EAux _ (BarrierSpec.ADrop k) => Some k
  | _ => None
  end.
(** Barrier: the token of a successful wait; older is what had happened before. *)
Definition waited_for (e : BarrierSpec.bev) (older : list BarrierSpec.bev) : option BarrierSpec.token :=
  match e with
  | ELin _ (BarrierSpec.OWaitT k) BarrierSpec.ROk => Some k
  | ELin t BarrierSpec.OArriveWait BarrierSpec.ROk => BarrierSpec.own_tok older t
  | _ => None
  end.

(** Channel: results that say that the channel is closed. *)
Definition tells_closed (o : ChanSpec.cop) (r : ChanSpec.cres) : Prop :=
  match o, r with
  | ChanSpec.OPop, ChanSpec.RNone | ChanSpec.OPush _, ChanSpec.RFalse | ChanSpec.OIsClosed, ChanSpec.RTrue => True
  | _, _ => False
  end.
