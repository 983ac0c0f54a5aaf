(** What a wait group is.  Independent of the model of the code. *)
From Coq Require Import List ZArith Bool.
From Verif Require Import Base LinSpec HistSpec.
Import ListNotations.
Open Scope Z_scope.

Inductive wop := ODone | OWaitG | ODestroy.
(** [RAbort]: the assertion "no more done() than count" fails. *)
Inductive wres := ROk | RAbort.
Inductive waux := .

Definition wop_eqb (a b : wop) : bool :=
  match a, b with ODone, ODone | OWaitG, OWaitG | ODestroy, ODestroy => true | _, _ => false end.
Definition wres_eqb (a b : wres) : bool :=
  match a, b with ROk, ROk | RAbort, RAbort => true | _, _ => false end.

Notation wev := (ev wop wres waux).

(** Number of done() calls that took effect. *)
Definition dones (h : list wev) : Z :=
  total (fun e => match e with ELin _ ODone _ => 1 | _ => 0 end) h.

Definition wg_event_ok (count : Z) (e : wev) (older : list wev) : Prop :=
  match e with
  | ELin _ ODone r => r = (if dones older <? count then ROk else RAbort)
  | ELin _ OWaitG r | ELin _ ODestroy r => r = ROk /\ count <= dones older
  | _ => True
  end.
