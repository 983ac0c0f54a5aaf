(** What a counting semaphore is.  Independent of the model of the code. *)
From Coq Require Import List ZArith Bool.
From Verif Require Import Base LinSpec HistSpec.
Import ListNotations.
Open Scope Z_scope.

(** acquire(), try_acquire(), try_acquire_until(deadline), release(n). *)
Inductive sop := OAcquire | OTryAcq | OTryUntil | ORelease (n : Z).
Inductive sres := ROk | RTrue | RFalse.
(** The instant at which one unit of a release(n) is added. *)
Inductive saux := AUnit.

Definition sop_eqb (a b : sop) : bool :=
  match a, b with
  | OAcquire, OAcquire | OTryAcq, OTryAcq | OTryUntil, OTryUntil => true
  | ORelease n, ORelease m => Z.eqb n m
  | _, _ => false
  end.
Definition sres_eqb (a b : sres) : bool :=
  match a, b with ROk, ROk | RTrue, RTrue | RFalse, RFalse => true | _, _ => false end.

Notation sev := (ev sop sres saux).

(** Effect of an event on the number of available permits. *)
Definition permit (e : sev) : Z :=
  match e with
  | EAux _ AUnit => 1
  | ELin _ OAcquire ROk => -1
  | ELin _ OTryAcq RTrue => -1
  | ELin _ OTryUntil RTrue => -1
  | _ => 0
  end.
Definition permits (init : Z) (h : list sev) : Z := init + total permit h.

(** What may happen when, given the number of permits just before. *)
Definition sem_event_ok (init max : Z) (e : sev) (older : list sev) : Prop :=
  let p := permits init older in
  match e with
  | EAux _ AUnit => p < max
  | ELin _ OAcquire r => r = ROk /\ 0 < p
  | ELin _ OTryAcq r => r = (if 0 <? p then RTrue else RFalse)
  | ELin _ OTryUntil r => (r = RTrue /\ 0 < p) \/ (r = RFalse /\ p = 0)
  | _ => True
  end.

(** Units added by [t] since its latest call. *)
Fixpoint units_since_call (h : list sev) (t : tid) : Z :=
  match h with
  | [] => 0
  | ECall u _ :: h' => if Nat.eqb u t then 0 else units_since_call h' t
  | EAux u AUnit :: h' => (if Nat.eqb u t then 1 else 0) + units_since_call h' t
  | _ :: h' => units_since_call h' t
  end.

(** release(n) adds n units, no other operation adds any. *)
Definition units_ok (e : sev) (older : list sev) : Prop :=
  match e with
  | ELin t (ORelease n) _ => units_since_call older t = Z.max 0 n
  | ELin t _ _ => units_since_call older t = 0
  | _ => True
  end.
