(** What a latch is.  Independent of the model of the code. *)
From Coq Require Import List ZArith Bool.
From Verif Require Import Base LinSpec HistSpec.
Import ListNotations.
Open Scope Z_scope.

Inductive lop := OCount (n : Z) | OTryWait | OWaitL | OArrive (n : Z).
Inductive lres := ROk | RTrue | RFalse | RThrow.
(** The instant at which arrive_and_wait(n) has counted down by n. *)
Inductive laux := ADown (n : Z).

Definition lop_eqb (a b : lop) : bool :=
  match a, b with
  | OCount n, OCount m | OArrive n, OArrive m => Z.eqb n m
  | OTryWait, OTryWait | OWaitL, OWaitL => true
  | _, _ => false
  end.
Definition lres_eqb (a b : lres) : bool :=
  match a, b with ROk, ROk | RTrue, RTrue | RFalse, RFalse | RThrow, RThrow => true | _, _ => false end.

Notation lev := (ev lop lres laux).

(** Amounts successfully counted down. *)
Definition down (e : lev) : Z :=
  match e with
  | ELin _ (OCount n) ROk => n
  | EAux _ (ADown n) => n
  | _ => 0
  end.
Definition downs (h : list lev) : Z := total down h.

(** Amount counted down by [t] inside its current arrive_and_wait. *)
Fixpoint own_downs (h : list lev) (t : tid) : list Z :=
  match h with
  | [] => []
  | ECall u _ :: h' => if Nat.eqb u t then [] else own_downs h' t
  | EAux u (ADown n) :: h' => if Nat.eqb u t then n :: own_downs h' t else own_downs h' t
  | _ :: h' => own_downs h' t
  end.

Definition latch_event_ok (init : Z) (e : lev) (older : list lev) : Prop :=
  match e with
  | ELin t OWaitL r => r = ROk /\ downs older = init
  | ELin t (OArrive n) r =>
      (r = ROk /\ downs older = init /\ own_downs older t = [n]) \/
      (r = RThrow /\ init - downs older < n /\ own_downs older t = [])
  | ELin t (OCount n) r =>
      (r = ROk /\ n <= init - downs older) \/ (r = RThrow /\ init - downs older < n)
  | ELin t OTryWait r => r = (if downs older =? init then RTrue else RFalse)
  | EAux t (ADown n) => n <= init - downs older
  | _ => True
  end.

(** Usage rule: amounts are not negative (the parameter is a signed ptrdiff_t). *)
Definition amounts_ok (h : list lev) : Prop :=
  forall t o, In (ECall t o) h -> match o with OCount n | OArrive n => 0 <= n | _ => True end.
