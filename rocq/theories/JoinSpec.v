(** What co::wait, join and wait_for promise about one target coroutine, as a condition on the history of what the program
    observes.  Histories are newest first.  Calls are numbered; every call has a number of its own. *)
From Coq Require Import List Bool.
Import ListNotations.

(** How the function of the target ended: returned a value (None for void), threw an exception. *)
Inductive res := RetV (v : option nat) | Thr (e : nat).
(** Results of a call: a value (None if the stored value is empty), an exception, nullopt. *)
Inductive cres := RVal (v : option nat) | RExc (e : nat) | RNone.
(** Events: the target has finished; call j begins; it sees at its last look whether the target has finished; it picks up
    the stored exception; it ends; the time-out of call j expires. *)
Inductive jev := HFin (r : res) | HCall (j : nat) | HSee (j : nat) (b : bool) | HGot (j : nat) | HRet (j : nat) (r : cres) | HExp (j : nat).
Definition jhist := list jev.

(** The result a finished target can give. *)
Definition fits (r : res) (c : cres) : Prop :=
  match r, c with
  | RetV v, RVal w => w = v
  | Thr e, RExc x => x = e
  | Thr _, RVal w => w = None
  | _, _ => False
  end.

(** C32, C34: a call ends at most once and after it has begun; with a value or an exception only after the target has
    finished, and then with its result; with nullopt only if it is timed, its time-out has expired, and a look during
    the call found the target unfinished. *)
Definition ret_spec (timed : nat -> bool) (h : jhist) : Prop :=
  forall post j r pre, h = post ++ HRet j r :: pre ->
    In (HCall j) pre /\ (forall r', ~ In (HRet j r') pre) /\
    match r with
    | RNone => timed j = true /\ In (HExp j) pre /\
               exists p q, pre = p ++ HSee j false :: q /\ In (HCall j) q /\ forall r0, ~ In (HFin r0) q
    | _ => exists r0, In (HFin r0) pre /\ fits r0 r
    end.
(** The target finishes at most once. *)
Definition fin_spec (h : jhist) : Prop := forall post r pre, h = post ++ HFin r :: pre -> forall r', ~ In (HFin r') pre.
(** C33: at most one call ends with the exception. *)
Definition exc_once (h : jhist) : Prop := forall post j e pre, h = post ++ HRet j (RExc e) :: pre -> forall k e', ~ In (HRet k (RExc e')) pre.
(** What is left of it: a call that ends without the exception of a target that threw ends after a call that ended with it;
    nobody picks up the exception after a call has ended with it; who picks it up can end only with it. *)
Definition exc_weak (h : jhist) : Prop :=
  (forall post j v pre e, h = post ++ HRet j (RVal v) :: pre -> In (HFin (Thr e)) pre -> exists k, In (HRet k (RExc e)) pre) /\
  (forall post j pre, h = post ++ HGot j :: pre -> forall k e, ~ In (HRet k (RExc e)) pre) /\
  (forall post j r pre, h = post ++ HRet j r :: pre -> (In (HGot j) pre <-> exists e, r = RExc e)).
