(** What a (non recursive) mutex is.  Independent of the model of the code. *)
From Coq Require Import List Arith Bool.
From Verif Require Import Base LinSpec.
Import ListNotations.

Inductive mop := OLock | OTry | OUnlock.
(** [ROk]: returned normally (lock, unlock); [RTrue]/[RFalse]: result of try_lock;
    [RThrow]: an exception left the call. *)
Inductive mres := ROk | RTrue | RFalse | RThrow.
(** The only auxiliary instant: the caller of lock() starts to park. *)
Inductive maux := APark.

Definition mop_eqb (a b : mop) : bool :=
  match a, b with OLock, OLock | OTry, OTry | OUnlock, OUnlock => true | _, _ => false end.
Definition mres_eqb (a b : mres) : bool :=
  match a, b with ROk, ROk | RTrue, RTrue | RFalse, RFalse | RThrow, RThrow => true | _, _ => false end.

Notation mev := (ev mop mres maux).

(** Sequential mutex: free, or held by one coroutine. *)
Definition mutex_spec (s : option tid) (t : tid) (o : mop) (r : mres) : option (option tid) :=
  match o, r, s with
  | OLock, ROk, None => Some (Some t)
  | OTry, RTrue, None => Some (Some t)
  | OTry, RFalse, Some u => Some (Some u)
  | OUnlock, ROk, Some u => if Nat.eqb u t then Some None else None
  | OUnlock, RThrow, Some u => if Nat.eqb u t then None else Some (Some u)
  | OUnlock, RThrow, None => Some None
  | _, _, _ => None
  end.

Definition mutex_linearizable (h : list mev) : Prop :=
  linearizable mop_eqb mres_eqb mutex_spec None h.

(** A client holds the mutex from the return of a successful lock()/try_lock()
    to its next call of unlock().  History newest first. *)
Fixpoint holding (h : list mev) (t : tid) : bool :=
  match h with
  | [] => false
  | ERet u OLock ROk :: h' => if Nat.eqb u t then true else holding h' t
  | ERet u OTry RTrue :: h' => if Nat.eqb u t then true else holding h' t
  | ECall u OUnlock :: h' => if Nat.eqb u t then false else holding h' t
  | _ :: h' => holding h' t
  end.

(** Usage rule of a non recursive mutex: lock() is not called by its holder. *)
Fixpoint no_relock (h : list mev) : Prop :=
  match h with
  | [] => True
  | ECall t OLock :: h' => holding h' t = false /\ no_relock h'
  | _ :: h' => no_relock h'
  end.

(** The line of parked coroutines.  A coroutine joins at the end when it parks;
    whenever the mutex is obtained ([ELin] of lock or of a successful try_lock),
    it must be by the head of the line, or the line must be empty.
    [None] = somebody overtook. *)
Fixpoint line (h : list mev) : option (list tid) :=
  match h with
  | [] => Some []
  | EAux t APark :: h' => match line h' with Some q => Some (q ++ [t]) | None => None end
  | ELin t OLock ROk :: h' =>
      match line h' with
      | Some [] => Some []
      | Some (u :: q) => if Nat.eqb u t then Some q else None
      | None => None
      end
  | ELin t OTry RTrue :: h' => match line h' with Some [] => Some [] | _ => None end
  | _ :: h' => line h'
  end.

(** Did [t] hold the mutex when it made its latest call of unlock()? *)
Fixpoint held_at_unlock (h : list mev) (t : tid) : bool :=
  match h with
  | [] => false
  | ECall u OUnlock :: h' => if Nat.eqb u t then holding h' t else held_at_unlock h' t
  | _ :: h' => held_at_unlock h' t
  end.

(** Every unlock() that returned: normally if the caller held the mutex when it
    called, by an exception otherwise. *)
Fixpoint unlock_results_ok (h : list mev) : Prop :=
  match h with
  | [] => True
  | ERet t OUnlock r :: h' =>
      r = (if held_at_unlock h' t then ROk else RThrow) /\ unlock_results_ok h'
  | _ :: h' => unlock_results_ok h'
  end.
