(** What a recursive mutex is.  Independent of the model of the code. *)
From Coq Require Import List Arith Bool NArith.
From Verif Require Import Base LinSpec MutexSpec.
Import ListNotations.
Local Open Scope N_scope.

(** Sequential recursive mutex: free, or held by one coroutine at some depth >= 1. *)
Definition rec_spec (s : option (tid * N)) (t : tid) (o : mop) (r : mres) : option (option (tid * N)) :=
  match o, r, s with
  | OLock, ROk, None | OTry, RTrue, None => Some (Some (t, 1))
  | OLock, ROk, Some (u, n) | OTry, RTrue, Some (u, n) => if Nat.eqb u t then Some (Some (u, n + 1)) else None
  | OTry, RFalse, Some (u, n) => if Nat.eqb u t then None else Some (Some (u, n))
  | OUnlock, ROk, Some (u, n) => if Nat.eqb u t then (if n =? 1 then Some None else Some (Some (u, n - 1))) else None
  | OUnlock, RThrow, Some (u, n) => if Nat.eqb u t then None else Some (Some (u, n))
  | OUnlock, RThrow, None => Some None
  | _, _, _ => None
  end.

Definition rec_state (h : list mev) : option (option (tid * N)) := seq_state rec_spec None h.
Definition rec_linearizable (h : list mev) : Prop :=
  linearizable mop_eqb mres_eqb rec_spec None h.

(** What a client knows: how many of its successful lock()/try_lock() have returned and are
    not yet matched by a call of unlock() (an unlock() too many matches nothing). *)
Fixpoint depth (h : list mev) (t : tid) : N :=
  match h with
  | [] => 0
  | ERet u OLock ROk :: h' | ERet u OTry RTrue :: h' => if Nat.eqb u t then depth h' t + 1 else depth h' t
  | ECall u OUnlock :: h' => if Nat.eqb u t then N.pred (depth h' t) else depth h' t
  | _ :: h' => depth h' t
  end.

(** The nesting never reaches 2^64 (the counter is an unsigned 64 bit number). *)
Fixpoint shallow (h : list mev) : Prop :=
  match h with
  | [] => True
  | ECall t OLock :: h' | ECall t OTry :: h' => depth h' t + 1 < 2 ^ 64 /\ shallow h'
  | _ :: h' => shallow h'
  end.

(** The line of parked coroutines: join when parking, leave when obtaining the mutex.  Whoever
    obtains it without holding it already must be the first in line, or the line be empty.
    [None] = somebody overtook. *)
Definition held_by (h : list mev) (t : tid) : bool :=
  match rec_state h with Some (Some (u, _)) => Nat.eqb u t | _ => false end.
Fixpoint rline (h : list mev) : option (list tid) :=
  match h with
  | [] => Some []
  | EAux t APark :: h' => match rline h' with Some q => Some (q ++ [t]) | None => None end
  | ELin t OLock ROk :: h' =>
      if held_by h' t then rline h'
      else match rline h' with
           | Some [] => Some []
           | Some (u :: q) => if Nat.eqb u t then Some q else None
           | None => None
           end
  | ELin t OTry RTrue :: h' =>
      if held_by h' t then rline h'
      else match rline h' with Some [] => Some [] | _ => None end
  | _ :: h' => rline h'
  end.

(** Depth of [t] when it made its latest call of unlock(). *)
Fixpoint depth_at_unlock (h : list mev) (t : tid) : N :=
  match h with
  | [] => 0
  | ECall u OUnlock :: h' => if Nat.eqb u t then depth h' t else depth_at_unlock h' t
  | _ :: h' => depth_at_unlock h' t
  end.
(** Every unlock() that returned: normally if the caller held the mutex, by an exception otherwise. *)
Fixpoint rec_unlocks_ok (h : list mev) : Prop :=
  match h with
  | [] => True
  | ERet t OUnlock r :: h' =>
      r = (if depth_at_unlock h' t =? 0 then RThrow else ROk) /\ rec_unlocks_ok h'
  | _ :: h' => rec_unlocks_ok h'
  end.
