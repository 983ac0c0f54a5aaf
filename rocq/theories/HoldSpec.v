(** When other threads can wake a scheduler thread, over histories (newest event first). *)
From Coq Require Import List Arith Bool.
Import ListNotations.

Inductive hev :=
| HTimed (c : nat)   (* coroutine c begins a timed wait *)
| HRelock (c : nat)  (* woken, it begins to re-acquire its lock *)
| HGot (c : nat)     (* it is through with that *)
| HRel (k c : nat)   (* call k of another thread ends what coroutine c waits for *)
| HRet (k : nat)     (* that call returns *)
| HSleep             (* the thread falls asleep *)
| HUp                (* it stops sleeping and looks again *)
| HNote (k : nat).   (* call k wakes it *)
Definition hhist := list hev.

(** How many coroutines are re-acquiring their lock at the end of a timed wait. *)
Fixpoint relocks (H : hhist) : nat :=
  match H with
  | [] => 0
  | HRelock _ :: r => S (relocks r)
  | HGot _ :: r => relocks r - 1
  | _ :: r => relocks r
  end.
(** The thread sleeps and nothing has woken it yet. *)
Fixpoint sleeps (H : hhist) : bool :=
  match H with
  | [] => false
  | HSleep :: _ => true
  | HNote _ :: _ | HUp :: _ => false
  | _ :: r => sleeps r
  end.
(** Call k has ended the wait of a coroutine and has not returned. *)
Fixpoint calling (k : nat) (H : hhist) : bool :=
  match H with
  | [] => false
  | HRel k' _ :: r => (k =? k') || calling k r
  | HRet k' :: r => if k =? k' then false else calling k r
  | _ :: r => calling k r
  end.
