(** What a scheduler of one thread promises, over histories (newest event first).  Coroutines, resources and calls are
    numbers; priorities are 0 (highest) to 99. *)
From Coq Require Import List Arith Bool.
Import ListNotations.

Inductive sev :=
| VAdd (k c p : nat)     (* call k has put coroutine c of priority p into the run queues *)
| VRel (k c r : nat)     (* call k has released resource r of coroutine c *)
| VRet (k : nat)         (* call k is over *)
| VEnter (c r : nat)     (* coroutine c waits for resource r *)
| VPrio (c p : nat)      (* coroutine c has got priority p *)
| VFin (c : nat)         (* coroutine c has finished *)
| VDet (c : nat)         (* coroutine c is no longer referenced by a handle: joined or detached *)
| VPick (o : option nat) (* scheduling decision: run that coroutine, or go idle *)
| VReap (c : nat)        (* finished coroutine c has been destroyed *)
| VTake (c : nat).       (* coroutine c has been taken away to another thread *)
Definition shist := list sev.

(** c belongs to this thread. *)
Fixpoint member (c : nat) (H : shist) : bool :=
  match H with
  | [] => false
  | VAdd _ c' _ :: r => (c =? c') || member c r
  | VReap c' :: r | VTake c' :: r => negb (c =? c') && member c r
  | _ :: r => member c r
  end.
(** Its priority. *)
Fixpoint hprio (c : nat) (H : shist) : nat :=
  match H with
  | [] => 0
  | VAdd _ c' p :: r | VPrio c' p :: r => if c =? c' then p else hprio c r
  | _ :: r => hprio c r
  end.
(** It waits for resource x. *)
Fixpoint waits (c x : nat) (H : shist) : bool :=
  match H with
  | [] => false
  | VEnter c' x' :: r => ((c =? c') && (x =? x')) || waits c x r
  | VRel _ c' x' :: r => negb ((c =? c') && (x =? x')) && waits c x r
  | _ :: r => waits c x r
  end.
Fixpoint finished (c : nat) (H : shist) : bool :=
  match H with [] => false | VFin c' :: r => (c =? c') || finished c r | _ :: r => finished c r end.
(** It can be run: it belongs to the thread, has not finished, and waits for nothing. *)
Definition runnable (c : nat) (H : shist) : Prop :=
  member c H = true /\ finished c H = false /\ forall x, waits c x H = false.

(** Call k is still at work on coroutine c (it has added or released it and has not returned). *)
Fixpoint at_work (k c : nat) (H : shist) : bool :=
  match H with
  | [] => false
  | VAdd k' c' _ :: r | VRel k' c' _ :: r => if k =? k' then c =? c' else at_work k c r
  | VRet k' :: r => if k =? k' then false else at_work k c r
  | _ :: r => at_work k c r
  end.
Definition busy (c : nat) (H : shist) : Prop := exists k, at_work k c H = true.

(** The coroutine the thread runs: the one of its last decision. *)
Fixpoint current (H : shist) : option nat :=
  match H with [] => None | VPick o :: _ => o | _ :: r => current r end.

(** Since the last pick of c, coroutine d has been runnable all the time at one priority, and has not been picked. *)
Fixpoint overdue (c d : nat) (H : shist) : Prop :=
  match H with
  | [] => False
  | e :: r => runnable d H /\
              match e with
              | VPick (Some x) => if x =? c then True else x <> d /\ overdue c d r
              | VPrio x _ => x <> d /\ overdue c d r
              | _ => overdue c d r
              end
  end.

(** How often c was picked. *)
Fixpoint picks (c : nat) (H : shist) : nat :=
  match H with
  | [] => 0
  | VPick (Some c') :: r => (if c =? c' then 1 else 0) + picks c r
  | _ :: r => picks c r
  end.
(** All picks of a piece of history, newest first. *)
Fixpoint pickl (H : shist) : list nat :=
  match H with
  | [] => []
  | VPick (Some c) :: r => c :: pickl r
  | _ :: r => pickl r
  end.
(** During the piece W of history that followed H, coroutine d was runnable all the time and kept its priority. *)
Definition steady (d : nat) (W H : shist) : Prop :=
  (forall m1 m2, W = m1 ++ m2 -> runnable d (m2 ++ H)) /\ (forall p, ~ In (VPrio d p) W).
