(** What a condition variable used with one lock is.  Independent of the model of the code. *)
From Coq Require Import List Arith Bool.
From Verif Require Import Base LinSpec.
Import ListNotations.

(** The client's calls.  [OMod m]: the holder of the lock applies modification number [m] to the data the lock
    protects.  [OWaitP k]: wait(lock, predicate number k).  [OWaitU], [OWaitUP k]: wait_until / wait_for without and
    with a predicate. *)
Inductive cvop := OLock | OUnlock | OMod (m : nat) | OWait | OWaitP (k : nat) | OWaitU | OWaitUP (k : nat)
                | ONotify1 | ONotifyAll.
(** [RB b]: the boolean returned by a timed wait. *)
Inductive cvres := ROk | RB (b : bool).
(** [AEnter]: a waiter releases the lock (from now on it can be notified); [AReacq]: a waiter got the lock back;
    [ADeadline]: the deadline of the waiter's timer passes; [ATimeout]: the timer's callback takes the waiter off. *)
Inductive cvaux := AEnter | AReacq | ADeadline | ATimeout.
Notation cvev := (ev cvop cvres cvaux).

Definition cvop_eqb (a b : cvop) : bool :=
  match a, b with
  | OLock, OLock | OUnlock, OUnlock | OWait, OWait | OWaitU, OWaitU | ONotify1, ONotify1 | ONotifyAll, ONotifyAll => true
  | OMod m, OMod n | OWaitP m, OWaitP n | OWaitUP m, OWaitUP n => Nat.eqb m n
  | _, _ => false
  end.
Definition cvres_eqb (a b : cvres) : bool :=
  match a, b with ROk, ROk => true | RB x, RB y => Bool.eqb x y | _, _ => false end.

Definition is_wait (o : cvop) : bool :=
  match o with OWait | OWaitP _ | OWaitU | OWaitUP _ => true | _ => false end.
Definition is_timed (o : cvop) : bool := match o with OWaitU | OWaitUP _ => true | _ => false end.

(** A client holds the lock from the return of lock() or of a wait to its next call of unlock() or of a wait. *)
Fixpoint holds (h : list cvev) (t : tid) : bool :=
  match h with
  | [] => false
  | ERet u o _ :: h' => if Nat.eqb u t && (is_wait o || cvop_eqb o OLock) then true else holds h' t
  | ECall u o :: h' => if Nat.eqb u t && (is_wait o || cvop_eqb o OUnlock) then false else holds h' t
  | _ :: h' => holds h' t
  end.

(** Usage rules: lock() is not called by the holder; unlock(), the waits and modifications only by the holder.
    Notifications may come from anybody, with or without the lock. *)
Definition allowed (h : list cvev) (t : tid) (o : cvop) : bool :=
  match o with
  | OLock => negb (holds h t)
  | ONotify1 | ONotifyAll => true
  | _ => holds h t
  end.

(** The waiters that have not been notified, in the order in which they released the lock. *)
Fixpoint cline (h : list cvev) : list tid :=
  match h with
  | [] => []
  | EAux t AEnter :: h' => cline h' ++ [t]
  | EAux t ATimeout :: h' => filter (fun u => negb (Nat.eqb u t)) (cline h')
  | ELin _ ONotify1 _ :: h' => tl (cline h')
  | ELin _ ONotifyAll _ :: h' => []
  | _ :: h' => cline h'
  end.

(** A waiter gets the lock back only after it has been taken off the line. *)
Fixpoint woken_first (h : list cvev) : Prop :=
  match h with
  | [] => True
  | EAux t AReacq :: h' => ~ In t (cline h') /\ woken_first h'
  | _ :: h' => woken_first h'
  end.

(** The course of one wait: called, released the lock, got it back (this may repeat for predicate waits), returned. *)
Inductive wstage := WsOut | WsIn | WsEntered | WsBack.
Fixpoint stage (h : list cvev) (t : tid) : option wstage :=
  match h with
  | [] => Some WsOut
  | ECall u o :: h' =>
      if Nat.eqb u t && is_wait o then match stage h' t with Some WsOut => Some WsIn | _ => None end else stage h' t
  | EAux u AEnter :: h' =>
      if Nat.eqb u t then match stage h' t with Some WsIn | Some WsBack => Some WsEntered | _ => None end else stage h' t
  | EAux u AReacq :: h' =>
      if Nat.eqb u t then match stage h' t with Some WsEntered => Some WsBack | _ => None end else stage h' t
  | ERet u o _ :: h' =>
      if Nat.eqb u t && is_wait o then match stage h' t with Some WsBack => Some WsOut | _ => None end else stage h' t
  | _ :: h' => stage h' t
  end.

(** No timed wait is ever called. *)
Fixpoint no_timed (h : list cvev) : Prop :=
  match h with
  | [] => True
  | ECall _ o :: h' => is_timed o = false /\ no_timed h'
  | _ :: h' => no_timed h'
  end.
Definition timed_calls (h : list cvev) : nat :=
  length (filter (fun e => match e with ECall _ o => is_timed o | _ => false end) h).

Section Data.
  Variables (D : Type) (d0 : D) (modf : nat -> D -> D) (pred : nat -> D -> bool).
  (** The protected data. *)
  Fixpoint shared (h : list cvev) : D :=
    match h with
    | [] => d0
    | ELin _ (OMod m) _ :: h' => modf m (shared h')
    | _ :: h' => shared h'
    end.
  (** Whenever a predicate wait returns (and a timed one returns true), the predicate holds. *)
  Fixpoint preds_ok (h : list cvev) : Prop :=
    match h with
    | [] => True
    | ERet t (OWaitP k) _ :: h' => pred k (shared h') = true /\ preds_ok h'
    | ERet t (OWaitUP k) (RB true) :: h' => pred k (shared h') = true /\ preds_ok h'
    | _ :: h' => preds_ok h'
    end.
End Data.

(** A timed wait returns false only if a timer of this condition variable has fired before. *)
Fixpoint false_ok (h : list cvev) : Prop :=
  match h with
  | [] => True
  | ERet t o (RB false) :: h' => (exists u, In (EAux u ATimeout) h') /\ false_ok h'
  | _ :: h' => false_ok h'
  end.

(** [t]'s last call. *)
Fixpoint cur_op (h : list cvev) (t : tid) : option cvop :=
  match h with
  | [] => None
  | ECall u o :: h' => if Nat.eqb u t then Some o else cur_op h' t
  | _ :: h' => cur_op h' t
  end.
(** In its current call, [t] was taken off the line by a timer, and not by a notification. *)
Fixpoint off_by_timer (h : list cvev) (t : tid) : bool :=
  match h with
  | [] => false
  | ECall u _ :: h' => if Nat.eqb u t then false else off_by_timer h' t
  | EAux u AEnter :: h' => if Nat.eqb u t then false else off_by_timer h' t
  | EAux u ATimeout :: h' => if Nat.eqb u t && existsb (Nat.eqb t) (cline h') then true else off_by_timer h' t
  | _ :: h' => off_by_timer h' t
  end.
(** A timed wait that its timer took off the line does not wait again and does not report success. *)
Fixpoint timeout_reported (h : list cvev) : Prop :=
  match h with
  | [] => True
  | ELin t o (RB true) :: h' => (is_timed o = true -> off_by_timer h' t = false) /\ timeout_reported h'
  | EAux t AEnter :: h' =>
      (forall o, cur_op h' t = Some o -> is_timed o = true -> off_by_timer h' t = false) /\ timeout_reported h'
  | _ :: h' => timeout_reported h'
  end.

(** During its current call, the deadline of [t] has passed. *)
Fixpoint expired (h : list cvev) (t : tid) : bool :=
  match h with
  | [] => false
  | ECall u _ :: h' => if Nat.eqb u t then false else expired h' t
  | EAux u ADeadline :: h' => if Nat.eqb u t then true else expired h' t
  | _ :: h' => expired h' t
  end.
(** The timer of a timed wait fires only during that wait, before the wait has its result, and at most once. *)
Fixpoint deadlines_inside (h : list cvev) : Prop :=
  match h with
  | [] => True
  | EAux t ADeadline :: h' =>
      ((exists o, phase_of cvop_eqb cvres_eqb h' t = Some (PPending o) /\ is_timed o = true) /\ expired h' t = false) /\
      deadlines_inside h'
  | _ :: h' => deadlines_inside h'
  end.
