(** When a scheduler thread may sleep, over histories (newest event first): the events of SchedSpec.v and those of falling
    asleep and waking.  Here the event [VRet k] is the return of the whole call k, its wake-up included.  The second part is
    the same for a thread of the program itself, which sleeps while it waits for something. *)
From Coq Require Import List Arith Bool.
From Verif Require Import SchedSpec.
Import ListNotations.

Inductive iev :=
| IB (e : sev)       (* an event of the run queues *)
| ISleep             (* the thread falls asleep *)
| IUp                (* it stops sleeping and looks again, for whatever reason *)
| IGo                (* it goes back to scheduling *)
| INote (k : nat)    (* call k wakes it *)
| IStop (k : nat)    (* call k tells the thread to end *)
| IStopRet (k : nat) (* that call returns *).
Definition ihist := list iev.

(** The events of the run queues alone. *)
Definition queues (H : ihist) : shist := flat_map (fun e => match e with IB e => [e] | _ => [] end) H.
(** It sleeps and nothing has woken it yet. *)
Fixpoint asleep (H : ihist) : bool :=
  match H with
  | [] => false
  | ISleep :: _ => true
  | INote _ :: _ | IUp :: _ => false
  | _ :: r => asleep r
  end.
(** It has been told to end. *)
Definition stopped (H : ihist) : Prop := exists k, In (IStop k) H.
(** Call k to end the thread has not returned. *)
Fixpoint stopping (k : nat) (H : ihist) : bool :=
  match H with
  | [] => false
  | IStop k' :: r => (k =? k') || stopping k r
  | IStopRet k' :: r => if k =? k' then false else stopping k r
  | _ :: r => stopping k r
  end.

(** ** A thread of the program *)
Inductive nev :=
| NEnter (r : nat)   (* the thread begins to wait for resource r *)
| NRel (k r : nat)   (* call k gives it resource r *)
| NRet (k : nat)     (* call k returns *)
| NSleep             (* the thread falls asleep *)
| NUp                (* it stops sleeping and looks again *)
| NGo                (* it goes on *)
| NNote (k : nat).   (* call k wakes it *)
Definition nhist := list nev.

Fixpoint nwaits (r : nat) (H : nhist) : bool :=
  match H with
  | [] => false
  | NEnter r' :: t => (r =? r') || nwaits r t
  | NRel _ r' :: t => negb (r =? r') && nwaits r t
  | _ :: t => nwaits r t
  end.
Fixpoint nasleep (H : nhist) : bool :=
  match H with
  | [] => false
  | NSleep :: _ => true
  | NNote _ :: _ | NUp :: _ => false
  | _ :: r => nasleep r
  end.
(** Call k has given the thread a resource and has not returned. *)
Fixpoint giving (k : nat) (H : nhist) : bool :=
  match H with
  | [] => false
  | NRel k' _ :: r => (k =? k') || giving k r
  | NRet k' :: r => if k =? k' then false else giving k r
  | _ :: r => giving k r
  end.
