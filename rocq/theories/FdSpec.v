(** Vocabulary of C82-C84: what can be observed of I/O objects (co_file, co_net) and the open files of the process.  Histories are
    NEWEST FIRST.  Open files are numbered in the order in which they are opened.  Nothing here refers to the model. *)
From Coq Require Import List Arith.
From Verif Require Import HistSpec.
Import ListNotations.

(** Object o was handed out for open file d; object p was made as a copy of o; o was destroyed; close of o ended the life of
    open file d; close of o reported success; a system call made through o was carried out on open file d, which was (b) or was
    not in non-blocking mode; a call through o failed because its descriptor is not open. *)
Inductive fev := VMade (o d : nat) | VCopy (p o : nat) | VDrop (o : nat) | VRel (o d : nat) | VClosed (o : nat)
  | VAct (o d : nat) (b : bool) | VBad (o : nat).

(** The open file that object o stands for. *)
Fixpoint made_for (h : list fev) (o : nat) : option nat :=
  match h with
  | [] => None
  | VMade o' d :: h => if o =? o' then Some d else made_for h o
  | VCopy p q :: h => if o =? p then made_for h q else made_for h o
  | VDrop o' :: h => if o =? o' then None else made_for h o
  | _ :: h => made_for h o
  end.
(** Open file d is no longer open. *)
Definition released (h : list fev) (d : nat) : Prop := exists o, In (VRel o d) h.
(** Object o, or the one it was copied from, was closed with success. *)
Fixpoint shut (h : list fev) (o : nat) : bool :=
  match h with
  | [] => false
  | VMade o' _ :: h => if o =? o' then false else shut h o
  | VCopy p q :: h => if o =? p then shut h q else shut h o
  | VClosed o' :: h => if o =? o' then true else shut h o
  | _ :: h => shut h o
  end.
(** What a call through an object is carried out on. *)
Definition target (v : fev) : option (nat * nat) := match v with VAct o d _ | VRel o d => Some (o, d) | _ => None end.

(** C82: whatever is done through an object is done to the open file it stands for. *)
Definition own_file (h : list fev) : Prop :=
  always_at (fun v old => forall o d, target v = Some (o, d) -> made_for old o = Some d) h.
(** The same as long as that open file is open. *)
Definition own_file_while_open (h : list fev) : Prop :=
  always_at (fun v old => forall o d d0, target v = Some (o, d) -> made_for old o = Some d0 -> ~ released old d0 -> d = d0) h.
(** Nothing is done through an object after it was closed with success. *)
Definition closed_is_closed (h : list fev) : Prop :=
  always_at (fun v old => forall o d, target v = Some (o, d) -> shut old o = false) h.

(** C83: an object is only destroyed once its open file was closed or another object stands for the same one. *)
Definition dropped_well (h : list fev) : Prop :=
  always_at (fun v old => match v with
    | VDrop o => forall d, made_for old o = Some d -> released old d \/ exists p, p <> o /\ made_for old p = Some d
    | _ => True
    end) h.

(** C84: system calls are only made in non-blocking mode. *)
Definition never_blocks (h : list fev) : Prop :=
  always_at (fun v _ => match v with VAct _ _ b => b = true | _ => True end) h.
(** The same for calls on the object's own open file. *)
Definition own_never_blocks (h : list fev) : Prop :=
  always_at (fun v old => match v with VAct o d b => made_for old o = Some d -> b = true | _ => True end) h.
