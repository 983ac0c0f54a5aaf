(** What a handle (class co) means: a history of what the program does with handles and what happens to coroutines, newest
    first.  Handles and coroutines are numbered. *)
From Coq Require Import List Arith Bool.
Import ListNotations.

(** A handle is made with a new coroutine; the contents of a handle move to another one (which is new or has been joined); a
    handle gives up its coroutine (join, detach, destruction).  A coroutine is switched to, or away from; ends (with an
    exception or not); is destroyed. *)
Inductive hev := ANew (h c : nat) | AMove (dst src : nat) | AGive (h : nat) | ARun (c : nat) | AStop (c : nat) | AEnd (c : nat) (e : bool)
               | AKill (c : nat).
Definition hhist := list hev.

(** The coroutine a handle refers to. *)
Fixpoint refers (h : nat) (H : hhist) : option nat :=
  match H with
  | [] => None
  | ANew k c :: r => if h =? k then Some c else refers h r
  | AMove d s :: r => if h =? d then refers s r else if h =? s then None else refers h r
  | AGive k :: r => if h =? k then None else refers h r
  | _ :: r => refers h r
  end.
(** The coroutine has been switched to and not away from. *)
Fixpoint running (c : nat) (H : hhist) : bool :=
  match H with
  | [] => false
  | ARun k :: r => (c =? k) || running c r
  | AStop k :: r => negb (c =? k) && running c r
  | _ :: r => running c r
  end.
Definition made (c : nat) (H : hhist) : Prop := exists h, In (ANew h c) H.
Definition ended (c : nat) (H : hhist) : Prop := exists e, In (AEnd c e) H.

(** C35: a coroutine is destroyed only when it has ended, is not being executed, no handle refers to it, and once. *)
Definition kill_ok (H : hhist) : Prop := forall post c pre, H = post ++ AKill c :: pre ->
  made c pre /\ ended c pre /\ running c pre = false /\ (forall h, refers h pre <> Some c) /\ ~ In (AKill c) pre.
(** No two handles refer to one coroutine. *)
Definition unique (H : hhist) : Prop := forall h k c, refers h H = Some c -> refers k H = Some c -> h = k.
