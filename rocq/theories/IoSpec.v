(** What the I/O functions promise, in terms of the answers of the operating system. *)
From Coq Require Import List Arith ZArith.
Import ListNotations.

(** errno values that matter; any other one. *)
Inductive errno := EAGAIN | EWOULDBLOCK | EINTR | EINPROGRESS | EOTHER (n : nat).
(** Answer of a system call: a non-negative result, or -1 with errno. *)
Inductive ans := Ret (n : nat) | Err (e : errno).

(** The call would block; or it would block or was interrupted. *)
Definition blocks (e : errno) : Prop := e = EAGAIN \/ e = EWOULDBLOCK.
Definition blocks_or_intr (e : errno) : Prop := blocks e \/ e = EINTR.

(** C61: [ans] are all the system calls made, in order; all but the last one failed temporarily, the last one did not, and its
    result is returned. *)
Definition truthful (temp : errno -> Prop) (answers : list ans) (result : Z) : Prop :=
  exists es a, answers = map Err es ++ [a] /\ (forall e, In e es -> temp e) /\
    match a with Ret n => result = Z.of_nat n | Err e => ~ temp e /\ result = (-1)%Z end.

(** C60: bytes taken over by the system, of the buffer to be written, with the result; bytes the stream delivers, buffer and rest
    of the stream after the call. *)
Definition wrote_n (buf accepted : list nat) (err : bool) : Prop :=
  exists rest, buf = accepted ++ rest /\ (err = false -> rest = []).
Definition filled_n (size : nat) (stream buf rest : list nat) : Prop := length buf = size /\ stream = buf ++ rest.
