(** What try_lock_for / try_lock_until / try_lock_shared_for / try_lock_shared_until promise.
    Independent of the model of the code.  A history is the API history of the untimed mutex, newest first. *)
From Coq Require Import List Arith Bool.
From Verif Require Import Base LinSpec.
Import ListNotations.
Set Implicit Arguments.

(** The time limit as the caller gives it. *)
Inductive limit := Until (d : nat) | For (k : nat).
Definition deadline (start : nat) (l : limit) : nat := match l with Until d => d | For k => start + k end.

Section Timed.
  Variables (Op Res Aux : Type).
  Notation event := (ev Op Res Aux).

  Definition by_tid (t : tid) (e : event) : bool :=
    Nat.eqb t match e with ECall u _ | ELin u _ _ | ERet u _ _ | EAux u _ => u end.
  (** What [t] did, or what was done for it. *)
  Definition own (t : tid) (es : list event) : list event := filter (by_tid t) es.

  (** One attempt: call, effect, return, nothing else (in particular no parking). *)
  Definition attempt (t : tid) (o : Op) (r : Res) : list event := [ERet t o r; ELin t o r; ECall t o].
  Fixpoint attempts (t : tid) (o : Op) (r : Res) (n : nat) : list event :=
    match n with 0 => [] | S m => attempt t o r ++ attempts t o r m end.

  (** A finished timed call: who, which attempt it repeats, the limit, the clock at the start and at the end, the
      readings of the clock made in between (newest first), the history of the mutex at the start and at the end, and
      the answer. *)
  Record tcall := mkTc {
    c_t : tid; c_o : Op; c_lim : limit; c_start : nat; c_end : nat; c_reads : list nat;
    c_h0 : list event; c_h1 : list event; c_ans : bool
  }.
  Definition c_dl (c : tcall) : nat := deadline (c_start c) (c_lim c).

  (** - What the caller did during the call is a number of failed attempts and, if the answer is true, one successful
        attempt after them.  There is at least one attempt.
      - Between two attempts the clock was read and was before the deadline.
      - The answer false is given only after a reading at or after the deadline. *)
  Definition tcall_ok (rt rf : Res) (c : tcall) : Prop :=
    exists es, c_h1 c = es ++ c_h0 c /\
    if c_ans c
    then own (c_t c) es = attempt (c_t c) (c_o c) rt ++ attempts (c_t c) (c_o c) rf (length (c_reads c)) /\
         (forall x, In x (c_reads c) -> x < c_dl c)
    else exists last before, c_reads c = last :: before /\ c_dl c <= last <= c_end c /\
         own (c_t c) es = attempts (c_t c) (c_o c) rf (length (c_reads c)) /\
         (forall x, In x before -> x < c_dl c).
End Timed.
Arguments own {Op Res Aux}.
Arguments attempt {Op Res Aux}.
Arguments attempts {Op Res Aux}.
Arguments by_tid {Op Res Aux}.
