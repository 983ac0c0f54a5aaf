(** Infinite executions and fairness, for any transition system.  Independent of the model of the code. *)
From Coq Require Import Arith.

Section Fair.
  Variables (state label : Type) (step : state -> label -> option state) (init : state).
  (** The coroutine that makes a step of its own; none for a call, which is the client's choice. *)
  Variable who : label -> option nat.

  (** From one moment to the next a step is made, or nothing happens (so that executions that end are included). *)
  Definition execution (st : nat -> state) (lb : nat -> option label) : Prop :=
    st 0 = init /\ forall n, match lb n with Some l => step (st n) l = Some (st (S n)) | None => st (S n) = st n end.
  (** A coroutine can make a step; it makes one at moment n. *)
  Definition able (s : state) (t : nat) : Prop := exists l s', who l = Some t /\ step s l = Some s'.
  Definition moves (lb : nat -> option label) (t n : nat) : Prop := exists l, lb n = Some l /\ who l = Some t.
  (** Nobody is passed over for ever while able to make a step the whole time. *)
  Definition weakly_fair (st : nat -> state) (lb : nat -> option label) : Prop :=
    forall t n, exists m, n <= m /\ (moves lb t m \/ ~ able (st m) t).
  (** Nobody is passed over for ever while able to make a step again and again. *)
  Definition strongly_fair (st : nat -> state) (lb : nat -> option label) : Prop :=
    forall t n, exists m, n <= m /\ (moves lb t m \/ forall k, m <= k -> ~ able (st k) t).
End Fair.
