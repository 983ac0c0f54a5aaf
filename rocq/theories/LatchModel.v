(** Model of co_latch (/repo/source/cocpp/sync/co_latch.cpp). *)
From Coq Require Import List ZArith Bool.
From Verif Require Import Base LinSpec Monitor LatchSpec.
Import ListNotations.
Open Scope Z_scope.

(** co_latch.h: the one condition variable cond__. *)
Definition COND : nat := 0%nat.

(** Segments: count_down 14-26, try_wait 28-32, wait 34-41; arrive_and_wait 43-47 is
    count_down followed by wait. *)
Inductive lloc := LCount (n : Z) | LTryWait | LWait | LArrive (n : Z).

(** co_latch.cpp 14, 28, 34, 43. *)
Definition latch_entry (o : lop) : lloc :=
  match o with
  | OCount n => LCount n
  | OTryWait => LTryWait
  | OWaitL => LWait
  | OArrive n => LArrive n
  end.

(** co_latch.cpp 14-47; data = expect__.  ptrdiff_t arithmetic is exact: with amounts >= 0,
    expect__ stays within [0, initial]. *)
Definition latch_body (t : tid) (l : lloc) (b : bool) (d : Z) : outcome Z lres laux lloc :=
  match l with
  | LCount n =>
      if d <? n then ORet d [] [] RThrow
      else ORet (d - n) [] (if d - n =? 0 then [SAll COND] else []) ROk
  | LArrive n =>
      if d <? n then ORet d [] [] RThrow
      else OAgain (d - n) [ADown n] (if d - n =? 0 then [SAll COND] else []) LWait
  | LTryWait => ORet d [] [] (if d =? 0 then RTrue else RFalse)
  | LWait => if 0 <? d then OWait d [] [] COND LWait else ORet d [] [] ROk
  end.

(** co_latch.cpp 7-12. *)
Definition latch_init (init : Z) := minit lop lres laux lloc init.
(** Steps of the monitor with the bodies above (co_latch.cpp). *)
Definition latch_step := mstep latch_entry latch_body.
