(** Model of co_counting_semaphore<LeastMaxValue>
    (/repo/include/cocpp/sync/co_counting_semaphore.h). *)
From Coq Require Import List ZArith Bool.
From Verif Require Import Base LinSpec Monitor SemSpec.
Import ListNotations.
Open Scope Z_scope.

(** The two condition variables, co_counting_semaphore.h 19-20. *)
Definition EMPTY : nat := 0%nat.
(** cv_full__ (co_counting_semaphore.h 20). *)
Definition FULL : nat := 1%nat.

(** Segments: acquire 37-47, release_one__ 50-60 with the number of iterations of release
    63-69 still to do, try_acquire 72-83, try_acquire_until 94-105. *)
Inductive sloc := LAcq | LRel (k : nat) | LTry | LUntil.

(** co_counting_semaphore.h 37, 63, 72, 94.  release(n) with n <= 0 runs no iteration (66). *)
Definition sem_entry (o : sop) : sloc :=
  match o with
  | OAcquire => LAcq
  | OTryAcq => LTry
  | OTryUntil => LUntil
  | ORelease n => LRel (Z.to_nat n)
  end.

(** co_counting_semaphore.h 37-105; data = desired__ (21).  The assertions of lines 40, 53, 75
    are proved as part of C11.  [late]: the clock comparison of line 103.  Arithmetic on
    desired__ is exact: it stays within [0, LeastMaxValue]. *)
Definition sem_body (max : Z) (t : tid) (l : sloc) (late : bool) (d : Z)
  : outcome Z sres saux sloc :=
  match l with
  | LAcq => if d =? 0 then OWait d [] [] EMPTY LAcq
            else ORet (d - 1) [] [SOne FULL] ROk
  | LRel O => ORet d [] [] ROk
  | LRel (S k) => if d =? max then OWait d [] [] FULL (LRel (S k))
                  else match k with
                       | O => ORet (d + 1) [AUnit] [SOne EMPTY] ROk
                       | S _ => OAgain (d + 1) [AUnit] [SOne EMPTY] (LRel k)
                       end
  | LTry => if d =? 0 then ORet d [] [] RFalse
            else ORet (d - 1) [] [SOne FULL] RTrue
  | LUntil => if d =? 0 then (if late then ORet d [] [] RFalse else OAgain d [] [] LUntil)
              else ORet (d - 1) [] [SOne FULL] RTrue
  end.

(** Lines 113-118: constructed with [init] permits. *)
Definition sem_init (init : Z) := minit sop sres saux sloc init.
(** Steps of the monitor with the bodies above (co_counting_semaphore.h). *)
Definition sem_step (max : Z) := mstep sem_entry (sem_body max).
