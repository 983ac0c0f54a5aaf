(** Model of co_wait_group (/repo/source/cocpp/sync/co_wait_group.cpp). *)
From Coq Require Import List ZArith Bool.
From Verif Require Import Base LinSpec Monitor WgSpec.
Import ListNotations.
Open Scope Z_scope.

(** co_wait_group.h: the one condition variable cond__. *)
Definition COND : nat := 0%nat.

(** Segments: done 19-28, wait 30-37 (also run by the destructor, 14-17). *)
Inductive wloc := LDone | LWait.

(** co_wait_group.cpp 14, 19, 30. *)
Definition wg_entry (o : wop) : wloc :=
  match o with ODone => LDone | OWaitG | ODestroy => LWait end.

(** co_wait_group.cpp 19-37; data = done__ (size_t; wrap-around after 2^64 calls is not modelled).
    [RAbort] records that the assertion of line 23 fails; the state goes on as in a build
    without assertions. *)
Definition wg_body (count : Z) (t : tid) (l : wloc) (b : bool) (d : Z) : outcome Z wres waux wloc :=
  match l with
  | LDone => ORet (d + 1) [] (if d + 1 =? count then [SAll COND] else [])
                  (if d + 1 <=? count then ROk else RAbort)
  | LWait => if d <? count then OWait d [] [] COND LWait else ORet d [] [] ROk
  end.

(** co_wait_group.cpp 8-12. *)
Definition wg_init := minit wop wres waux wloc 0.
(** Steps of the monitor with the bodies above (co_wait_group.cpp). *)
Definition wg_step (count : Z) := mstep wg_entry (wg_body count).
