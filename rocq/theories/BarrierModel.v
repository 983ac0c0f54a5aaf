(** Model of co_barrier (/repo/source/cocpp/sync/co_barrier.cpp, include/cocpp/sync/co_barrier.h). *)
From Coq Require Import List ZArith Bool.
From Verif Require Import Base LinSpec Monitor BarrierSpec.
Import ListNotations.
Open Scope Z_scope.

(** co_barrier.h 27: the one condition variable cond__. *)
Definition COND : nat := 0%nat.

(** co_barrier.h 22-24: expected__, count__, generation__ (atomics, only accessed under mutex__). *)
Record bdat := mkB { bexp : Z; bcnt : Z; bgen : Z }.

(** Segments: arrive 14-26, wait 28-51 up to cond__.wait, the rest of wait after cond__.wait (the
    token is ghost there), arrive in arrive_and_wait 53-56, arrive_and_drop 58-61. *)
Inductive bloc := LArr (n : Z) | LWaitT (k : token) | LBack (k : token) | LArrW | LDrop.

(** co_barrier.cpp 14, 28, 53, 58. *)
Definition barrier_entry (o : bop) : bloc :=
  match o with
  | OArrive n => LArr n
  | OWaitT k => LWaitT k
  | OArriveWait => LArrW
  | ODrop => LDrop
  end.

(** co_barrier.cpp 14-61.  [me]: address of the barrier, [max]: max__.  ptrdiff_t arithmetic is exact
    (expected__ - n could overflow only for n < 0). *)
Definition barrier_body (me : nat) (max : Z) (t : tid) (l : bloc) (b : bool) (d : bdat)
  : outcome bdat bres baux bloc :=
  match l with
  | LArr n =>
      if bexp d - n <? 0 then ORet d [] [] RThrow
      else ORet (mkB (bexp d - n) (bcnt d) (bgen d)) [] [] (RTok (mkTok (bgen d) me n))
  | LArrW =>
      if bexp d - 1 <? 0 then ORet d [] [] RThrow
      else let k := mkTok (bgen d) me 1 in
           OAgain (mkB (bexp d - 1) (bcnt d) (bgen d)) [AArr k] [] (LWaitT k)
  | LDrop =>
      if bexp d - 1 <? 0 then ORet d [] [] RThrow
      else let k := mkTok (bgen d) me 1 in
           ORet (mkB (bexp d - 1) (bcnt d) (bgen d)) [ADrop k] [] ROk
  | LWaitT k =>
      if negb (tgen k =? bgen d) || negb (Nat.eqb (tbar k) me) then ORet d [] [] RThrow
      else if bcnt d - tn k <? 0 then ORet d [] [] RThrow
      else if bcnt d - tn k =? 0
           then ORet (mkB max max (bgen d + 1)) [AUse k] [SAll COND] ROk
           else OWait (mkB (bexp d) (bcnt d - tn k) (bgen d)) [AUse k] [] COND (LBack k)
  | LBack k => ORet d [] [] ROk
  end.

(** co_barrier.cpp 7-12; generation__ is value-initialised (co_barrier.h 23, C++20). *)
Definition barrier_init (max : Z) := minit bop bres baux bloc (mkB max max 0).
(** Steps of the monitor with the bodies above (co_barrier.cpp). *)
Definition barrier_step (me : nat) (max : Z) := mstep barrier_entry (barrier_body me max).
