(** C93: a co_mutex orders what its holders do. *)
From Coq Require Import List Arith Bool Lia.
From Verif Require Import Base LinSpec MutexSpec MutexModel RaceSpec RaceLemmas MutexRaceModel MutexRace.
Import ListNotations.

(** Whatever the clients and the scheduler do, all conflicting accesses to owner__, to wait_deque__ and to the data that the
    clients use while they hold the mutex are ordered by happens-before. *)
Theorem mutex_orders : forall ls s, run rstep rinit ls = Some s -> no_relock (hist (mx s)) -> forall x, ordered (trc s) x.
Proof. intros ls s R N. exact (r_ord _ (reach_RI _ _ R N)). Qed.
Print Assumptions mutex_orders.

Theorem mutex_no_race : forall ls s, run rstep rinit ls = Some s -> no_relock (hist (mx s)) -> forall x, ~ race (trc s) x.
Proof. intros ls s R N x. apply ordered_no_race. now apply mutex_orders with ls. Qed.
Print Assumptions mutex_no_race.

(** The value that unlock passes on: a write made by one holder happens before a read made by any later holder. *)
Theorem mutex_passes_on : forall ls s t u i j, run rstep rinit ls = Some s -> no_relock (hist (mx s)) ->
  nth_error (trc s) i = Some (mkEv t (KWr XData)) -> nth_error (trc s) j = Some (mkEv u (KRd XData)) -> i < j -> t <> u -> hb (trc s) i j.
Proof.
  intros ls s t u i j R N A B L Ne. apply (mutex_orders ls s R N XData i j _ _ L A B). split; auto. split; [right; reflexivity|]. split; [left; reflexivity|]. left. reflexivity.
Qed.
Print Assumptions mutex_passes_on.

(** Coroutine 0 writes under the mutex, coroutine 1 parks, fails once to get the spin lock, is handed the mutex and reads; 2 takes it afterwards and writes. *)
Definition m_demo : list rlbl :=
  map RM ([Call 0 OLock] ++ repeat (Run 0 false) 3) ++ [RUse 0 true] ++
  map RM ([Call 1 OLock] ++ repeat (Run 1 true) 5 ++ [Call 2 OTry; Run 2 false]) ++ [RM (Call 0 OUnlock); RFail 0] ++
  map RM (repeat (Run 2 false) 2 ++ repeat (Run 0 false) 4 ++ repeat (Run 1 false) 4) ++ [RUse 1 false] ++
  map RM ([Call 1 OUnlock] ++ repeat (Run 1 false) 3 ++ [Call 2 OLock] ++ repeat (Run 2 false) 3) ++ [RUse 2 true].
Example mutex_race_example : exists s, run rstep rinit m_demo = Some s /\ no_relock (hist (mx s)) /\
  nth_error (trc s) 4 = Some (mkEv 0 (KWr XData)) /\ nth_error (trc s) 23 = Some (mkEv 1 (KRd XData)) /\
  nth_error (trc s) 33 = Some (mkEv 2 (KWr XData)) /\ hb (trc s) 4 23 /\ hb (trc s) 23 33.
Proof.
  assert (X : exists s, run rstep rinit m_demo = Some s /\ no_relock (hist (mx s)) /\
    nth_error (trc s) 4 = Some (mkEv 0 (KWr XData)) /\ nth_error (trc s) 23 = Some (mkEv 1 (KRd XData)) /\ nth_error (trc s) 33 = Some (mkEv 2 (KWr XData))).
  { eexists. split; [vm_compute; reflexivity|]. cbn. repeat split. }
  destruct X as (s&R&N&A&B&C). exists s. repeat (split; [assumption|]). split.
  - apply (mutex_passes_on m_demo s 0 1); auto; lia.
  - apply (mutex_orders m_demo s R N XData 23 33 _ _ ltac:(lia) B C). split; [discriminate|]. split; [now left|]. split; [now right|]. now right.
Qed.
