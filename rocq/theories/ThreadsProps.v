(** C111, continued: the maximum number of threads. *)
From Coq Require Import List Arith Bool Lia.
From Verif Require Import Base MgrSpec MgrModel MgrProofs MgrMove MgrProps.
Import ListNotations.

(** The threads that can be given coroutines, as a set of threads of the manager. *)
Definition in_use (s : mst) (q : list thr) : Prop := NoDup q /\ forall t, In t q -> In t (map (ev s) (nrm s)) /\ eligible t.

(** A new thread is made only while fewer threads than the maximum can be given coroutines, if the base count is set to at
    most the maximum.  What is missing: a base count above the maximum, threads that are blocked and come back, and threads
    for exclusive use. *)
Theorem threads_new_partial : forall base max s k c s' q, base <= max -> 0 < max -> mstep_ok base max s (MBest k c) = Some s' ->
  nrm s' <> nrm s -> in_use s q -> length q < max.
Proof.
  intros base max s k c s' q B M H N [D Q]. unfold mstep_ok, mstep in H. destruct (crt s k); try discriminate. destruct (mon s); try discriminate.
  destruct (get_best (map (ev s) (nrm s)) base) as [t|] eqn:G.
  - injection H as <-. simpl in N. congruence.
  - destruct (best_new _ _ G) as [_ X]. destruct (X q D Q) as [-> | L]; simpl; lia.
Qed.
Print Assumptions threads_new_partial.
(** Refuted: the maximum is not looked at when threads are made.  With set_base_schedule_thread_count(3) and
    set_max_schedule_thread_count(1), three coroutines get three threads, all busy, of which none is reclaimed. *)
Definition tm_ls : list mlbl := [MBest 0 10; MCheck 0; MPush 0; MBest 0 11; MCheck 0; MPush 0; MBest 0 12; MCheck 0; MPush 0; MSel; MRel].
Theorem threads_max_refuted : exists base max ls s q, run (mstep_ok base max) (minit (fun i => mkT i MBusy false false false false true []) 0) ls = Some s /\
  in_use s q /\ max < length q /\ (forall t, In t q -> tst t = MBusy) /\ last ls MSel = MRel.
Proof.
  exists 3, 1, tm_ls. eexists. eexists (map (fun p => mkT (fst p) MBusy false false false false false [(snd p, true)]) [(2, 12); (1, 11); (0, 10)]).
  split; [vm_compute; reflexivity|]. split; [split; [|]|].
  - repeat constructor; simpl; intros X; repeat destruct X as [X|X]; try discriminate X; contradiction.
  - intros t T. split; [vm_compute; vm_compute in T; tauto|]. repeat destruct T as [<-|T]; try contradiction; repeat split; discriminate.
  - split; [vm_compute; lia|]. split; [|reflexivity]. intros t T. repeat destruct T as [<-|T]; try contradiction; reflexivity.
Qed.
Print Assumptions threads_max_refuted.
Example threads_new_ex : exists s s', run (mstep_ok 2 2) (minit (fun i => mkT i MBusy false false false false true []) 0) [MBest 0 10; MCheck 0; MPush 0] = Some s /\
  mstep_ok 2 2 s (MBest 0 11) = Some s' /\ nrm s = [0] /\ nrm s' = [1; 0] /\ in_use s [ev s 0].
Proof.
  eexists. eexists. split; [vm_compute; reflexivity|]. split; [vm_compute; reflexivity|]. split; [reflexivity|]. split; [reflexivity|]. split.
  - repeat constructor. intros [].
  - intros t [<-|[]]. split; [vm_compute; auto|]. repeat split; discriminate.
Qed.
