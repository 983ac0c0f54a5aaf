(** C62: timed waits and the schedule lock of their thread.  [n] is the number of coroutines of the thread, [ls] any
    interleaving of it with any number of calls of other threads. *)
From Coq Require Import List Arith Bool Lia.
From Verif Require Import Base HoldSpec HoldModel HoldProofs.
Import ListNotations.

(** No end of sleep without a wake-up (cv_sleep__.wait may return for no reason; this is the one step excluded). *)
Definition regular (l : hlbl) : bool := match l with LRise => false | _ => true end.

(** The thread is stuck: it sleeps holding its own lock, and whatever happens it sleeps on. *)
Definition stuck (n : nat) (s : hst) : Prop :=
  sleeps (hh s) = true /\ forall ls s', forallb regular ls = true -> run (hstep n) s ls = Some s' -> sleeps (hh s') = true.

Lemma stuck_step : forall n s l s', ph s = TSlp false -> 0 < dep s -> sleeps (hh s) = true -> regular l = true -> hstep n s l = Some s' ->
  ph s' = TSlp false /\ 0 < dep s' /\ sleeps (hh s') = true.
Proof.
  intros n s l s' P D S R E. destruct l; try discriminate R; unfold hstep in E; rewrite ?P in E; try discriminate E.
  - destruct (hag s k); [discriminate|]. injection E as <-. simpl. auto.
  - destruct (hag s k); [|discriminate]. destruct (dep s); [lia|discriminate].
Qed.
Lemma stuck_if : forall n s, ph s = TSlp false -> 0 < dep s -> sleeps (hh s) = true -> stuck n s.
Proof.
  intros n s P D S. split; auto. intros ls. revert s P D S. induction ls as [|l ls IH]; intros s P D S s' F R.
  - now injection R as <-.
  - simpl in F. apply andb_true_iff in F as [F1 F2]. simpl in R. destruct (hstep n s l) as [s1|] eqn:E; [|discriminate].
    destruct (stuck_step _ _ _ _ P D S F1 E) as (P1&D1&S1). eapply IH; eauto.
Qed.

(** Refuted: a coroutine's timed wait ends, its lock is taken, so it waits again, holding the schedule lock; the thread falls
    asleep.  Call 1 of the lock's holder gives it the lock, so it is runnable, but the call cannot wake the thread: it waits for
    the schedule lock.  The thread sleeps for ever and the call never returns. *)
Definition timed_run : list hlbl :=
  [LAgain; LPick 0; LTimed; LEnter; LUnl; LYield; LIdle; LChk] ++ [LRel 0 0; LWake 0] ++
  [LRise; LChk; LAgain; LPick 0; LRelock; LEnter; LYield; LIdle; LChk] ++ [LRel 1 0].
Theorem timed_wait_thread_refuted : exists ls s, run (hstep 1) hinit ls = Some s /\
  stuck 1 s /\ hrun s 0 = true /\ calling 1 (hh s) = true /\ hstep 1 s (LWake 1) = None.
Proof.
  exists timed_run. eexists. split; [vm_compute; reflexivity|]. split; [apply stuck_if; [reflexivity|simpl; lia|reflexivity]|].
  split; [reflexivity|]. split; reflexivity.
Qed.
Print Assumptions timed_wait_thread_refuted.

(** How often the sleeping thread holds its lock: once for every timed wait that is re-acquiring its lock. *)
Theorem hold_depth : forall n ls s, run (hstep n) hinit ls = Some s -> sleeps (hh s) = true -> dep s = relocks (hh s).
Proof.
  intros n ls s R S. pose proof (hi_run _ _ _ R) as V. pose proof (h_slp _ _ V S) as P. rewrite (h_dep _ _ V), (h_lk _ _ V), P. simpl.
  apply cnt_ext. intros c L. pose proof (h_no _ _ V (ex_intro _ _ P) c L). destruct (pcs s c) eqn:PC; auto; [congruence|].
  apply (h_ww _ _ V) in PC. congruence.
Qed.
Print Assumptions hold_depth.

(** So the property holds as long as no coroutine of the thread is re-acquiring its lock at the end of a timed wait: then every
    call that has ended the wait of a coroutine can wake the sleeping thread.  What is missing is the case of such a
    re-acquisition, in which it is false. *)
Theorem timed_wait_thread_partial : forall n ls s, run (hstep n) hinit ls = Some s -> sleeps (hh s) = true -> relocks (hh s) = 0 ->
  (forall c, c < n -> hrun s c = true -> exists k, calling k (hh s) = true /\ exists s', hstep n s (LWake k) = Some s' /\ sleeps (hh s') = false) /\
  (forall k, hag s k = true -> exists s', hstep n s (LWake k) = Some s' /\ sleeps (hh s') = false).
Proof.
  intros n ls s R S Z. pose proof (hi_run _ _ _ R) as V. pose proof (hold_depth _ _ _ R S) as D. rewrite Z in D.
  assert (W : forall k, hag s k = true -> exists s', hstep n s (LWake k) = Some s' /\ sleeps (hh s') = false).
  { intros k K. unfold hstep. rewrite K, D. eexists. split; reflexivity. }
  split; auto. intros c L RC. destruct (h_slq _ _ V (h_slp _ _ V S) c L) as [X|[k K]]; [congruence|].
  exists k. split; [now apply (h_cal _ _ V)|auto].
Qed.
Print Assumptions timed_wait_thread_partial.

(** With such a re-acquisition it is false in every state: a thread that sleeps then is stuck. *)
Theorem timed_wait_thread_stuck : forall n ls s, run (hstep n) hinit ls = Some s -> sleeps (hh s) = true -> 0 < relocks (hh s) -> stuck n s.
Proof.
  intros n ls s R S Z. pose proof (hi_run _ _ _ R) as V. rewrite <- (hold_depth _ _ _ R S) in Z. apply stuck_if; auto. now apply (h_slp _ _ V).
Qed.
Print Assumptions timed_wait_thread_stuck.

(** Awake or asleep, no other thread gets through a wake-up of this thread while one of its coroutines re-acquires its lock. *)
Theorem hold_blocks : forall n ls s, run (hstep n) hinit ls = Some s -> 0 < relocks (hh s) -> forall k, hstep n s (LWake k) = None.
Proof.
  intros n ls s R Z k. pose proof (hi_run _ _ _ R) as V. rewrite (h_lk _ _ V) in Z.
  assert (X : cnt (fun c => inlk (pcs s c)) n <= cnt (fun c => holds (pcs s c)) n).
  { clear. induction n; simpl; auto. destruct (pcs s n); simpl; lia. }
  pose proof (h_dep _ _ V) as D. unfold hstep. destruct (hag s k); auto. destruct (dep s); auto. lia.
Qed.
Print Assumptions hold_blocks.

(** A plain wait: the thread sleeps without the lock and call 0 wakes it. *)
Example hold_ok_ex : option_map (fun s => (sleeps (hh s), relocks (hh s), dep s, hag s 0)) (run (hstep 2) hinit
  [LAgain; LPick 0; LEnter; LYield; LPick 1; LTimed; LEnter; LUnl; LYield; LIdle; LChk; LRel 0 0]) = Some (true, 0, 0, true).
Proof. reflexivity. Qed.
(** A timed wait that ends without contention leaves the lock free. *)
Example hold_timed_ex : option_map (fun s => (sleeps (hh s), dep s, hh s)) (run (hstep 1) hinit
  [LAgain; LPick 0; LTimed; LEnter; LUnl; LYield; LIdle; LChk; LRel 0 0; LWake 0; LRise; LChk; LAgain; LPick 0; LRelock; LGot])
  = Some (false, 0, [HGot 0; HRelock 0; HUp; HRet 0; HNote 0; HRel 0 0; HSleep; HTimed 0]).
Proof. reflexivity. Qed.
(** Two timed waits re-acquiring: the sleeping thread holds its lock twice. *)
Example hold_two_ex : option_map (fun s => (sleeps (hh s), dep s)) (run (hstep 2) hinit
  [LAgain; LPick 0; LTimed; LEnter; LUnl; LYield; LPick 1; LTimed; LEnter; LUnl; LYield; LIdle; LChk; LRel 0 0; LRel 1 1; LWake 0; LWake 1;
   LRise; LChk; LAgain; LPick 0; LRelock; LEnter; LYield; LPick 1; LRelock; LEnter; LYield; LIdle; LChk]) = Some (true, 2).
Proof. reflexivity. Qed.
