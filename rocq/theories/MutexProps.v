(** Properties C01-C04 of co_mutex. *)
From Coq Require Import List Arith Bool.
From Verif Require Import Base LinSpec MutexSpec MutexModel MutexProofs.
Import ListNotations.

(** A concrete execution used as witness below: 1 locks; 2 and 3 call lock(), run out
    of spinning time and park in this order; 1 unlocks (hand-off to 2); 2 returns
    from lock(); 3 is still parked; 1's try_lock() fails; 1's second unlock() throws. *)
Definition demo : list lbl :=
  [Call 1 OLock; Run 1 false; Run 1 false; Run 1 false;
   Call 2 OLock; Run 2 false; Run 2 false; Run 2 false; Run 2 false; Run 2 false;
   Run 2 true; Run 2 true; Run 2 true; Run 2 true;
   Call 3 OLock; Run 3 true; Run 3 true; Run 3 true; Run 3 true; Run 3 true;
   Call 1 OUnlock; Run 1 false; Run 1 false; Run 1 false; Run 1 false;
   Run 2 false; Run 2 false; Run 2 false; Run 2 false;
   Call 1 OTry; Run 1 false; Run 1 false; Run 1 false;
   Call 1 OUnlock; Run 1 false; Run 1 false; Run 1 false].

Example demo_ok :
  option_map (fun s => (owner s, q s, spin s, holding (hist s) 2, hd_error (hist s)))
             (run step init demo)
  = Some (Some 2, [3], false, true, Some (ERet 1 OUnlock RThrow))
  /\ (forall s, run step init demo = Some s -> no_relock (hist s)).
Proof.
  split; [vm_compute; reflexivity|].
  intros s H. vm_compute in H. injection H as <-. vm_compute. tauto.
Qed.

(** co_mutex is a linearizable mutex: every operation takes effect at one instant between
    call and return, and the effects form a run of the sequential mutex (in particular
    try_lock() is true exactly if the mutex is free at that instant). *)
Theorem mutex_is_linearizable : forall ls s,
  run step init ls = Some s -> no_relock (hist s) -> mutex_linearizable (hist s).
Proof. exact (fun ls s Hr Hn => inv_linearizable s (reach_inv_mutex ls s Hr Hn)). Qed.
Print Assumptions mutex_is_linearizable.

(** C01 *)
Theorem mutex_mutual_exclusion : forall ls s t u,
  run step init ls = Some s -> no_relock (hist s) ->
  holding (hist s) t = true -> holding (hist s) u = true -> t = u.
Proof.
  exact (fun ls s t u Hr Hn =>
    lin_exclusion (hist s) t u (inv_linearizable s (reach_inv_mutex ls s Hr Hn))).
Qed.
Print Assumptions mutex_mutual_exclusion.

(** The rule "no lock() by the holder" is needed: without it the history of a relock
    is not one of a mutex. *)
Definition relock_run : list lbl :=
  [Call 1 OLock; Run 1 false; Run 1 false; Run 1 false;
   Call 1 OLock; Run 1 true; Run 1 true; Run 1 true; Run 1 true; Run 1 true].
Theorem mutex_relock_unsupported : exists s,
  run step init relock_run = Some s /\ ~ mutex_linearizable (hist s).
Proof.
  eexists. split; [vm_compute; reflexivity|]. intros [H _]. apply (H 1). vm_compute. reflexivity.
Qed.
Print Assumptions mutex_relock_unsupported.

(** C02: results of unlock() *)
Theorem mutex_unlock_owner_only : forall ls s,
  run step init ls = Some s -> no_relock (hist s) -> unlock_results_ok (hist s).
Proof.
  exact (fun ls s Hr Hn =>
    lin_unlock_results (hist s) (inv_linearizable s (reach_inv_mutex ls s Hr Hn))).
Qed.
Print Assumptions mutex_unlock_owner_only.

(** C02: a throwing unlock() changes nothing.  From the point where it holds the internal
    spin lock, its remaining two steps leave owner, queue and wait marks as they were and
    end with the exception. *)
Theorem mutex_throwing_unlock_inert : forall s t late s',
  pcs s t = UnBody -> owner s <> Some t -> step s (Run t late) = Some s' ->
  owner s' = owner s /\ q s' = q s /\ (forall u, waiting s' u = waiting s u) /\
  exists s'', step s' (Run t late) = Some s'' /\ hd_error (hist s'') = Some (ERet t OUnlock RThrow) /\
              owner s'' = owner s /\ q s'' = q s.
Proof. exact throwing_unlock_inert. Qed.
Print Assumptions mutex_throwing_unlock_inert.
Example mutex_throwing_unlock_inert_ex :
  option_map (fun s => (pcs s 1, owner s)) (run step init (firstn 35 demo)) = Some (UnBody, Some 2).
Proof. vm_compute. reflexivity. Qed.

(** C03 *)
Theorem mutex_fifo_no_overtaking : forall ls s,
  run step init ls = Some s -> no_relock (hist s) -> line (hist s) <> None.
Proof.
  intros ls s Hr Hn. rewrite (i_line s (reach_inv_mutex ls s Hr Hn)). discriminate.
Qed.
Print Assumptions mutex_fifo_no_overtaking.
Example mutex_fifo_ex :
  option_map (fun s => line (hist s)) (run step init (firstn 20 demo)) = Some (Some [2; 3]) /\
  option_map (fun s => line (hist s)) (run step init demo) = Some (Some [3]).
Proof. vm_compute. auto. Qed.

(** C04: if nothing inside the mutex can move, everybody inside is in lock(), in line,
    behind a coroutine that holds the mutex and is outside. *)
Theorem mutex_no_lost_wakeup : forall ls s,
  run step init ls = Some s -> no_relock (hist s) ->
  (forall t late, step s (Run t late) = None) ->
  forall t, phase_of mop_eqb mres_eqb (hist s) t <> Some PIdle ->
  phase_of mop_eqb mres_eqb (hist s) t = Some (PPending OLock) /\
  In t (q s) /\
  exists o, holding (hist s) o = true /\ phase_of mop_eqb mres_eqb (hist s) o = Some PIdle.
Proof. exact (fun ls s Hr Hn => quiescent_mutex s (reach_inv_mutex ls s Hr Hn)). Qed.
Print Assumptions mutex_no_lost_wakeup.
Example mutex_no_lost_wakeup_ex :
  option_map (fun s => (waiting s 3, pcs s 3, phase_of mop_eqb mres_eqb (hist s) 3))
             (run step init demo) = Some (true, LkPark, Some (PPending OLock)).
Proof. vm_compute. reflexivity. Qed.

(** C04: a free mutex with a coroutine in lock() can be obtained without any new call. *)
Theorem mutex_free_progress : forall ls s t,
  run step init ls = Some s -> no_relock (hist s) -> owner s = None ->
  phase_of mop_eqb mres_eqb (hist s) t = Some (PPending OLock) ->
  exists s' u, ireach s s' /\ owner s' = Some u.
Proof.
  exact (fun ls s t Hr Hn => progress_free s t (conj (reach_inv_mutex ls s Hr Hn) Hn)).
Qed.
Print Assumptions mutex_free_progress.
Example mutex_free_progress_ex :
  option_map (fun s => (owner s, phase_of mop_eqb mres_eqb (hist s) 2))
    (run step init [Call 1 OLock; Run 1 false; Run 1 false; Run 1 false;
                    Call 2 OLock; Run 2 false; Run 2 false; Run 2 false;
                    Call 1 OUnlock; Run 1 false; Run 1 false; Run 1 false])
  = Some (None, Some (PPending OLock)).
Proof. vm_compute. reflexivity. Qed.

(** C04: a coroutine to which the mutex was handed over can return from lock() holding it. *)
Theorem mutex_granted_progress : forall ls s t,
  run step init ls = Some s -> no_relock (hist s) ->
  phase_of mop_eqb mres_eqb (hist s) t = Some (PDone OLock ROk) ->
  exists s', ireach s s' /\ holding (hist s') t = true /\
             phase_of mop_eqb mres_eqb (hist s') t = Some PIdle.
Proof.
  exact (fun ls s t Hr Hn => progress_granted s t (conj (reach_inv_mutex ls s Hr Hn) Hn)).
Qed.
Print Assumptions mutex_granted_progress.
Example mutex_granted_progress_ex :
  option_map (fun s => (pcs s 2, phase_of mop_eqb mres_eqb (hist s) 2))
    (run step init (firstn 24 demo)) = Some (LkPark, Some (PDone OLock ROk)).
Proof. vm_compute. reflexivity. Qed.
