(** Properties C06 and C07: co_shared_mutex. *)
From Coq Require Import List Arith Bool.
From Verif Require Import Base LinSpec SharedMutexSpec SpinObj SpinObjProofs SharedMutexModel SharedMutexProofs.
Import ListNotations.

Local Notation phase := (phase_of sop_eqb sres_eqb).
Definition runs (t : tid) (n : nat) (b : bool) : list (slbl sop) := repeat (SRun t b) n.

(** ** The defect.
    1 holds the mutex exclusively; 2 (shared), 3 (exclusive), 4 (shared) park in this order; 1 unlocks; the woken
    coroutines 3 and 4 return. *)
Definition bad_run : list (slbl sop) :=
  [SCall 1 WLock] ++ runs 1 3 false ++
  [SCall 2 SLock] ++ runs 2 4 true ++ [SCall 3 WLock] ++ runs 3 4 true ++ [SCall 4 SLock] ++ runs 4 4 true ++
  [SCall 1 WUnlock] ++ runs 1 5 false ++ runs 3 4 false ++ runs 4 4 false.

(** C06 is false: lock() of 3 and lock_shared() of 4 have both returned, nobody broke a usage rule. *)
Theorem shared_mutex_exclusion_refuted : exists ls s,
  run sstep sinit ls = Some s /\ no_reacquire (fhist s) /\
  hold (fhist s) 3 = Some true /\ hold (fhist s) 4 = Some false.
Proof. exists bad_run. eexists. split; [vm_compute; reflexivity|]. vm_compute. tauto. Qed.
Print Assumptions shared_mutex_exclusion_refuted.

(** ... and the unlock() of the supposed exclusive holder throws. *)
Theorem shared_mutex_owner_unlock_throws_refuted : exists ls s,
  run sstep sinit ls = Some s /\ no_reacquire (fhist s) /\ ~ rw_unlocks_ok (fhist s) /\
  hd_error (fhist s) = Some (ERet 3 WUnlock SThrow).
Proof.
  exists (bad_run ++ [SCall 3 WUnlock] ++ runs 3 3 false). eexists. split; [vm_compute; reflexivity|].
  split; [vm_compute; tauto|]. split; [|reflexivity]. vm_compute. intros [H _]. discriminate.
Qed.
Print Assumptions shared_mutex_owner_unlock_throws_refuted.

(** C07 is false: 2 was the first in line; it is neither granted nor queued any more, and whatever happens
    afterwards its lock_shared() never returns. *)
Theorem shared_mutex_forgets_waiter_refuted : exists ls s,
  run sstep sinit ls = Some s /\ no_reacquire (fhist s) /\
  forall ls' s', run sstep s ls' = Some s' -> phase (fhist s') 2 = Some (PPending SLock).
Proof.
  exists bad_run. eexists. split; [vm_compute; reflexivity|]. split; [vm_compute; tauto|].
  intros ls' s' Hr. eapply (lost_forever 2 SLock) in Hr; [destruct Hr as (_&_&_&_&_&H); exact H|].
  unfold lost. cbn [fpcs fmark fdat fhist sow sq].
  split; [eexists; vm_compute; reflexivity|]. split; [vm_compute; reflexivity|].
  split; [intros H; vm_compute in H; intuition discriminate|].
  split; [intros H; vm_compute in H; intuition discriminate|].
  split; [|vm_compute; reflexivity].
  intros u o' gr r. do 5 (destruct u as [|u]; [discriminate|]). discriminate.
Qed.
Print Assumptions shared_mutex_forgets_waiter_refuted.

(** ** What holds.
    The defect needs a complete release while a reader is first in line and a writer is behind it; [unmixed] says
    that this does not happen. *)
Definition good_run : list (slbl sop) :=
  [SCall 1 WLock] ++ runs 1 3 false ++
  [SCall 2 WLock] ++ runs 2 4 true ++ [SCall 3 SLock] ++ runs 3 4 true ++ [SCall 4 SLock] ++ runs 4 4 true ++
  [SCall 1 WUnlock] ++ runs 1 4 false ++ runs 2 4 false ++   (* hand-off to the writer 2 *)
  [SCall 2 WUnlock] ++ runs 2 5 false ++ runs 4 4 false ++ runs 3 4 false ++ (* both readers *)
  [SCall 5 WLock] ++ runs 5 4 true ++ [SCall 6 STry] ++ runs 6 3 false ++
  [SCall 3 WUnlock] ++ runs 3 3 false.
Definition on_run {X} (f : fst_ sdat sop sres saux sloc -> X) (ls : list (slbl sop)) : option X :=
  option_map f (run sstep sinit ls).

Example good_run_ok :
  on_run (fun s => (hold (fhist s) 3, hold (fhist s) 4, hold (fhist s) 6, sline (fhist s), rw_state (fhist s),
                    hd_error (fhist s))) good_run
  = Some (Some false, Some false, Some false, Some [(true, 5)], Some (Readers [6; 4; 3]), Some (ERet 3 WUnlock SThrow))
  /\ (forall s, run sstep sinit good_run = Some s -> no_reacquire (fhist s) /\ unmixed (fhist s)).
Proof.
  split; [vm_compute; reflexivity|]. intros s H. vm_compute in H. injection H as <-. split; [vm_compute; tauto|].
  cbn [unmixed fhist].
  repeat match goal with
  | |- _ /\ _ => split
  | |- _ -> _ => intro
  | |- forall _, _ => intro
  | |- True => exact I
  | H : _ \/ _ |- _ => destruct H; try discriminate
  | H : rw_state _ = Some Free |- _ => vm_compute in H; discriminate
  | H : sline _ = Some ?q |- _ => vm_compute in H; injection H as <-
  | |- front_ok _ => vm_compute; intuition (subst; auto)
  end.
Qed.

Theorem shared_mutex_linearizable_partial : forall ls s,
  run sstep sinit ls = Some s -> no_reacquire (fhist s) -> unmixed (fhist s) -> rw_linearizable (fhist s).
Proof.
  intros ls s Hr Hn Hu. destruct (sh_reach ls s Hr Hn Hu) as (a&HR&HI). rewrite (r_hist HR). now apply sh_lin.
Qed.
Print Assumptions shared_mutex_linearizable_partial.

(** C06 without the bad situation. Missing from the full claim: executions that meet it. *)
Theorem shared_mutex_exclusion_partial : forall ls s t u b,
  run sstep sinit ls = Some s -> no_reacquire (fhist s) -> unmixed (fhist s) ->
  hold (fhist s) t = Some true -> hold (fhist s) u = Some b -> u = t.
Proof.
  intros ls s t u b Hr Hn Hu. destruct (sh_reach ls s Hr Hn Hu) as (a&HR&HI). rewrite (r_hist HR).
  now apply sh_exclusion.
Qed.
Print Assumptions shared_mutex_exclusion_partial.
Example shared_mutex_exclusion_partial_ex :
  on_run (fun s => (hold (fhist s) 2, hold (fhist s) 3)) (firstn 28 good_run) = Some (Some true, None).
Proof. vm_compute. reflexivity. Qed.

(** Both kinds of unlock return normally exactly for a holder in that mode. *)
Theorem shared_mutex_unlock_owner_only_partial : forall ls s,
  run sstep sinit ls = Some s -> no_reacquire (fhist s) -> unmixed (fhist s) -> rw_unlocks_ok (fhist s).
Proof.
  intros ls s Hr Hn Hu. destruct (sh_reach ls s Hr Hn Hu) as (a&HR&HI). rewrite (r_hist HR). now apply i_un.
Qed.
Print Assumptions shared_mutex_unlock_owner_only_partial.

(** C07 without the bad situation: parked coroutines leave the line only from its head and only by being granted the
    mode they asked for; a free mutex has nobody parked; and when nothing inside can move, everybody inside
    is parked in line behind a holder that is outside. *)
Theorem shared_mutex_line_partial : forall ls s,
  run sstep sinit ls = Some s -> no_reacquire (fhist s) -> unmixed (fhist s) ->
  sline (fhist s) <> None /\ (rw_state (fhist s) = Some Free -> sline (fhist s) = Some []).
Proof.
  intros ls s Hr Hn Hu. destruct (sh_reach ls s Hr Hn Hu) as (a&HR&HI). rewrite (r_hist HR).
  split; [rewrite (i_line a HI); discriminate|now apply sh_free_empty].
Qed.
Print Assumptions shared_mutex_line_partial.
Example shared_mutex_line_partial_ex :
  on_run (fun s => (sline (fhist s), rw_state (fhist s))) (firstn 19 good_run)
  = Some (Some [(true, 2); (false, 3); (false, 4)], Some (Writer 1)).
Proof. vm_compute. reflexivity. Qed.

Theorem shared_mutex_no_lost_wakeup_partial : forall ls s,
  run sstep sinit ls = Some s -> no_reacquire (fhist s) -> unmixed (fhist s) ->
  (forall t b, sstep s (SRun t b) = None) ->
  forall t, phase (fhist s) t <> Some PIdle ->
  exists w : bool, phase (fhist s) t = Some (PPending (if w then WLock else SLock)) /\
  (exists q, sline (fhist s) = Some q /\ In (w, t) q) /\
  exists o, hold (fhist s) o <> None /\ phase (fhist s) o = Some PIdle.
Proof.
  intros ls s Hr Hn Hu HQ. destruct (sh_reach ls s Hr Hn Hu) as (a&HR&HI).
  pose proof (quiet_transfer HR HQ) as HQ'. rewrite (r_hist HR). intros t Hp.
  destruct (sh_quiet a HI HQ' t Hp) as (w&H1&H2&H3). exists w. repeat split; auto.
  exists (sq (adat a)). split; [apply (i_line a HI)|exact H2].
Qed.
Print Assumptions shared_mutex_no_lost_wakeup_partial.
Example shared_mutex_no_lost_wakeup_partial_ex :
  on_run (fun s => (fpcs s 5, fmark s 5, phase (fhist s) 5, phase (fhist s) 4)) good_run
  = Some (FPark WLock LW3, true, Some (PPending WLock), Some PIdle).
Proof. vm_compute. reflexivity. Qed.

(** Programs in which only one coroutine ever asks for exclusive mode are safe. *)
Theorem shared_mutex_single_writer_partial : forall w ls s,
  run sstep sinit ls = Some s -> no_reacquire (fhist s) -> single_writer w (fhist s) ->
  unmixed (fhist s) /\ rw_linearizable (fhist s) /\
  forall t u b, hold (fhist s) t = Some true -> hold (fhist s) u = Some b -> u = t.
Proof.
  intros w ls s Hr Hn Hw. pose proof (sw_unmixed w ls s Hr Hn Hw) as Hu. split; [exact Hu|].
  split; [eapply shared_mutex_linearizable_partial; eauto|].
  intros t u b. eapply shared_mutex_exclusion_partial; eauto.
Qed.
Print Assumptions shared_mutex_single_writer_partial.
Example shared_mutex_single_writer_partial_ex :
  exists s, run sstep sinit ([SCall 1 WLock] ++ runs 1 3 false ++ [SCall 2 SLock] ++ runs 2 4 true ++
    [SCall 1 WUnlock] ++ runs 1 4 false ++ runs 2 4 false ++ [SCall 1 WLock] ++ runs 1 4 true ++
    [SCall 3 SLock] ++ runs 3 3 false) = Some s /\ no_reacquire (fhist s) /\ single_writer 1 (fhist s) /\
    sline (fhist s) = Some [(true, 1)] /\ hold (fhist s) 3 = Some false.
Proof. eexists. split; [vm_compute; reflexivity|]. vm_compute. tauto. Qed.
