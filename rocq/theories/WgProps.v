(** Property C15 of co_wait_group. *)
From Coq Require Import List ZArith Bool Lia.
From Verif Require Import Base LinSpec HistSpec Monitor MonitorProofs WgSpec WgModel WgProofs.
Import ListNotations.
Open Scope Z_scope.

(** Witness: group of 2; 1 and the destructor in 4 wait; 2 and 3 are done; both waiters return. *)
Definition wg_demo : list (mlbl wop) :=
  [MCall 1%nat OWaitG; MRun 1%nat false; MCall 4%nat ODestroy; MRun 4%nat false;
   MCall 2%nat ODone; MRun 2%nat false; MLeave 2%nat; MCall 3%nat ODone; MRun 3%nat false;
   MRun 1%nat false; MLeave 1%nat; MRun 4%nat false; MLeave 4%nat; MLeave 3%nat].
Example wg_demo_ok : exists s, run (wg_step 2) wg_init wg_demo = Some s /\ dones (mhist s) = 2 /\
  In (ERet 1%nat OWaitG ROk) (mhist s) /\ In (ERet 4%nat ODestroy ROk) (mhist s).
Proof. eexists. split; [vm_compute; reflexivity|]. split; [reflexivity|]. simpl; tauto. Qed.

(** C15: wait() and the destructor return only after count calls of done(); done() is within the
    count exactly as long as fewer than count were made. *)
Theorem wg_waits_for_count : forall count ls s,
  run (wg_step count) wg_init ls = Some s -> always_at (wg_event_ok count) (mhist s).
Proof. exact (fun count ls s Hr => i_ok _ _ (winv_run count ls s Hr)). Qed.
Print Assumptions wg_waits_for_count.

Theorem wg_calls_well_formed : forall count ls s t,
  run (wg_step count) wg_init ls = Some s -> phase_of wop_eqb wres_eqb (mhist s) t <> None.
Proof. intros count ls s t Hr. rewrite (w_ph (i_wf _ _ (winv_run count ls s Hr)) t). discriminate. Qed.
Print Assumptions wg_calls_well_formed.

(** C15: after count calls of done() nobody stays blocked; done() itself never blocks. *)
Theorem wg_releases_everybody : forall count ls s t o,
  run (wg_step count) wg_init ls = Some s -> quiescent wg_entry (wg_body count) s ->
  phase_of wop_eqb wres_eqb (mhist s) t = Some (PPending o) ->
  o <> ODone /\ dones (mhist s) < count.
Proof. exact (fun count ls s t o Hr => wg_quiescent count s t o (winv_run count ls s Hr)). Qed.
Print Assumptions wg_releases_everybody.

Example wg_quiescent_case : exists s,
  run (wg_step 2) wg_init [MCall 1%nat OWaitG; MRun 1%nat false; MCall 2%nat ODone; MRun 2%nat false; MLeave 2%nat] = Some s /\
  quiescent wg_entry (wg_body 2) s /\
  phase_of wop_eqb wres_eqb (mhist s) 1%nat = Some (PPending OWaitG).
Proof.
  eexists. split; [vm_compute; reflexivity|]. split; [|vm_compute; reflexivity].
  intros [|[|[|t]]]; split; intros; reflexivity.
Qed.
