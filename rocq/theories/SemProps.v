(** Properties C11, C12 of co_counting_semaphore. *)
From Coq Require Import List ZArith Bool Lia.
From Verif Require Import Base LinSpec HistSpec Monitor MonitorProofs SemSpec SemModel SemProofs.
Import ListNotations.
Open Scope Z_scope.

(** Witness: max 2, initially 1.  1 acquires; 2 blocks in acquire; 3's try_acquire fails;
    4 calls release(3): adds two units (waking 2), blocks on the third (the count is at its maximum);
    2 takes a unit, which lets 4 finish. *)
Definition sem_demo : list (mlbl sop) :=
  [MCall 1%nat OAcquire; MRun 1%nat false; MLeave 1%nat;
   MCall 2%nat OAcquire; MRun 2%nat false;
   MCall 3%nat OTryAcq; MRun 3%nat false; MLeave 3%nat;
   MCall 4%nat (ORelease 3); MRun 4%nat false; MRun 4%nat false; MRun 4%nat false;
   MRun 2%nat false; MRun 4%nat false; MLeave 4%nat].

Example sem_demo_ok :
  option_map (fun s => (dat s, qs s EMPTY, qs s FULL, permits 1 (mhist s), hd_error (mhist s)))
             (run (sem_step 2) (sem_init 1) sem_demo)
  = Some (2, [], [], 2, Some (ERet 4%nat (ORelease 3) ROk)).
Proof. vm_compute. reflexivity. Qed.

(** C11: at every instant the number of permits, computed from the API history, is between
    0 and the maximum; *)
Theorem sem_bounds : forall init max ls s, 0 <= init <= max ->
  run (sem_step max) (sem_init init) ls = Some s ->
  always (fun h => 0 <= permits init h <= max) (mhist s).
Proof. exact (fun init max ls s Hi Hr => sem_always_bounds init max Hi s (sinv_run init max Hi ls s Hr)). Qed.
Print Assumptions sem_bounds.

(** ... it decides every acquire, try_acquire and unit of release; *)
Theorem sem_permits_decide : forall init max ls s, 0 <= init <= max ->
  run (sem_step max) (sem_init init) ls = Some s ->
  always_at (sem_event_ok init max) (mhist s).
Proof. exact (fun init max ls s Hi Hr => s_ok _ _ _ (sinv_run init max Hi ls s Hr)). Qed.
Print Assumptions sem_permits_decide.

(** ... release(n) adds exactly n units (none if n <= 0) and nothing else adds any. *)
Theorem sem_release_units : forall init max ls s, 0 <= init <= max ->
  run (sem_step max) (sem_init init) ls = Some s ->
  always_at units_ok (mhist s).
Proof. exact (fun init max ls s Hi Hr => s_units _ _ _ (sinv_run init max Hi ls s Hr)). Qed.
Print Assumptions sem_release_units.

(** Every call takes effect once, between call and return, with the returned result. *)
Theorem sem_calls_well_formed : forall init max ls s t, 0 <= init <= max ->
  run (sem_step max) (sem_init init) ls = Some s ->
  phase_of sop_eqb sres_eqb (mhist s) t <> None.
Proof.
  intros init max ls s t Hi Hr. rewrite (w_ph (s_wf _ _ _ (sinv_run init max Hi ls s Hr)) t). discriminate.
Qed.
Print Assumptions sem_calls_well_formed.

(** C12: when nobody can run, a blocked acquire() means no permit, a blocked release()
    means a full semaphore; nothing else is ever blocked. *)
Theorem sem_no_stranded_waiter : forall init max ls s t o, 0 <= init <= max ->
  run (sem_step max) (sem_init init) ls = Some s ->
  quiescent sem_entry (sem_body max) s ->
  phase_of sop_eqb sres_eqb (mhist s) t = Some (PPending o) ->
  match o with
  | OAcquire => permits init (mhist s) = 0
  | ORelease n => permits init (mhist s) = max
  | OTryAcq | OTryUntil => False
  end.
Proof.
  intros init max ls s t o Hi Hr HQ Hp.
  pose proof (sem_quiescent init max s t o (sinv_run init max Hi ls s Hr) HQ Hp) as H. destruct o; exact H.
Qed.
Print Assumptions sem_no_stranded_waiter.

(** A quiescent state with a blocked coroutine exists: max 1, initially 0, 2 waits in acquire();
    and one with a blocked release(): initially 1. *)
Example sem_quiescent_case : exists s,
  run (sem_step 1) (sem_init 0) [MCall 2%nat OAcquire; MRun 2%nat false] = Some s /\
  quiescent sem_entry (sem_body 1) s /\
  phase_of sop_eqb sres_eqb (mhist s) 2%nat = Some (PPending OAcquire).
Proof.
  eexists. split; [vm_compute; reflexivity|]. split; [|vm_compute; reflexivity].
  intros [|[|[|t]]]; split; intros; reflexivity.
Qed.
Example sem_quiescent_case_full : exists s,
  run (sem_step 1) (sem_init 1) [MCall 2%nat (ORelease 1); MRun 2%nat false] = Some s /\
  quiescent sem_entry (sem_body 1) s /\
  phase_of sop_eqb sres_eqb (mhist s) 2%nat = Some (PPending (ORelease 1)).
Proof.
  eexists. split; [vm_compute; reflexivity|]. split; [|vm_compute; reflexivity].
  intros [|[|[|t]]]; split; intros; reflexivity.
Qed.

(** A timed acquire never blocks: once its deadline has passed, its next turn ends it; and it gives up only at the
    deadline. *)
Theorem sem_until_deadline : forall init max ls s t, 0 <= init <= max ->
  run (sem_step max) (sem_init init) ls = Some s ->
  phase_of sop_eqb sres_eqb (mhist s) t = Some (PPending OTryUntil) ->
  (exists s' r, sem_step max s (MRun t true) = Some s' /\ mhist s' = ELin t OTryUntil r :: mhist s) /\
  (forall s' r, sem_step max s (MRun t false) = Some s' -> mhist s' = ELin t OTryUntil r :: mhist s -> r = RTrue).
Proof.
  intros init max ls s t Hi Hr Hp. pose proof (sinv_run init max Hi ls s Hr) as HI.
  rewrite (w_ph (s_wf _ _ _ HI) t) in Hp. pose proof (s_thr _ _ _ HI t) as Ht.
  assert (Et : ths s t = TReady OTryUntil LUntil).
  { destruct (ths s t) as [|o l|c o l|c o l|o r] eqn:E; simpl in Hp; try discriminate; injection Hp as ->.
    - destruct l; simpl in Ht; try contradiction. reflexivity.
    - destruct Ht as [Ht Hc]. destruct l; simpl in *; try contradiction; discriminate.
    - destruct Ht as [Ht Hc]. destruct l; simpl in *; try contradiction; discriminate. }
  unfold sem_step, mstep. rewrite Et. unfold run_body. cbn [sem_body]. split.
  - destruct (dat s =? 0); do 2 eexists; (split; [reflexivity|]); rewrite notifies_hist; reflexivity.
  - intros s' r Hs Hh. destruct (dat s =? 0); injection Hs as <-; rewrite ?notifies_hist in Hh; cbn in Hh.
    + exfalso. apply (f_equal (@length _)) in Hh. simpl in Hh. exact (n_Sn _ Hh).
    + rewrite (notify_hist _ (SOne FULL)) in Hh || rewrite notify1_hist in Hh. cbn in Hh. congruence.
Qed.
Print Assumptions sem_until_deadline.
Example sem_until_deadline_ex : exists s,
  run (sem_step 1) (sem_init 0) [MCall 2%nat OTryUntil; MRun 2%nat false; MRun 2%nat false] = Some s /\
  phase_of sop_eqb sres_eqb (mhist s) 2%nat = Some (PPending OTryUntil) /\
  option_map (fun s => hd_error (mhist s)) (sem_step 1 s (MRun 2%nat true)) = Some (Some (ELin 2%nat OTryUntil RFalse)).
Proof. eexists. split; [vm_compute; reflexivity|]. split; vm_compute; reflexivity. Qed.
