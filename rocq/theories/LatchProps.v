(** Properties C13, C14 of co_latch. *)
From Coq Require Import List ZArith Bool Lia.
From Verif Require Import Base LinSpec HistSpec Monitor MonitorProofs LatchSpec LatchModel LatchProofs.
Import ListNotations.
Open Scope Z_scope.

(** Witness: latch of 3.  1 waits; 2 arrives with weight 2 and waits; 3's count_down(2) throws;
    4's try_wait is false; 3 counts down 1, which opens the latch; all return. *)
Definition latch_demo : list (mlbl lop) :=
  [MCall 1%nat OWaitL; MRun 1%nat false;
   MCall 2%nat (OArrive 2); MRun 2%nat false; MRun 2%nat false;
   MCall 3%nat (OCount 2); MRun 3%nat false; MLeave 3%nat;
   MCall 4%nat OTryWait; MRun 4%nat false; MLeave 4%nat;
   MCall 3%nat (OCount 1); MRun 3%nat false; MLeave 3%nat;
   MRun 2%nat false; MLeave 2%nat; MRun 1%nat false; MLeave 1%nat].
Example latch_demo_ok : exists s,
  run latch_step (latch_init 3) latch_demo = Some s /\ amounts_ok (mhist s) /\
  downs (mhist s) = 3 /\ In (ERet 3%nat (OCount 2) RThrow) (mhist s) /\
  In (ERet 4%nat OTryWait RFalse) (mhist s) /\ hd_error (mhist s) = Some (ERet 1%nat OWaitL ROk).
Proof.
  eexists. split; [vm_compute; reflexivity|]. repeat split; try reflexivity.
  - intros t o H. simpl in H. repeat (destruct H as [H|H]; [inversion H; subst; try exact I; discriminate|]). destruct H.
  - simpl; tauto.
  - simpl; tauto.
Qed.

(** C13: when the amounts are not negative, every return of wait() and arrive_and_wait() comes
    after the amounts have added up to the initial count, try_wait() tells exactly that, and a
    count_down() beyond the remaining count throws without effect. *)
Theorem latch_opens_exactly : forall init ls s, 0 <= init ->
  run latch_step (latch_init init) ls = Some s -> amounts_ok (mhist s) ->
  always_at (latch_event_ok init) (mhist s).
Proof. exact (fun init ls s Hi Hr Ha => l_ok _ _ (linv_run init Hi ls s Hr Ha)). Qed.
Print Assumptions latch_opens_exactly.

(** ... and it stays so for ever. *)
Theorem latch_stays_open : forall init ls s newer older, 0 <= init ->
  run latch_step (latch_init init) ls = Some s -> amounts_ok (mhist s) ->
  mhist s = newer ++ older -> downs older = init -> downs (mhist s) = init.
Proof.
  exact (fun init ls s newer older Hi Hr Ha => latch_open_for_ever init s newer older (linv_run init Hi ls s Hr Ha)).
Qed.
Print Assumptions latch_stays_open.

(** The history never counts below zero. *)
Theorem latch_never_below_zero : forall init ls s, 0 <= init ->
  run latch_step (latch_init init) ls = Some s -> amounts_ok (mhist s) ->
  0 <= downs (mhist s) <= init.
Proof.
  intros init ls s Hi Hr Ha. pose proof (linv_run init Hi ls s Hr Ha) as HI.
  pose proof (l_dat _ _ HI). pose proof (l_rng _ _ HI). lia.
Qed.
Print Assumptions latch_never_below_zero.

Theorem latch_calls_well_formed : forall init ls s t, 0 <= init ->
  run latch_step (latch_init init) ls = Some s -> amounts_ok (mhist s) ->
  phase_of lop_eqb lres_eqb (mhist s) t <> None.
Proof.
  intros init ls s t Hi Hr Ha. rewrite (w_ph (l_wf _ _ (linv_run init Hi ls s Hr Ha)) t). discriminate.
Qed.
Print Assumptions latch_calls_well_formed.

(** C14: when nobody can run, a coroutine still inside the latch is in wait() or arrive_and_wait()
    and the latch has not been counted down to zero. *)
Theorem latch_releases_everybody : forall init ls s t o, 0 <= init ->
  run latch_step (latch_init init) ls = Some s -> amounts_ok (mhist s) ->
  quiescent latch_entry latch_body s ->
  phase_of lop_eqb lres_eqb (mhist s) t = Some (PPending o) ->
  downs (mhist s) < init /\ (o = OWaitL \/ exists n, o = OArrive n).
Proof.
  exact (fun init ls s t o Hi Hr Ha => latch_quiescent init s t o (linv_run init Hi ls s Hr Ha)).
Qed.
Print Assumptions latch_releases_everybody.

Example latch_quiescent_case : exists s,
  run latch_step (latch_init 3) [MCall 2%nat (OArrive 2); MRun 2%nat false; MRun 2%nat false] = Some s /\
  amounts_ok (mhist s) /\ quiescent latch_entry latch_body s /\
  phase_of lop_eqb lres_eqb (mhist s) 2%nat = Some (PPending (OArrive 2)).
Proof.
  eexists. split; [vm_compute; reflexivity|]. split; [|split; [|vm_compute; reflexivity]].
  - intros t o H. simpl in H. repeat (destruct H as [H|H]; [inversion H; subst; try exact I; discriminate|]). destruct H.
  - intros [|[|[|t]]]; split; intros; reflexivity.
Qed.

(** The rule about amounts is needed: count_down(-1) re-arms an open latch. *)
Theorem latch_negative_amount_reopens : exists s,
  run latch_step (latch_init 1)
    [MCall 1%nat (OCount 1); MRun 1%nat false; MLeave 1%nat; MCall 1%nat (OCount (-1)); MRun 1%nat false; MLeave 1%nat;
     MCall 2%nat OTryWait; MRun 2%nat false; MLeave 2%nat] = Some s /\
  hd_error (mhist s) = Some (ERet 2%nat OTryWait RFalse).
Proof. eexists. split; vm_compute; reflexivity. Qed.
Print Assumptions latch_negative_amount_reopens.
