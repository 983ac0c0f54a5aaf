(** Properties C21-C26 of co_chan. *)
From Coq Require Import List Arith Bool ZArith Lia.
From Verif Require Import Base LinSpec HistSpec Monitor MonitorProofs ChanSpec ChanModel ChanProofs.
Import ListNotations.

(** Witness: capacity 1.  1 pushes 10; 2's push of 20 blocks; 3 pops 10, which wakes 2; 4 pops and blocks
    (the channel is empty), 2's push is accepted and wakes 4, which gets 20; 5 closes; 6's push
    is refused, 7's pop gets nothing. *)
Definition chan_demo : list (mlbl cop) :=
  [MCall 1 (OPush 10); MRun 1 false; MLeave 1;
   MCall 2 (OPush 20); MRun 2 false;
   MCall 3 OPop; MRun 3 false; MLeave 3;
   MCall 4 OPop; MRun 4 false;
   MRun 2 false; MLeave 2; MRun 4 false; MLeave 4;
   MCall 5 OClose; MRun 5 false; MLeave 5;
   MCall 6 (OPush 30); MRun 6 false; MLeave 6;
   MCall 7 OPop; MRun 7 false; MLeave 7].
Example chan_demo_ok :
  option_map (fun s => (dat s, accepted (mhist s), delivered (mhist s), hd_error (mhist s)))
             (run (chan_step (kind_of_size 1)) chan_init chan_demo)
  = Some (mkC [] true, [10; 20], [10; 20], Some (ERet 7 OPop RNone)).
Proof. vm_compute. reflexivity. Qed.
(** The same on an unbuffered channel: 2 waits for its value to be taken. *)
Example chan_demo_sync :
  option_map (fun s => (dat s, delivered (mhist s), firstn 3 (mhist s)))
             (run (chan_step (kind_of_size 0)) chan_init
                [MCall 1 (OPush 10); MRun 1 false; MCall 2 OPop; MRun 2 false; MRun 1 false; MLeave 1])
  = Some (mkC [] false, [10],
          [ERet 1 (OPush 10) RTrue; ELin 1 (OPush 10) RTrue; ELin 2 OPop (RSome 10)]).
Proof. vm_compute. reflexivity. Qed.

(** The meaning of every event (see [chan_event_ok]): what push, pop, closed() and empty()
    answer, when a value may be accepted, and that an accepted push is accepted once. *)
Theorem chan_events : forall size ls s,
  run (chan_step (kind_of_size size)) chan_init ls = Some s ->
  always_at (chan_event_ok (kind_of_size size)) (mhist s).
Proof. exact (fun z ls s Hr => c_ok _ _ (cinv_run _ ls s (kind_of_size_ok z) Hr)). Qed.
Print Assumptions chan_events.

(** C21: accepted = delivered ++ what data__ holds, now and at every earlier instant a prefix. *)
Theorem chan_exactly_once_fifo : forall size ls s,
  run (chan_step (kind_of_size size)) chan_init ls = Some s ->
  accepted (mhist s) = delivered (mhist s) ++ cbuf (dat s) /\
  always (fun h => exists rest, accepted h = delivered h ++ rest) (mhist s).
Proof.
  intros z ls s Hr. pose proof (cinv_run _ ls s (kind_of_size_ok z) Hr) as HI. split; [exact (c_buf _ _ HI)|].
  exact (always_intro _ _ _ (ok_prefix _) (c_ok _ _ HI)).
Qed.
Print Assumptions chan_exactly_once_fifo.

(** Every call takes effect once, between call and return, with the returned result. *)
Theorem chan_calls_well_formed : forall size ls s t,
  run (chan_step (kind_of_size size)) chan_init ls = Some s ->
  phase_of cop_eqb cres_eqb (mhist s) t <> None.
Proof.
  intros z ls s t Hr. rewrite (w_ph (c_wf _ _ (cinv_run _ ls s (kind_of_size_ok z) Hr)) t). discriminate.
Qed.
Print Assumptions chan_calls_well_formed.

(** C22: capacity. *)
Theorem chan_capacity : forall size ls s,
  run (chan_step (kind_of_size size)) chan_init ls = Some s ->
  always (fun h => (size > 0 -> Z.of_nat (buffered h) <= size)%Z /\ (size = 0%Z -> buffered h <= 1)) (mhist s).
Proof.
  intros z ls s Hr.
  refine (always_intro (kind_of_size z) _ _ _ (c_ok _ _ (cinv_run _ ls s (kind_of_size_ok z) Hr))).
  intros h Hok. apply ok_cap in Hok. unfold kind_of_size, cap_ok in Hok.
  destruct (Z.ltb_spec z 0); [lia|]. destruct (Z.eqb_spec z 0); lia.
Qed.
Print Assumptions chan_capacity.

(** ... and a push on an unlimited channel never blocks: its next step finishes it. *)
Theorem chan_unlimited_push_never_blocks : forall size ls s t v, (size < 0)%Z ->
  run (chan_step (kind_of_size size)) chan_init ls = Some s ->
  phase_of cop_eqb cres_eqb (mhist s) t = Some (PPending (OPush v)) ->
  exists s' r, chan_step (kind_of_size size) s (MRun t false) = Some s' /\
    phase_of cop_eqb cres_eqb (mhist s') t = Some (PDone (OPush v) r).
Proof.
  intros z ls s t v Hz Hr. pose proof (cinv_run _ ls s (kind_of_size_ok z) Hr) as HI.
  replace (kind_of_size z) with KUnl in *; [apply unl_push, HI|].
  unfold kind_of_size. destruct (Z.ltb_spec z 0); [reflexivity|lia].
Qed.
Print Assumptions chan_unlimited_push_never_blocks.
Example chan_unlimited_case : exists s,
  run (chan_step (kind_of_size (-1))) chan_init
    [MCall 1 (OPush 10); MRun 1 false; MCall 2 (OPush 20)] = Some s /\
  phase_of cop_eqb cres_eqb (mhist s) 2 = Some (PPending (OPush 20)).
Proof. eexists. split; vm_compute; reflexivity. Qed.

(** C23: close.  After close() nothing is accepted and push answers false unless its value was accepted
    before; pop answers "nothing" only when closed and drained; close is permanent. *)
Theorem chan_close : forall size ls s,
  run (chan_step (kind_of_size size)) chan_init ls = Some s ->
  always_at (fun e older =>
    (is_closed older = true -> is_closed (e :: older) = true) /\
    (is_closed older = true -> forall t v, e <> EAux t (APut v)) /\
    (is_closed older = true -> forall t v r, e = ELin t (OPush v) r -> own_puts older t = [] -> r = RFalse) /\
    (forall t, e = ELin t OPop RNone -> is_closed older = true /\ delivered older = accepted older) /\
    (forall t v, e = ELin t OPop (RSome v) -> nth_error (accepted older) (length (delivered older)) = Some v))
    (mhist s).
Proof.
  intros z ls s Hr newer e older E.
  pose proof (chan_events z ls s Hr newer e older E) as He.
  split; [exact (closed_mono _ _ _ _ E)|]. split.
  { intros Hc t v ->. simpl in He. destruct He. congruence. }
  split.
  { intros Hc t v r -> Ho. simpl in He. rewrite Ho in He. destruct He as [(_&?&_)|(->&_)]; congruence. }
  split.
  { intros t ->. simpl in He. destruct He as [(v&?&_)|(_&?&?)]; [discriminate|auto]. }
  { intros t v ->. simpl in He. destruct He as [(w&Hw&?)|(?&_)]; [congruence|discriminate]. }
Qed.
Print Assumptions chan_close.

(** C24: no lost wake-up. *)
Theorem chan_no_lost_wakeup : forall size ls s t o,
  run (chan_step (kind_of_size size)) chan_init ls = Some s ->
  quiescent chan_entry (chan_body (kind_of_size size)) s ->
  phase_of cop_eqb cres_eqb (mhist s) t = Some (PPending o) ->
  is_closed (mhist s) = false /\
  match o with
  | OPop => buffered (mhist s) = 0
  | OPush v => (size >= 0 /\ (size > 0 -> Z.of_nat (buffered (mhist s)) = size))%Z
  | _ => False
  end.
Proof.
  intros z ls s t o Hr HQ Hp.
  pose proof (chan_quiescent _ s t o (cinv_run _ ls s (kind_of_size_ok z) Hr) HQ Hp) as H.
  destruct o; try contradiction; [|exact H]. destruct H as [Hc H]. split; auto.
  unfold kind_of_size in H. destruct (Z.ltb_spec z 0); [contradiction|]. destruct (Z.eqb_spec z 0); lia.
Qed.
Print Assumptions chan_no_lost_wakeup.
Ltac quiet := intros t; do 8 (destruct t as [|t]; [split; intros; reflexivity|]); split; intros; reflexivity.
Example chan_quiescent_case : exists s,
  run (chan_step (kind_of_size 1)) chan_init
    [MCall 1 (OPush 10); MRun 1 false; MLeave 1; MCall 2 (OPush 20); MRun 2 false] = Some s /\
  quiescent chan_entry (chan_body (kind_of_size 1)) s /\
  phase_of cop_eqb cres_eqb (mhist s) 2 = Some (PPending (OPush 20)).
Proof. eexists. split; [vm_compute; reflexivity|]. split; [quiet|vm_compute; reflexivity]. Qed.

(** C25: rendezvous. *)
Theorem chan_rendezvous : forall ls s newer older t v,
  run (chan_step (kind_of_size 0)) chan_init ls = Some s ->
  mhist s = newer ++ ELin t (OPush v) RTrue :: older ->
  own_puts older t = [v] /\
  (is_closed older = true \/
   (put_index older t < length (delivered older) /\ nth_error (delivered older) (put_index older t) = Some v)).
Proof.
  intros ls s newer older t v Hr E.
  pose proof (chan_events 0 ls s Hr) as Hok. pose proof (Hok newer _ _ E) as He.
  simpl in He. destruct He as [(_&Ho&Hs)|(?&_)]; [|discriminate]. split; [exact Ho|].
  destruct (Hs eq_refl) as [Hc|Hi]; [now left|right]. split; [exact Hi|].
  assert (Hold : always_at (chan_event_ok KSync) older).
  { intros n e o E2. apply (Hok (newer ++ ELin t (OPush v) RTrue :: n)). rewrite E, E2, <- app_assoc. reflexivity. }
  destruct (ok_prefix _ _ Hold) as (rest&Ep).
  pose proof (put_index_val older t v Ho) as Hv. rewrite Ep, nth_error_app1 in Hv by exact Hi. exact Hv.
Qed.
Print Assumptions chan_rendezvous.

(** C26 is false with two producers.  First execution: 1 puts its value, 2 finds the channel
    occupied and waits for close only; 3 takes 1's value; 1 returns; the next consumer 4 finds
    nothing.  2 and 4 stay blocked together on an open empty channel. *)
Definition sync_stuck : list (mlbl cop) :=
  [MCall 1 (OPush 10); MRun 1 false; MCall 2 (OPush 20); MRun 2 false;
   MCall 3 OPop; MRun 3 false; MLeave 3; MRun 1 false; MLeave 1; MCall 4 OPop; MRun 4 false].
Theorem sync_progress_refuted : exists s,
  run (chan_step (kind_of_size 0)) chan_init sync_stuck = Some s /\
  quiescent chan_entry (chan_body (kind_of_size 0)) s /\
  is_closed (mhist s) = false /\
  phase_of cop_eqb cres_eqb (mhist s) 2 = Some (PPending (OPush 20)) /\
  phase_of cop_eqb cres_eqb (mhist s) 4 = Some (PPending OPop).
Proof.
  eexists. split; [vm_compute; reflexivity|]. split; [quiet|]. repeat split; vm_compute; reflexivity.
Qed.
Print Assumptions sync_progress_refuted.

(** Second execution: 1's value has been taken, yet 1 never returns: 2's value arrives between the
    pop and 1's check, and the pop of 2's value notifies 2 only. *)
Definition sync_stuck2 : list (mlbl cop) :=
  [MCall 1 (OPush 10); MRun 1 false; MCall 3 OPop; MRun 3 false; MLeave 3;
   MCall 2 (OPush 20); MRun 2 false; MRun 1 false;
   MCall 4 OPop; MRun 4 false; MLeave 4; MRun 2 false; MLeave 2].
Theorem sync_taken_push_stuck_refuted : exists s,
  run (chan_step (kind_of_size 0)) chan_init sync_stuck2 = Some s /\
  quiescent chan_entry (chan_body (kind_of_size 0)) s /\
  is_closed (mhist s) = false /\
  phase_of cop_eqb cres_eqb (mhist s) 1 = Some (PPending (OPush 10)) /\
  delivered (mhist s) = [10; 20].
Proof.
  eexists. split; [vm_compute; reflexivity|]. split; [quiet|]. repeat split; vm_compute; reflexivity.
Qed.
Print Assumptions sync_taken_push_stuck_refuted.

(** What holds: with a single producer coroutine and any number of consumers, a blocked
    push means its value has not been taken, a blocked pop means nothing is offered; both at once is impossible.
    Missing from C26: several producers. *)
Theorem sync_progress_partial : forall p ls s t o,
  run (chan_step (kind_of_size 0)) chan_init ls = Some s ->
  single_producer p (mhist s) ->
  quiescent chan_entry (chan_body (kind_of_size 0)) s ->
  phase_of cop_eqb cres_eqb (mhist s) t = Some (PPending o) ->
  match o with
  | OPush v => is_closed (mhist s) = false /\ own_puts (mhist s) t = [v] /\
               length (delivered (mhist s)) <= put_index (mhist s) t /\ buffered (mhist s) = 1
  | OPop => is_closed (mhist s) = false /\ buffered (mhist s) = 0
  | _ => False
  end.
Proof.
  intros p ls s t o Hr Hs HQ Hp. pose proof (sp_run p ls s Hr Hs) as HS.
  pose proof (sp_quiescent p s t o HS HQ Hp) as H. destruct o; auto.
  destruct H as (Hc&Ho&Hd). repeat split; auto.
  pose proof (put_index_lt (mhist s) t) as Hl. rewrite Ho in Hl. specialize (Hl ltac:(discriminate)).
  pose proof (ok_cap _ _ (c_ok _ _ (p_inv _ _ HS))) as Hcap. simpl in Hcap.
  unfold buffered in *. lia.
Qed.
Print Assumptions sync_progress_partial.
Theorem sync_never_both_blocked_partial : forall p ls s t u v,
  run (chan_step (kind_of_size 0)) chan_init ls = Some s ->
  single_producer p (mhist s) ->
  quiescent chan_entry (chan_body (kind_of_size 0)) s ->
  phase_of cop_eqb cres_eqb (mhist s) t = Some (PPending (OPush v)) ->
  phase_of cop_eqb cres_eqb (mhist s) u <> Some (PPending OPop).
Proof.
  intros p ls s t u v Hr Hs HQ Ht Hu.
  pose proof (sync_progress_partial p ls s t _ Hr Hs HQ Ht) as (_&_&_&H1).
  pose proof (sync_progress_partial p ls s u _ Hr Hs HQ Hu) as (_&H2). congruence.
Qed.
Print Assumptions sync_never_both_blocked_partial.
Example sync_single_case : exists s,
  run (chan_step (kind_of_size 0)) chan_init [MCall 1 (OPush 10); MRun 1 false] = Some s /\
  single_producer 1 (mhist s) /\ quiescent chan_entry (chan_body (kind_of_size 0)) s /\
  phase_of cop_eqb cres_eqb (mhist s) 1 = Some (PPending (OPush 10)).
Proof.
  eexists. split; [vm_compute; reflexivity|]. split.
  { intros t v Hi. simpl in Hi. repeat (destruct Hi as [Hi|Hi]; [congruence|]). destruct Hi. }
  split; [quiet|vm_compute; reflexivity].
Qed.
