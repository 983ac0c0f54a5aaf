(** Properties C08, C09 and C10: co_condition_variable. *)
From Coq Require Import List Arith Bool Lia.
From Verif Require Import Base LinSpec CvSpec CvModel CvProofs CvTimed.
Import ListNotations.

Local Notation phase := (phase_of cvop_eqb cvres_eqb).

(** Instance for the examples: the data is a number, modification m adds m, predicate k is "at least k". *)
Definition ex_step := cstep nat Nat.add Nat.leb.
Definition ex_init := cinit nat 0.
Definition r (t : tid) (n : nat) : list lbl := repeat (Run t) n.
Definition c (t : tid) (o : cvop) (n : nat) : list lbl := Call t o :: repeat (Run t) n.
Definition at_end {X} (f : cst nat -> X) (ls : list lbl) : option X := option_map f (run ex_step ex_init ls).

(** 1 and 2 wait in this order; 3 modifies, notifies one and keeps the lock; 1 is woken, 2 is not. *)
Definition run1 : list lbl :=
  c 1 OLock 2 ++ c 1 OWait 5 ++ c 2 OLock 2 ++ c 2 (OWaitP 5) 5 ++ c 3 OLock 2 ++ c 3 (OMod 7) 2 ++ c 3 ONotify1 5 ++ r 1 1.

(** ** C08 *)

(** The history of every call is: call, effect, return; and a wait releases the lock and gets it back before it
    returns. *)
Theorem cv_calls_well_formed : forall D d0 modf pred ls s,
  run (cstep D modf pred) (cinit D d0) ls = Some s ->
  forall t, phase (hist D s) t <> None /\ stage (hist D s) t <> None.
Proof.
  intros D d0 modf pred ls s Hr t. pose proof (cv_inv D d0 modf pred ls s Hr) as HI.
  destruct (i_t D d0 modf pred s HI t) as [_ T2 (x&T3&_) _ _ _ _ _ _]. rewrite T2, T3. split; discriminate.
Qed.
Print Assumptions cv_calls_well_formed.
Example cv_calls_well_formed_ex :
  at_end (fun s => (phase (hist _ s) 1, stage (hist _ s) 1, phase (hist _ s) 2, stage (hist _ s) 2, cline (hist _ s))) run1
  = Some (Some (PPending OWait), Some WsEntered, Some (PPending (OWaitP 5)), Some WsEntered, [2]).
Proof. vm_compute. reflexivity. Qed.

(** Two clients never hold the lock at the same time; in particular a wait returns with the lock held. *)
Theorem cv_returns_with_lock : forall D d0 modf pred ls s,
  run (cstep D modf pred) (cinit D d0) ls = Some s ->
  forall t u, phase (hist D s) t = Some PIdle -> phase (hist D s) u = Some PIdle ->
  holds (hist D s) t = true -> holds (hist D s) u = true -> t = u.
Proof. intros D d0 modf pred ls s Hr t u Pt Pu Ht Hu. eapply cv_excl; eauto using cv_inv. Qed.
Print Assumptions cv_returns_with_lock.
Example cv_returns_with_lock_ex :
  at_end (fun s => (holds (hist _ s) 1, phase (hist _ s) 1, holds (hist _ s) 3)) (run1 ++ c 3 OUnlock 2 ++ r 1 4)
  = Some (true, Some PIdle, false).
Proof. vm_compute. reflexivity. Qed.

(** No spurious wake-up: a waiter gets its lock back only after it was taken off the line, and without timed waits only
    notifications do that ([cline]: notify_one takes exactly the longest waiter, notify_all everybody). *)
Theorem cv_no_spurious_wakeup : forall D d0 modf pred ls s,
  run (cstep D modf pred) (cinit D d0) ls = Some s ->
  woken_first (hist D s) /\ (no_timed (hist D s) -> forall t, ~ In (EAux t ATimeout) (hist D s)).
Proof.
  intros D d0 modf pred ls s Hr. pose proof (cv_inv D d0 modf pred ls s Hr) as HI. split; [apply HI|].
  intros Hn. eapply cv_no_timeout; eauto.
Qed.
Print Assumptions cv_no_spurious_wakeup.
Example cv_no_spurious_wakeup_ex : exists s, run ex_step ex_init (run1 ++ c 3 OUnlock 2 ++ r 1 4) = Some s /\ no_timed (hist _ s)
  /\ hd_error (hist _ s) = Some (ERet 1 OWait ROk).
Proof. eexists. split; [vm_compute; reflexivity|]. vm_compute. tauto. Qed.

(** No lost wake-up: when nothing inside can move any more, every coroutine in a call is a waiter nobody has notified
    since it released the lock, or it is waiting for the lock and a client outside holds it. *)
Theorem cv_no_lost_wakeup : forall D d0 modf pred ls s,
  run (cstep D modf pred) (cinit D d0) ls = Some s ->
  (forall t, cstep D modf pred s (Run t) = None) -> (forall a, cstep D modf pred s (CbRun a) = None) ->
  forall t, phase (hist D s) t <> Some PIdle ->
  exists o, phase (hist D s) t = Some (PPending o) /\
  ((is_wait o = true /\ stage (hist D s) t = Some WsEntered /\ In t (cline (hist D s))) \/
   ((o = OLock \/ is_wait o = true /\ stage (hist D s) t = Some WsEntered) /\
    exists u, phase (hist D s) u = Some PIdle /\ holds (hist D s) u = true)).
Proof.
  intros D d0 modf pred ls s Hr Q1 Q2 t Hp. pose proof (cv_inv D d0 modf pred ls s Hr) as HI.
  assert (HQ : quiet D modf pred s) by (split; auto).
  destruct (i_t D d0 modf pred s HI t) as [_ T2 _ _ _ _ _ _ _].
  destruct (ph_of (pcs D s t)) as [|o|o r0] eqn:E; [congruence| |now destruct (cv_quiet_done D d0 modf pred s HI HQ t o r0)].
  exists o. split; auto. eapply cv_quiet; eauto.
Qed.
Print Assumptions cv_no_lost_wakeup.
Example cv_no_lost_wakeup_ex : exists s, run ex_step ex_init run1 = Some s /\
  (forall t, ex_step s (Run t) = None) /\ (forall a, ex_step s (CbRun a) = None) /\
  (pcs _ s 1, pcs _ s 2, mk _ s 2, pcs _ s 3, cvl _ s, ulk _ s) = (W7 OWait, W6 (OWaitP 5), true, Out, None, Some 3).
Proof.
  eexists. split; [vm_compute; reflexivity|].
  split; [intros t; do 4 (destruct t as [|t]; [reflexivity|]); reflexivity|]. split; reflexivity.
Qed.

(** ** C09 *)

(** A predicate wait returns only while its predicate holds of the protected data. *)
Theorem cv_pred_wait_true_partial : forall D d0 modf pred ls s,
  run (cstep D modf pred) (cinit D d0) ls = Some s ->
  preds_ok D d0 modf pred (hist D s) /\ dat D s = shared D d0 modf (hist D s).
Proof. intros D d0 modf pred ls s Hr. pose proof (cv_inv D d0 modf pred ls s Hr) as HI. split; apply HI. Qed.
Print Assumptions cv_pred_wait_true_partial.
Example cv_pred_wait_true_partial_ex :
  at_end (fun s => (hd_error (hist _ s), shared nat 0 Nat.add (hist _ s)))
    (c 2 OLock 2 ++ c 2 (OWaitP 5) 5 ++ c 3 OLock 2 ++ c 3 (OMod 4) 2 ++ c 3 ONotifyAll 6 ++ c 3 OUnlock 2 ++ r 2 8 ++
     c 3 OLock 2 ++ c 3 (OMod 4) 2 ++ c 3 ONotifyAll 6 ++ c 3 OUnlock 2 ++ r 2 5)
  = Some (Some (ERet 2 (OWaitP 5) ROk), 8).
Proof. vm_compute. reflexivity. Qed.

(** The other half of C09 is false: the predicate is true on entry, and still the caller parks and, without a
    notification, stays there. *)
Theorem cv_pred_wait_blocks_refuted : exists ls s,
  run ex_step ex_init (ls ++ [Call 1 (OWaitP 3)] ++ r 1 5) = Some s /\
  (forall s0, run ex_step ex_init ls = Some s0 -> Nat.leb 3 (dat _ s0) = true) /\ Nat.leb 3 (dat _ s) = true /\
  (forall t, ex_step s (Run t) = None) /\ (forall a, ex_step s (CbRun a) = None) /\
  phase (hist _ s) 1 = Some (PPending (OWaitP 3)).
Proof.
  exists (c 1 OLock 2 ++ c 1 (OMod 7) 2). eexists. split; [vm_compute; reflexivity|].
  split; [intros s0 H; vm_compute in H; injection H as <-; reflexivity|]. split; [reflexivity|].
  split; [intros t; do 2 (destruct t as [|t]; [reflexivity|]); reflexivity|]. split; [reflexivity|vm_compute; reflexivity].
Qed.
Print Assumptions cv_pred_wait_blocks_refuted.

(** ** C10 *)

(** 1 waits with a deadline, the deadline passes, the call returns false.  Later 1 waits again; 2 notifies; the second
    call returns false too although no deadline passed during it. *)
Definition first_timeout : list lbl :=
  c 1 OLock 2 ++ c 1 OWaitU 6 ++ [Fire 1 0] ++ repeat (CbRun 0) 5 ++ r 1 5.
Definition second_wait : list lbl := r 1 6 ++ c 2 ONotify1 5 ++ r 1 5.
Theorem cv_timeout_sticks_refuted : exists s s' h,
  run ex_step ex_init first_timeout = Some s /\ hd_error (hist _ s) = Some (ERet 1 OWaitU (RB false)) /\
  run ex_step s (Call 1 OWaitU :: second_wait) = Some s' /\
  hist _ s' = ERet 1 OWaitU (RB false) :: h ++ ECall 1 OWaitU :: hist _ s /\
  (forall t, ~ In (EAux t ADeadline) h) /\ In (ELin 2 ONotify1 ROk) h /\ In (EAux 1 AEnter) h.
Proof.
  eexists. eexists. exists [ELin 1 OWaitU (RB false); EAux 1 AReacq; ERet 2 ONotify1 ROk; ELin 2 ONotify1 ROk; ECall 2 ONotify1; EAux 1 AEnter].
  split; [vm_compute; reflexivity|]. split; [reflexivity|]. split; [vm_compute; reflexivity|]. split; [reflexivity|].
  simpl. split; [|tauto]. intros t H. intuition discriminate.
Qed.
Print Assumptions cv_timeout_sticks_refuted.

(** A deadline that passes before the caller has joined the queue is lost: the call stays blocked after its deadline. *)
Theorem cv_timeout_lost_refuted : exists ls s,
  run ex_step ex_init ls = Some s /\ In (EAux 1 ADeadline) (hist _ s) /\ phase (hist _ s) 1 = Some (PPending OWaitU) /\
  (forall t, ex_step s (Run t) = None) /\ (forall a, ex_step s (CbRun a) = None) /\ (forall t a, ex_step s (Fire t a) = None).
Proof.
  exists (c 1 OLock 2 ++ c 1 OWaitU 1 ++ [Fire 1 0] ++ repeat (CbRun 0) 5 ++ r 1 5). eexists.
  split; [vm_compute; reflexivity|]. split; [vm_compute; tauto|]. split; [vm_compute; reflexivity|].
  split; [intros t; do 2 (destruct t as [|t]; [reflexivity|]); reflexivity|].
  split; [intros a; do 2 (destruct a as [|a]; [reflexivity|]); reflexivity|].
  intros t a; do 2 (destruct t as [|t]; [reflexivity|]); reflexivity.
Qed.
Print Assumptions cv_timeout_lost_refuted.

(** A timer stopped too late wakes a later, untimed wait of the same coroutine: no notification is made during it. *)
Definition stale_prefix : list lbl :=
  c 1 OLock 2 ++ c 1 OWaitU 6 ++ [Fire 1 0] ++ c 2 ONotify1 5 ++ r 1 5.
Theorem cv_stale_timer_refuted : exists s s' h,
  run ex_step ex_init stale_prefix = Some s /\ hd_error (hist _ s) = Some (ERet 1 OWaitU (RB true)) /\
  run ex_step s (Call 1 OWait :: r 1 5 ++ repeat (CbRun 0) 5 ++ r 1 5) = Some s' /\
  hist _ s' = ERet 1 OWait ROk :: h ++ ECall 1 OWait :: hist _ s /\
  (forall t x, ~ In (ELin t ONotify1 x) h /\ ~ In (ELin t ONotifyAll x) h).
Proof.
  eexists. eexists. exists [ELin 1 OWait ROk; EAux 1 AReacq; EAux 1 ATimeout; EAux 1 AEnter].
  split; [vm_compute; reflexivity|]. split; [reflexivity|]. split; [vm_compute; reflexivity|]. split; [reflexivity|].
  intros t x. simpl. split; intros H; intuition discriminate.
Qed.
Print Assumptions cv_stale_timer_refuted.

(** What holds.  Missing from C10: the deadline is not necessarily that of the call. *)
Theorem cv_timed_false_partial : forall D d0 modf pred ls s,
  run (cstep D modf pred) (cinit D d0) ls = Some s ->
  false_ok (hist D s) /\
  (forall u, In (EAux u ATimeout) (hist D s) -> In (EAux u ADeadline) (hist D s) /\
     exists o, In (ECall u o) (hist D s) /\ is_timed o = true).
Proof.
  intros D d0 modf pred ls s Hr. pose proof (cv_inv D d0 modf pred ls s Hr) as HI. split; [apply HI|].
  intros u Hu. destruct (i_tt D d0 modf pred s HI u Hu) as [H1 H2]. auto.
Qed.
Print Assumptions cv_timed_false_partial.
Example cv_timed_false_partial_ex :
  at_end (fun s => hist _ s) first_timeout
  = Some [ERet 1 OWaitU (RB false); ELin 1 OWaitU (RB false); EAux 1 AReacq; EAux 1 ATimeout; EAux 1 ADeadline;
          EAux 1 AEnter; ECall 1 OWaitU; ERet 1 OLock ROk; ELin 1 OLock ROk; ECall 1 OLock].
Proof. vm_compute. reflexivity. Qed.

Lemma false_ret : forall h t o, false_ok h -> In (ERet t o (RB false)) h -> exists u, In (EAux u ATimeout) h.
Proof.
  induction h as [|e h IH]; intros t o Hf Hi; [contradiction|]. destruct Hi as [->|Hi].
  - destruct Hf as [[u Hu] _]. exists u. now right.
  - assert (Hf' : false_ok h) by (destruct e as [| |? ? [|[]]|]; simpl in Hf; tauto).
    destruct (IH t o Hf' Hi) as [u Hu]. exists u. now right.
Qed.
Lemma timed_calls_in : forall h t o, In (ECall t o) h -> is_timed o = true -> 1 <= timed_calls h.
Proof.
  intros h t o H1 H2. unfold timed_calls.
  assert (K : In (ECall t o) (filter (fun e : cvev => match e with ECall _ o => is_timed o | _ => false end) h))
    by (apply filter_In; auto).
  destruct (filter _ h); [contradiction|simpl; lia].
Qed.
Lemma timed_once : forall h t o u o', timed_calls h <= 1 -> In (ECall t o) h -> is_timed o = true ->
  In (ECall u o') h -> is_timed o' = true -> t = u.
Proof.
  induction h as [|e h IH]; intros t o u o' Hn H1 H2 H3 H4; [contradiction|].
  assert (Hle : timed_calls h <= timed_calls (e :: h))
    by (unfold timed_calls; simpl; destruct (match e with ECall _ o => is_timed o | _ => false end); simpl; lia).
  destruct H1 as [->|H1], H3 as [E|H3].
  - congruence.
  - exfalso. pose proof (timed_calls_in h u o' H3 H4). unfold timed_calls in *. simpl in Hn. rewrite H2 in Hn. simpl in Hn. lia.
  - exfalso. subst e. pose proof (timed_calls_in h t o H1 H2). unfold timed_calls in *. simpl in Hn. rewrite H4 in Hn. simpl in Hn. lia.
  - eapply (IH t o u o'); eauto; lia.
Qed.

(** On a condition variable with at most one timed wait in its life, the result false is truthful. *)
Theorem cv_timed_once_partial : forall D d0 modf pred ls s t o,
  run (cstep D modf pred) (cinit D d0) ls = Some s -> timed_calls (hist D s) <= 1 ->
  In (ECall t o) (hist D s) -> is_timed o = true -> In (ERet t o (RB false)) (hist D s) ->
  In (EAux t ADeadline) (hist D s).
Proof.
  intros D d0 modf pred ls s t o Hr Hn Hc Ho Hi. destruct (cv_timed_false_partial D d0 modf pred ls s Hr) as [Hf Ht].
  destruct (false_ret _ _ _ Hf Hi) as [u Hu]. destruct (Ht u Hu) as [K (o'&K1&K2)].
  now rewrite (timed_once _ t o u o' Hn Hc Ho K1 K2).
Qed.
Print Assumptions cv_timed_once_partial.
Example cv_timed_once_partial_ex :
  at_end (fun s => (timed_calls (hist _ s), hd_error (hist _ s))) first_timeout = Some (1, Some (ERet 1 OWaitU (RB false))).
Proof. vm_compute. reflexivity. Qed.

(** The converse direction, with any number of timed waits: a timed wait that its timer took off the line neither waits
    again nor reports success. *)
Theorem cv_timeout_reported_partial : forall D d0 modf pred ls s,
  run (cstep D modf pred) (cinit D d0) ls = Some s -> timeout_reported (hist D s).
Proof. exact cv_timeout_reported. Qed.
Print Assumptions cv_timeout_reported_partial.
Example cv_timeout_reported_ex : at_end (fun s => (off_by_timer (hist _ s) 1, hd_error (hist _ s)))
  (c 1 OLock 2 ++ c 1 (OWaitUP 9) 6 ++ [Fire 1 0] ++ repeat (CbRun 0) 5 ++ r 1 5)
  = Some (true, Some (ERet 1 (OWaitUP 9) (RB false))).
Proof. vm_compute. reflexivity. Qed.

(** The timer of a timed wait fires only while that wait has no result yet, and at most once: stop() before the return
    cancels it.  (What outlives the wait is a callback already created then, [cv_stale_timer_refuted].) *)
Theorem cv_deadlines_inside_partial : forall D d0 modf pred ls s,
  run (cstep D modf pred) (cinit D d0) ls = Some s -> deadlines_inside (hist D s).
Proof. exact cv_deadlines_inside. Qed.
Print Assumptions cv_deadlines_inside_partial.
(** 1's wait times out; its second wait is notified and returns; then no timer can fire for it. *)
Example cv_deadlines_inside_ex : exists s, run ex_step ex_init (first_timeout ++ Call 1 OWaitU :: second_wait) = Some s /\
  In (EAux 1 ADeadline) (hist _ s) /\ (forall a, ex_step s (Fire 1 a) = None).
Proof. eexists. split; [vm_compute; reflexivity|]. split; [simpl; tauto|]. intros a. reflexivity. Qed.

(** And it can fire as long as the wait is in the line: a timed wait is never left without its deadline. *)
Theorem cv_timer_armed : forall D d0 modf pred ls s t o a,
  run (cstep D modf pred) (cinit D d0) ls = Some s -> In t (cline (hist D s)) ->
  phase (hist D s) t = Some (PPending o) -> is_timed o = true -> expired (hist D s) t = false -> cbs D s a = CNone ->
  exists s', cstep D modf pred s (Fire t a) = Some s' /\ hist D s' = EAux t ADeadline :: hist D s.
Proof.
  intros D d0 modf pred ls s t o a R Q P T X C. destruct (cv_armed D d0 modf pred ls s R) as [HI HL].
  apply (i_q _ _ _ _ _ HI) in Q. pose proof (ti_ph _ _ _ _ _ _ _ _ (i_t _ _ _ _ _ HI t)) as PH. rewrite P in PH. injection PH as PH.
  assert (A : tarm D s t = true).
  { apply HL; auto. destruct (pcs D s t) as [|y|y|y|y|y|y|y|y|y|y|y|y| |v|l| |y|y r]; simpl in Q, PH; try contradiction; try discriminate;
      injection PH as ->; unfold armed_pc; simpl; now rewrite T. }
  cbn [cstep]. rewrite A, C. eexists. split; reflexivity.
Qed.
Print Assumptions cv_timer_armed.
Example cv_timer_armed_ex : exists s, run ex_step ex_init (c 1 OLock 2 ++ c 1 OWaitU 6) = Some s /\ In 1 (cline (hist _ s)) /\
  phase (hist _ s) 1 = Some (PPending OWaitU) /\ expired (hist _ s) 1 = false /\ cbs _ s 0 = CNone.
Proof. eexists. split; [vm_compute; reflexivity|]. vm_compute. repeat split; auto. Qed.
