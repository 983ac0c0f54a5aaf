(** C39: a sleeping scheduler thread.  [cfg] gives the configuration of each coroutine, [ls] is any interleaving of the thread
    with any number of calls of other threads that add or release coroutines, change priorities, or end the thread. *)
From Coq Require Import List Arith Bool ZArith Lia.
From Verif Require Import Base SchedSpec SchedModel SchedProofs SchedHist SchedPick SchedProps IdleSpec IdleModel IdleProofs.
Import ListNotations.

(** While the thread sleeps, a runnable coroutine is one that a call still in progress has added or released. *)
Theorem idle_no_oversleep : forall cfg ls s, run istep (iinit cfg) ls = Some s -> asleep (ih s) = true ->
  forall c, runnable c (queues (ih s)) -> exists k, at_work k c (queues (ih s)) = true.
Proof.
  intros cfg ls s R A c RC. pose proof (iinv_run _ _ _ R) as V. destruct (v_rch _ _ V) as [ls0 R0]. destruct (pinv_run _ _ _ R0) as (HI&HH&HP).
  apply (runnable_nor _ _ _ (v_nor _ _ V)) in RC. apply (runnable_iff cfg) in RC as [L C]; auto.
  destruct (v_dn _ _ V (v_asl _ _ V A) c (conj L C)) as [k T]. exists k. apply (v_at _ _ V _ _ T).
Qed.
Print Assumptions idle_no_oversleep.

(** And that call wakes the thread: its own remaining steps can be taken, whatever the others do meanwhile not being needed,
    and they wake the thread while the coroutine is still runnable. *)
Theorem idle_wakes : forall cfg ls s, run istep (iinit cfg) ls = Some s -> asleep (ih s) = true ->
  forall c, runnable c (queues (ih s)) -> exists k ls' s',
    at_work k c (queues (ih s)) = true /\ (forall l, In l ls' -> In l [Base (Upd1 k); Base (Upd2 k); Wake k]) /\
    run istep s ls' = Some s' /\ asleep (ih s') = false /\ at_work k c (queues (ih s')) = false /\ runnable c (queues (ih s')).
Proof.
  intros cfg ls s R A c RC. pose proof (iinv_run _ _ _ R) as V. destruct (v_rch _ _ V) as [ls0 R0]. destruct (pinv_run _ _ _ R0) as (HI&HH&HP).
  pose proof RC as RQ. apply (runnable_nor _ _ _ (v_nor _ _ V)) in RC. apply (runnable_iff cfg) in RC as [L C]; auto.
  pose proof (v_asl _ _ V A) as D. destruct (v_dn _ _ V D c (conj L C)) as [k T].
  assert (W : forall t, slp t = Down false -> loc (cx (bs t) c) = Here -> wk t k = Some c -> exists t', istep t (Wake k) = Some t' /\
    ih t' = IB (VRet k) :: INote k :: ih t).
  { intros t Dt Lt Wt. unfold istep, sfree. rewrite Wt, Dt, Lt. destruct (org t k); eexists; split; reflexivity. }
  assert (U2 : forall t p, slp t = Down false -> scn (bs t) = None -> ag (bs t) k = AUpd p c -> exists t', istep t (Base (Upd2 k)) = Some t' /\
    slp t' = Down false /\ cx (bs t') = cx (bs t) /\ wk t' k = Some c /\ ih t' = ih t).
  { intros t p Dt St At. unfold istep, sstep_ok, sstep, fits, own, locking, scanning, unlocked. rewrite Dt, St, At. simpl. eexists. split; [reflexivity|].
    simpl. rewrite upd_same. auto. }
  pose proof (v_scn _ _ V ltac:(congruence)) as SC.
  assert (FIN : forall t H, H = queues (ih t) -> runnable c H -> runnable c (queues (IB (VRet k) :: INote k :: ih t)) /\
     at_work k c (queues (IB (VRet k) :: INote k :: ih t)) = false).
  { intros t H -> RH. split; [|simpl; now rewrite Nat.eqb_refl]. destruct RH as (X&Y&Z). split; [|split]; auto. }
  exists k. destruct T as [T|T].
  - assert (U1 : (exists p, ag (bs s) k = AUpd p c) \/ exists t p, istep s (Base (Upd1 k)) = Some t /\ slp t = Down false /\ cx (bs t) = cx (bs s) /\
       scn (bs t) = None /\ ag (bs t) k = AUpd p c /\ ih t = ih s).
    { destruct (ag (bs s) k) as [| |d|d|p d] eqn:AG; try discriminate; injection T as ->; [right|right|left; eauto].
      - unfold istep, sstep_ok, sstep, fits, own, locking, scanning, alive. rewrite D, AG, L. simpl. do 2 eexists. split; [reflexivity|]. simpl. rewrite upd_same.
        unfold news. simpl. rewrite Nat.sub_diag. simpl. auto 10.
      - assert (WF : wflag (cx (bs s) c) = false). { unfold can_schedule in C. destruct (stt (cx (bs s) c)), (wflag (cx (bs s) c)); simpl in C; congruence. }
        unfold istep, sstep_ok, sstep, fits, own, locking, scanning, alive. rewrite D, AG, L, WF. simpl. do 2 eexists. split; [reflexivity|]. simpl. rewrite upd_same.
        unfold news. simpl. rewrite Nat.sub_diag. simpl. auto 10. }
    destruct U1 as [[p AG]|(t&p&E1&D1&X1&S1&AG&H1)].
    + destruct (U2 s p D SC AG) as (t2&E2&D2&X2&W2&H2). destruct (W t2 D2 ltac:(now rewrite X2) W2) as (t3&E3&H3).
      exists [Base (Upd2 k); Wake k], t3. split; [apply (v_at _ _ V); auto|]. split; [simpl; tauto|]. split; [cbn [run]; now rewrite E2, E3|].
      rewrite H3, H2. split; auto. apply and_comm. now apply (FIN s (queues (ih s))).
    + destruct (U2 t p D1 S1 AG) as (t2&E2&D2&X2&W2&H2). destruct (W t2 D2 ltac:(now rewrite X2, X1) W2) as (t3&E3&H3).
      exists [Base (Upd1 k); Base (Upd2 k); Wake k], t3. split; [apply (v_at _ _ V); auto|]. split; [simpl; tauto|].
      split; [cbn [run]; now rewrite E1, E2, E3|]. rewrite H3, H2, H1. split; auto. apply and_comm. now apply (FIN s (queues (ih s))).
  - destruct (W s D L T) as (t3&E3&H3). exists [Wake k], t3. split; [apply (v_at _ _ V); auto|]. split; [simpl; tauto|].
    split; [cbn [run]; now rewrite E3|]. rewrite H3. split; auto. apply and_comm. now apply (FIN s (queues (ih s))).
Qed.
Print Assumptions idle_wakes.

(** Once all calls have returned, a sleeping thread has nothing to run. *)
Theorem idle_quiet : forall cfg ls s, run istep (iinit cfg) ls = Some s -> asleep (ih s) = true ->
  (forall k c, at_work k c (queues (ih s)) = false) -> forall c, ~ runnable c (queues (ih s)).
Proof. intros cfg ls s R A Q c RC. destruct (idle_no_oversleep _ _ _ R A c RC) as [k H]. rewrite Q in H. discriminate. Qed.
Print Assumptions idle_quiet.

(** A thread that has been told to end sleeps only until the call that told it wakes it. *)
Theorem idle_stop : forall cfg ls s, run istep (iinit cfg) ls = Some s -> asleep (ih s) = true -> stopped (ih s) ->
  exists k s', stopping k (ih s) = true /\ istep s (StopW k) = Some s' /\ asleep (ih s') = false.
Proof.
  intros cfg ls s R A ST. pose proof (iinv_run _ _ _ R) as V. pose proof (v_asl _ _ V A) as D.
  destruct (v_ds _ _ V D (v_st _ _ V ST)) as [k K]. exists k. eexists. split; [apply (v_sk _ _ V _ K)|].
  unfold istep, sfree. rewrite K, D. simpl. split; [reflexivity|reflexivity].
Qed.
Print Assumptions idle_stop.

Definition adds (k c : nat) := map Base (add k c) ++ [Wake k].
Definition picks_ (n : nat) := map Base (scan n).
Definition falls (n : nat) := SleepB :: ScanB :: repeat ScanS n.

(** Coroutine 1 runs and begins to wait, the thread falls asleep in the switch away from it; call 3 releases it.  Before the
    call has ended the thread still sleeps; then it wakes, looks again and picks coroutine 1. *)
Definition sleep_run : list ilbl :=
  adds 0 1 ++ picks_ 11 ++ [Base (Enter 1 7)] ++ picks_ 91 ++ falls 91 ++ [Base (Leave 3 1 7); Base (Upd1 3); Base (Upd2 3)].
Example idle_ex : exists s,
  run istep (iinit cfg0) sleep_run = Some s /\ asleep (ih s) = true /\ runnable 1 (queues (ih s)) /\ at_work 3 1 (queues (ih s)) = true.
Proof.
  eexists. split; [vm_compute; reflexivity|]. split; [reflexivity|]. split; [|reflexivity].
  split; [reflexivity|]. split; [reflexivity|]. intros x. cbn. destruct (Nat.eq_dec x 7) as [->|]; [reflexivity|].
  apply Nat.eqb_neq in n. rewrite n. reflexivity.
Qed.
Example idle_wakes_ex :
  option_map (fun s => (asleep (ih s), pickl (queues (ih s)), at_work 3 1 (queues (ih s))))
    (run istep (iinit cfg0) (sleep_run ++ [Wake 3; Rise; ScanB; ScanS; Base Mark] ++ picks_ 1)) = Some (false, [1; 1], false).
Proof. vm_compute. reflexivity. Qed.
(** The release may come in the middle of the check, after the coroutine has been looked at: the thread falls asleep although
    the coroutine is runnable, and is then woken. *)
Example idle_race_ex : exists s,
  run istep (iinit cfg0) (adds 0 1 ++ picks_ 11 ++ [Base (Enter 1 7)] ++ picks_ 91 ++ [Base Mark] ++ falls 2 ++
    [Base (Leave 3 1 7); Base (Upd1 3)] ++ repeat ScanS 89) = Some s /\
  asleep (ih s) = true /\ waits 1 7 (queues (ih s)) = false /\ istep s (Wake 3) = None.
Proof. eexists. split; [vm_compute; reflexivity|]. split; [reflexivity|]. split; reflexivity. Qed.
(** The end of the thread. *)
Example idle_stop_ex : exists s, run istep (iinit cfg0) (falls 100 ++ [Stop 5]) = Some s /\ asleep (ih s) = true /\ stopped (ih s).
Proof. eexists. split; [vm_compute; reflexivity|]. split; [reflexivity|]. exists 5. left. reflexivity. Qed.
Example idle_end_ex : option_map (fun s => (slp s, ih s)) (run istep (iinit cfg0) (falls 100 ++ [Stop 5; StopW 5; Rise; ScanB] ++ repeat ScanS 100))
  = Some (Up, [IGo; IUp; IStopRet 5; INote 5; IStop 5; ISleep]).
Proof. vm_compute. reflexivity. Qed.

(** ** A thread of the program that waits for a coroutine's services *)
(** While it sleeps, either it waits for something or a call that gave it what it waited for is still in progress. *)
Theorem native_no_oversleep : forall ls s, run nstep ninit ls = Some s -> nasleep (nh s) = true ->
  (forall r, nwaits r (nh s) = false) -> exists k, giving k (nh s) = true.
Proof.
  intros ls s R A W. pose proof (ninv_run _ _ R) as V. destruct (n_d _ V (n_a _ V A)) as [k K].
  - rewrite (n_f _ V). destruct (nw s) as [|x l] eqn:X; auto. specialize (W x). rewrite (n_w _ V), X in W. simpl in W. now rewrite Nat.eqb_refl in W.
  - exists k. now apply (n_g _ V).
Qed.
Print Assumptions native_no_oversleep.

(** And that call wakes it by its own remaining steps. *)
Theorem native_wakes : forall ls s, run nstep ninit ls = Some s -> nasleep (nh s) = true ->
  (forall r, nwaits r (nh s) = false) -> exists k ls' s', giving k (nh s) = true /\ (forall l, In l ls' -> l = NT k \/ l = NW k) /\
  run nstep s ls' = Some s' /\ nasleep (nh s') = false.
Proof.
  intros ls s R A W. pose proof (ninv_run _ _ R) as V. pose proof (n_a _ V A) as D.
  assert (F : nfl s = false).
  { rewrite (n_f _ V). destruct (nw s) as [|x l] eqn:X; auto. specialize (W x). rewrite (n_w _ V), X in W. simpl in W. now rewrite Nat.eqb_refl in W. }
  destruct (n_d _ V D F) as [k K]. exists k. destruct (nag s k) eqn:G; [congruence| |].
  - exists [NT k; NW k]. eexists. split; [apply (n_g _ V); congruence|]. split; [intros l [<-|[<-|[]]]; auto|].
    simpl. rewrite G, F. simpl. rewrite upd_same, D. split; reflexivity.
  - exists [NW k]. eexists. split; [apply (n_g _ V); congruence|]. split; [intros l [<-|[]]; auto|].
    simpl. rewrite G, D. split; reflexivity.
Qed.
Print Assumptions native_wakes.

(** It goes on only when it has been given everything it waited for. *)
Theorem native_go : forall ls s, run nstep ninit ls = Some s -> forall s', nstep s NC = Some s' ->
  nh s' = NGo :: nh s -> forall r, nwaits r (nh s) = false.
Proof.
  intros ls s R s' E H r. pose proof (ninv_run _ _ R) as V. simpl in E. destruct (nsl s); try discriminate.
  destruct (nfl s) eqn:F; injection E as <-; [discriminate|]. rewrite (n_w _ V). rewrite (n_f _ V) in F. now destruct (nw s).
Qed.
Print Assumptions native_go.

Example native_ex : exists s, run nstep ninit [NE 4; NE 5; NSB; NC; NL 1 4; NT 1; NL 2 5] = Some s /\ nasleep (nh s) = true /\
  (forall r, nwaits r (nh s) = false) /\ giving 2 (nh s) = true /\ giving 1 (nh s) = false.
Proof.
  eexists. split; [vm_compute; reflexivity|]. split; [reflexivity|]. split; [|split; reflexivity].
  intros r. cbn. destruct (r =? 5), (r =? 4); reflexivity.
Qed.
Example native_go_ex : option_map nh (run nstep ninit [NE 4; NSB; NC; NR; NC; NL 1 4; NT 1; NW 1; NR; NC]) =
  Some [NGo; NUp; NRet 1; NNote 1; NRel 1 4; NSleep; NUp; NSleep; NEnter 4].
Proof. reflexivity. Qed.
