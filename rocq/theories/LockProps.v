(** C79-C81: the internal locks of the scheduler. *)
From Coq Require Import List Arith Bool Lia Relations.
From Verif Require Import Base LockSpec LockModel LockProofs LockGuard.
Import ListNotations.

(** [twaits s t u] (LockProofs): the activity that thread t executes is about to lock something an activity of thread u holds;
    [blocked s t]: it waits for some thread; [busy s t]: it is inside a call and its next operation is not a sleep, a switch or
    the return; [plain]: the call starts and stops no timer; [calm]: plain calls, no switch signals; [unsignalled]: no switch
    signals. *)

(** What "waits" means: the thread makes no step. *)
Theorem waiting_thread_does_not_step : forall ls s t, run lstep linit ls = Some s -> blocked s t -> lstep s (LStep (cur s t)) = None.
Proof.
  intros ls s t R (u&l&b&W&I&E&N). simpl. eapply wants_avail; eauto using TI_reach. exists b. split; auto.
  rewrite (CI_reach _ _ R). now rewrite E.
Qed.
Print Assumptions waiting_thread_does_not_step.

(** Checking states by computation. *)
Local Definition after (ls : list llbl) : lst := match run lstep linit ls with Some s => s | None => linit end.
Local Definition runs (ls : list llbl) : bool := match run lstep linit ls with Some _ => true | None => false end.
Local Lemma after_run : forall ls, runs ls = true -> run lstep linit ls = Some (after ls).
Proof. intros ls H. unfold runs, after in *. destruct (run lstep linit ls); [reflexivity|discriminate]. Qed.
Local Definition wantsb (s : lst) (a : agent) (l : lock) : bool := match pr s a with Do (Acq x) _ => leqb x l | _ => false end.
Local Lemma twaits_b : forall s t l b, wantsb s (cur s t) l && has b (lk s l) && negb (th b =? t) = true -> twaits s t (th b).
Proof.
  intros s t l b H. apply andb_prop in H as [H H3]. apply andb_prop in H as [H1 H2]. exists l, b. split; [|split; [now apply has_in|split; [reflexivity|]]].
  - unfold wantsb in H1. destruct (pr s (cur s t)) as [|o k| | |] eqn:E; try discriminate. destruct o; try discriminate. exists k. left. rewrite E.
    unfold leqb in H1. destruct (lock_eq l0 l); [now subst|discriminate].
  - intros E. rewrite E, Nat.eqb_refl in H3. discriminate.
Qed.
Local Lemma has_b : forall s a l, has a (lk s l) = true -> In a (lk s l).
Proof. intros s a l. now apply has_in. Qed.
Local Lemma unblocked_b : forall s t, match pr s (cur s t) with Do (Acq _) _ | Do (All _) _ => false | _ => true end = true -> ~ blocked s t.
Proof. intros s t E (u&l&b&(k&[W|(ls&W&_)])&_); rewrite W in E; discriminate. Qed.
Local Lemma ret_b : forall s t, match pr s (cur s t) with Ret => true | _ => false end = true -> pr s (cur s t) = Ret.
Proof. intros s t E. destruct (pr s (cur s t)); congruence. Qed.

(** ** C79 *)
Local Definition st (a : agent) (n : nat) : list llbl := repeat (LStep a) n.
(** Thread t gets environment t with idle coroutine c and starts coroutine c+1. *)
Local Definition env (t c : nat) : list llbl :=
  LCall (AC t 0) (KEnv c) :: st (AC t 0) 11 ++ [LCall (AC t 0) (KCreate (S c) None t)] ++ st (AC t 0) 21 ++
  [LCall (AC t 0) (KYield [] SwGo)] ++ st (AC t 0) 11 ++ [LYield (AC t 0) (AC t 1)].

(** co_co.h 184-187 against co_manager.cpp 353-374: a coroutine that begins to sleep and the timer thread that hands an expired
    timer to the same environment. *)
Local Definition w_timer : list llbl :=
  env 0 0 ++ [LCall (AC 9 0) (KTimer 3 (Some (2, None, 0, [])))] ++ st (AC 9 0) 17 ++ [LCall (AC 0 1) (KSleep 1 0 [] [] SwGo)] ++ st (AC 0 1) 6.
(** co_condition_variable.h 91-117: two coroutines in wait_until whose mutexes wake a coroutine of the other's environment. *)
Local Definition w_cv : list llbl :=
  env 0 0 ++ env 1 10 ++ [LCall (AC 0 1) (KCvUntil 1 0 [] (Some (11, 1, true, false)) [] SwGo); LCall (AC 1 1) (KCvUntil 11 1 [] (Some (1, 0, true, false)) [] SwGo)] ++
  st (AC 0 1) 12 ++ st (AC 1 1) 12.
(** A coroutine is preempted inside handle_priority_changed (co_env.cpp 489-500); another one creates a coroutine and the monitor
    reads the workload. *)
Local Definition w_preempt : list llbl :=
  env 0 0 ++ [LCall (AC 9 0) (KMonitor [(0, true)] None)] ++ st (AC 9 0) 12 ++ [LCall (AC 0 1) (KSetPrio 1 (Some 0))] ++ st (AC 0 1) 3 ++
  [LSig 0 SwGo] ++ st (AH 0) 6 ++ [LYield (AH 0) (AC 0 0)] ++ st (AC 0 0) 3 ++
  [LCall (AC 0 0) (KCreate 5 (Some ([0], None)) 0)] ++ st (AC 0 0) 5 ++ [LCall (AC 9 0) (KMonitor [(0, true)] None)] ++ st (AC 9 0) 4.

(** The two threads [t] and [u] wait for each other and never go on; in the continuations threads of [free] get no signal. *)
Definition dead (s : lst) (t u : nat) (free : list nat) : Prop :=
  circle (twaits s) /\ forall ls' s', (forall v x, In v free -> ~ In (LSig v x) ls') -> run lstep s ls' = Some s' ->
    forall v, v = t \/ v = u -> blocked s' v /\ cur s' v = cur s v /\ pr s' (cur s v) = pr s (cur s v).
Lemma dead_from : forall s t u free, TI s -> CI s -> BI s -> twaits s t u -> twaits s u t ->
  (forall v, v = t \/ v = u -> shielded s [t; u] v \/ (sig s v = false /\ exists a, In (th a) [t; u] /\ In a (lk s Mgr)) \/ In v free) -> dead s t u free.
Proof.
  intros s t u free HT HC HB W1 W2 U. split.
  - exists [t; u]. split; [discriminate|]. intros v [<-|[<-|[]]]; [exists u|exists t]; simpl; auto.
  - intros ls' s' F R' v V.
    assert (H : forall v, In v [t; u] -> still s [t; u] ls' v /\ unswitched s [t; u] ls' v).
    { intros w I. split.
      - left. destruct I as [<-|[<-|[]]]; [exists u|exists t]; simpl; auto.
      - destruct (U w) as [X|[X|X]]; [destruct I as [<-|[<-|[]]]; auto|now left|now right; left|right; right]. intros x. now apply F. }
    pose proof (keeps_run [t; u] s HT HC HB ls' s' H R') as (K1&K2&_).
    assert (Iv : In v [t; u]) by (simpl; destruct V; auto). destruct (K1 v Iv) as (E1&_).
    assert (Ic : In (th (cur s v)) [t; u]) by now rewrite (HC v). destruct (K2 _ Ic) as (E2&_). repeat split; auto.
    assert (W : exists w, In w [t; u] /\ twaits s v w) by (destruct V as [-> | ->]; [exists u|exists t]; simpl; auto).
    destruct W as (w&Iw&l&b&W&Ib&E&N). subst w. exists (th b), l, b. rewrite E1. repeat split; auto.
    + now apply wants_pr with s.
    + destruct (K2 b Iw) as (_&Kb). auto.
Qed.
Lemma dead_intro : forall ls s t u free, run lstep linit ls = Some s -> twaits s t u -> twaits s u t ->
  (forall v, v = t \/ v = u -> shielded s [t; u] v \/ (sig s v = false /\ exists a, In (th a) [t; u] /\ In a (lk s Mgr)) \/ In v free) -> dead s t u free.
Proof. intros ls s t u free R. apply dead_from; [eapply TI_reach|eapply CI_reach|eapply BI_reach]; eauto. Qed.

Theorem internal_locks_deadlock_refuted : exists ls s, Forall unsignalled ls /\ run lstep linit ls = Some s /\ dead s 0 1 [].
Proof.
  assert (R : run lstep linit w_cv = Some (after w_cv)) by (apply after_run; vm_compute; reflexivity).
  exists w_cv, (after w_cv). split; [vm_compute; repeat constructor|]. split; [exact R|]. apply (dead_intro w_cv); [exact R| | |].
  - apply (twaits_b _ 0 (Sched 1) (AC 1 1)). vm_compute. reflexivity.
  - apply (twaits_b _ 1 (Sched 0) (AC 0 1)). vm_compute. reflexivity.
  - intros v [-> | ->]; left; right; [exists (AC 0 1)|exists (AC 1 1)]; (split; [simpl; auto|]); apply has_b; vm_compute; reflexivity.
Qed.
Print Assumptions internal_locks_deadlock_refuted.
(** Thread 9 is the timer thread. *)
Theorem sleep_and_timer_deadlock_refuted : exists ls s, Forall unsignalled ls /\ run lstep linit ls = Some s /\ dead s 0 9 [9].
Proof.
  assert (R : run lstep linit w_timer = Some (after w_timer)) by (apply after_run; vm_compute; reflexivity).
  exists w_timer, (after w_timer). split; [vm_compute; repeat constructor|]. split; [exact R|]. apply (dead_intro w_timer); [exact R| | |].
  - apply (twaits_b _ 0 TQ (AC 9 0)). vm_compute. reflexivity.
  - apply (twaits_b _ 9 (Sched 0) (AC 0 1)). vm_compute. reflexivity.
  - intros v [-> | ->]; [|right; right; now left]. left. right. exists (AC 0 1). split; [simpl; auto|]. apply has_b. vm_compute. reflexivity.
Qed.
Print Assumptions sleep_and_timer_deadlock_refuted.
(** With calls that touch no timer, but with preemption. *)
Theorem preemption_deadlock_refuted : exists ls s, (forall a k, In (LCall a k) ls -> plain k) /\ run lstep linit ls = Some s /\ dead s 0 9 [].
Proof.
  assert (R : run lstep linit w_preempt = Some (after w_preempt)) by (apply after_run; vm_compute; reflexivity).
  exists w_preempt, (after w_preempt). split.
  { intros a k I. assert (F : Forall (fun l => match l with LCall _ k => plain k | _ => True end) w_preempt) by (vm_compute; repeat constructor).
    rewrite Forall_forall in F. exact (F _ I). }
  split; [exact R|]. apply (dead_intro w_preempt); [exact R| | |].
  - apply (twaits_b _ 0 Mgr (AC 9 0)). vm_compute. reflexivity.
  - apply (twaits_b _ 9 (Normal 0) (AC 0 1)). vm_compute. reflexivity.
  - assert (M : exists a, In (th a) [0; 9] /\ In a (lk (after w_preempt) Mgr)) by (exists (AC 9 0); split; [simpl; auto|]; apply has_b; vm_compute; reflexivity).
    intros v [-> | ->]; right; left; (split; [vm_compute; reflexivity|exact M]).
Qed.
Print Assumptions preemption_deadlock_refuted.

(** What remains: calls that neither start nor stop a timer, without preemption, never wait in a circle; whoever waits, waits for
    a thread that is working. *)
Theorem lock_order_partial : forall ls s, Forall calm ls -> run lstep linit ls = Some s ->
  ~ circle (twaits s) /\ waits_end (twaits s) (blocked s) /\
  (forall t, blocked s t -> exists u, clos_trans nat (twaits s) t u /\ ~ blocked s u /\ busy s u).
Proof.
  intros ls s F R. pose proof (LI_reach _ _ F R) as L. pose proof (CI_reach _ _ R) as C.
  assert (X : forall t, blocked s t -> exists u, clos_trans nat (twaits s) t u /\ ~ blocked s u /\ busy s u).
  { intros t (u&l&b&W&I&E&N). subst u. eapply (chain_ends s L C 24); eauto. lia. }
  split; [|split; auto].
  - intros (ts&NE&H). eapply no_circle; eauto.
  - intros t B. destruct (X t B) as (u&Y&Z&_). eauto.
Qed.
Print Assumptions lock_order_partial.
(** The monitor waits for a thread that creates a coroutine and is itself kept waiting by a coroutine that changes its priority. *)
Local Definition x_chain : list llbl :=
  env 0 0 ++ env 1 10 ++ [LCall (AC 1 1) (KSetPrio 11 (Some 1))] ++ st (AC 1 1) 4 ++ [LCall (AC 0 1) (KCreate 5 (Some ([1], None)) 0)] ++ st (AC 0 1) 6 ++
  [LCall (AC 9 0) (KMonitor [(0, true)] None)] ++ st (AC 9 0) 3.
Example lock_order_example : Forall calm x_chain /\ exists s, run lstep linit x_chain = Some s /\ twaits s 9 0 /\ twaits s 0 1 /\ ~ blocked s 1.
Proof.
  split; [vm_compute; repeat constructor|]. exists (after x_chain). split; [apply after_run; vm_compute; reflexivity|]. split; [|split].
  - apply (twaits_b _ 9 Mgr (AC 0 1)). vm_compute. reflexivity.
  - apply (twaits_b _ 0 (Normal 1) (AC 1 1)). vm_compute. reflexivity.
  - apply unblocked_b. vm_compute. reflexivity.
Qed.

(** ** C80 *)
(** A preempted coroutine is inside handle_priority_changed while the coroutine that runs instead of it looks up the queues of
    the same environment. *)
Local Definition w_excl : list llbl :=
  env 0 0 ++ [LCall (AC 9 0) (KMonitor [(0, true)] None)] ++ st (AC 9 0) 12 ++ [LCall (AC 0 1) (KSetPrio 1 (Some 0))] ++ st (AC 0 1) 3 ++
  [LSig 0 SwGo] ++ st (AH 0) 6 ++ [LYield (AH 0) (AC 0 0)] ++ st (AC 0 0) 3 ++ [LCall (AC 0 0) (KYield [] SwGo)] ++ st (AC 0 0) 6.
Theorem critical_sections_refuted : exists ls s, (forall a k, In (LCall a k) ls -> plain k) /\ run lstep linit ls = Some s /\
  ~ exclusive (fun a l => In a (lk s l)).
Proof.
  assert (R : run lstep linit w_excl = Some (after w_excl)) by (apply after_run; vm_compute; reflexivity).
  exists w_excl, (after w_excl). split.
  { intros a k I. assert (F : Forall (fun l => match l with LCall _ k => plain k | _ => True end) w_excl) by (vm_compute; repeat constructor).
    rewrite Forall_forall in F. exact (F _ I). }
  split; [exact R|]. intros X. assert (E : AC 0 0 = AC 0 1); [|discriminate].
  apply (X (Normal 0)); apply has_b; vm_compute; reflexivity.
Qed.
Print Assumptions critical_sections_refuted.
(** In all executions: one thread at a time in every critical section; one activity at a time in the one of an environment's
    schedule lock when its own thread is inside, and that thread is executing it.  Without preemption: one activity at a time
    in every critical section. *)
Theorem critical_sections_partial : forall ls s, run lstep linit ls = Some s ->
  one_thread th (fun a l => In a (lk s l)) /\
  (forall e a b, In a (lk s (Sched e)) -> th a = e -> In b (lk s (Sched e)) -> a = b /\ cur s e = a) /\
  (Forall unsignalled ls -> exclusive (fun a l => In a (lk s l))).
Proof.
  intros ls s R. pose proof (TI_reach _ _ R) as T. split; [exact T|]. split.
  - intros e a b A E I. destruct (BI_reach _ _ R) as (_&_&B). assert (Eb : th b = e) by (rewrite <- E; eapply T; eauto).
    pose proof (B a) as Ba. pose proof (B b) as Bb. rewrite E in Ba. rewrite Eb in Bb. specialize (Ba A). specialize (Bb I). split; congruence.
  - intros F l a b A B. pose proof (BN_reach _ _ F R) as N. rewrite <- (N a l A), <- (N b l B). f_equal. exact (T l a b A B).
Qed.
Print Assumptions critical_sections_partial.
Example critical_sections_example : exists s, run lstep linit x_chain = Some s /\ Forall unsignalled x_chain /\
  In (AC 0 1) (lk s Mgr) /\ In (AC 1 1) (lk s (Prio 11)).
Proof.
  exists (after x_chain). split; [apply after_run; vm_compute; reflexivity|]. split; [vm_compute; repeat constructor|].
  split; apply has_b; vm_compute; reflexivity.
Qed.

(** CoPreemptGuard does what it is for: while an activity of a thread is inside a guarded section, no switch signal switches
    there, be the section executing or itself switched out.  [open_guards] (LockGuard): the guards that the rest of the
    activity's program leaves. *)
Theorem guarded_not_preempted : forall ls s a x, run lstep linit ls = Some s -> 0 < open_guards (pr s a) -> lstep s (LSig (th a) x) = None.
Proof.
  intros ls s a x R O. assert (G : open_guards (pr s a) <= grd s (th a)).
  { pose proof (GI_reach _ _ R (th a) [a]) as G. unfold total in G. cbn in G. rewrite Nat.add_0_r in G. apply G.
    - repeat constructor. intros [].
    - intros b [-> | []]. reflexivity. }
  cbn [lstep]. destruct (cur s (th a)); [|reflexivity]. assert (E : (count s (th a) =? 0) = false) by (apply Nat.eqb_neq; unfold count; lia).
  rewrite E, andb_false_r. reflexivity.
Qed.
Print Assumptions guarded_not_preempted.
(** A coroutine inside all_ctx__ (co_env.cpp 550-556), within the guard but without the schedule lock, while a signal is pending;
    two steps earlier the signal would have switched. *)
Local Definition x_guard : list llbl :=
  env 0 0 ++ [LCall (AC 9 0) (KMonitor [(0, true)] None)] ++ st (AC 9 0) 12 ++ [LCall (AC 0 1) (KEndEnv [])].
Local Definition guard_check (s s0 : lst) : bool :=
  (1 <=? open_guards (pr s (AC 0 1))) && sig s 0 && match lk s (Sched 0) with [] => true | _ => false end &&
  match lstep s0 (LSig 0 SwGo) with Some _ => true | None => false end.
Local Lemma guard_check_ok : forall s s0, guard_check s s0 = true ->
  0 < open_guards (pr s (AC 0 1)) /\ sig s 0 = true /\ lk s (Sched 0) = [] /\ lstep s0 (LSig 0 SwGo) <> None.
Proof.
  intros s s0 H. unfold guard_check in H. apply andb_prop in H as [H H4]. apply andb_prop in H as [H H3]. apply andb_prop in H as [H1 H2].
  apply Nat.leb_le in H1. repeat split; auto.
  - destruct (lk s (Sched 0)); [auto|discriminate].
  - intros X. rewrite X in H4. discriminate.
Qed.
Example guarded_not_preempted_example : exists s, run lstep linit (x_guard ++ st (AC 0 1) 2) = Some s /\ 0 < open_guards (pr s (AC 0 1)) /\
  sig s 0 = true /\ lk s (Sched 0) = [] /\ lstep (after x_guard) (LSig 0 SwGo) <> None.
Proof.
  exists (after (x_guard ++ st (AC 0 1) 2)). split; [apply after_run; vm_compute; reflexivity|]. apply guard_check_ok. vm_compute. reflexivity.
Qed.

(** ** C81 *)
(** A coroutine is preempted inside get_best_env__ (co_manager.cpp 23-71). *)
Local Definition w_mon : list llbl :=
  env 0 0 ++ [LCall (AC 9 0) (KMonitor [(0, true)] None)] ++ st (AC 9 0) 12 ++ [LCall (AC 0 1) (KCreate 5 (Some ([0], None)) 0)] ++ st (AC 0 1) 6 ++
  [LSig 0 SwGo] ++ st (AH 0) 6 ++ [LYield (AH 0) (AC 0 0)] ++ st (AC 0 0) 3 ++ [LCall (AC 9 0) (KMonitor [(0, true)] None)] ++ st (AC 9 0) 3.
Local Lemma kept_waiting : forall ls s, run lstep linit ls = Some s -> twaits s 9 0 -> pr s (cur s 0) = Ret -> sig s 0 = false -> sig s 9 = false ->
  (exists a, In (th a) [0; 9] /\ In a (lk s Mgr)) ->
  forall ls' s', (forall k, ~ In (LCall (cur s 0) k) ls') -> run lstep s ls' = Some s' -> twaits s' 9 0 /\ cur s' 0 = cur s 0.
Proof.
  intros ls s R W P S0 S9 M ls' s' NC R'.
  assert (H : forall v, In v [0; 9] -> still s [0; 9] ls' v /\ unswitched s [0; 9] ls' v).
  { intros v [<-|[<-|[]]]; (split; [|right; left; split; [assumption|exact M]]).
    - right. split; auto.
    - left. exists 0. split; [now left|exact W]. }
  pose proof (keeps_run [0; 9] _ (TI_reach _ _ R) (CI_reach _ _ R) (BI_reach _ _ R) ls' s' H R') as (K1&K2&_).
  destruct (K1 0 (or_introl eq_refl)) as (E0&_). destruct (K1 9 (or_intror (or_introl eq_refl))) as (E9&_). split; auto.
  destruct W as (l&b&W&Ib&E&N). exists l, b. rewrite E9. split; [|split; [|auto]].
  - apply wants_pr with s; auto. apply K2. rewrite (CI_reach _ _ R 9). simpl. auto.
  - apply K2; auto. rewrite E. now left.
Qed.
(** The monitor (thread 9) waits; it waits as long as the coroutine that now runs on thread 0 makes no call, whatever the other
    threads do; that coroutine is not preempted either. *)
Theorem monitor_kept_waiting_refuted : exists ls s, (forall a k, In (LCall a k) ls -> plain k) /\ run lstep linit ls = Some s /\
  twaits s 9 0 /\ pr s (cur s 0) = Ret /\
  forall ls' s', (forall k, ~ In (LCall (cur s 0) k) ls') -> run lstep s ls' = Some s' -> twaits s' 9 0 /\ cur s' 0 = cur s 0.
Proof.
  assert (R : run lstep linit w_mon = Some (after w_mon)) by (apply after_run; vm_compute; reflexivity).
  assert (W : twaits (after w_mon) 9 0) by (apply (twaits_b _ 9 Mgr (AC 0 1)); vm_compute; reflexivity).
  assert (P : pr (after w_mon) (cur (after w_mon) 0) = Ret) by (apply ret_b; vm_compute; reflexivity).
  exists w_mon, (after w_mon). split.
  { intros a k I. assert (F : Forall (fun l => match l with LCall _ k => plain k | _ => True end) w_mon) by (vm_compute; repeat constructor).
    rewrite Forall_forall in F. exact (F _ I). }
  split; [exact R|]. split; [exact W|]. split; [exact P|]. apply (kept_waiting w_mon); [exact R|exact W|exact P|vm_compute; reflexivity|vm_compute; reflexivity|].
  exists (AC 0 1). split; [simpl; auto|]. apply has_b. vm_compute. reflexivity.
Qed.
Print Assumptions monitor_kept_waiting_refuted.
(** Without preemption every lock is held by a coroutine that is executing and inside a call, so that nothing can be kept from
    the monitor by client code. *)
Theorem monitor_kept_waiting_partial : forall ls s a l, Forall unsignalled ls -> run lstep linit ls = Some s -> In a (lk s l) ->
  cur s (th a) = a /\ pr s a <> Ret /\ (forall k, pr s a <> Do Park k) /\ (forall k, pr s a <> Do Yield k).
Proof.
  intros ls s a l F R I. split; [exact (BN_reach _ _ F R a l I)|]. destruct (BI_reach _ _ R) as (B&_). destruct (B a) as (h&H1&H2).
  assert (J : h <> []) by (intros ->; apply (count_occ_In agent_eq) in I; rewrite H2 in I; simpl in I; lia).
  split; [intros E; rewrite E in H1; simpl in H1; congruence|]. split; intros k E; rewrite E in H1; destruct H1; congruence.
Qed.
Print Assumptions monitor_kept_waiting_partial.
Example monitor_kept_waiting_example : exists s, run lstep linit x_chain = Some s /\ Forall unsignalled x_chain /\ In (AC 0 1) (lk s Mgr) /\ twaits s 9 0.
Proof.
  exists (after x_chain). split; [apply after_run; vm_compute; reflexivity|]. split; [vm_compute; repeat constructor|].
  split; [apply has_b; vm_compute; reflexivity|]. apply (twaits_b _ 9 Mgr (AC 0 1)). vm_compute. reflexivity.
Qed.
