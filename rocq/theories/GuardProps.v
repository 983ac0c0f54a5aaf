(** C101: a coroutine that computes can be preempted, whatever the other coroutines of its thread wait for. *)
From Coq Require Import List Arith Bool Lia.
From Verif Require Import Base GuardModel GuardProofs.
Import ListNotations.

(** The switch signal takes the running coroutine off the thread, for whichever other one is chosen. *)
Definition preemptible (s : gst) : Prop := forall n, ended s n = false -> exists s', gstep s (LSig n) = Some s' /\ cur s' = n.
(** No coroutine has ended in an execution (that one has ended is the subject of C45); no shared stack was switched. *)
Definition none_ended (ls : list glab) : Prop := forall n, ~ In (LEnd n) ls.
Definition none_shared (ls : list glab) : Prop := forall n, ~ In (LSw Shr n) ls.
(** No coroutine has switched because a spin lock was taken. *)
Definition none_spun (ls : list glab) : Prop := forall n, ~ In (LSw Spin n) ls.
(** No coroutine has had to switch because a lock of the library was taken. *)
Definition none_locked (ls : list glab) : Prop := forall n, ~ In (LSw Lck n) ls.
(** Only functions of [P] were called. *)
Definition calls_only (P : fn -> Prop) (ls : list glab) : Prop := forall f, In (LCall f) ls -> P f.

Lemma preempt_zero : forall s, preemptible s -> ended s (S (cur s)) = false -> cnt s = 0.
Proof.
  intros s H E. destruct (H _ E) as (s' & G & C). unfold gstep in G. simpl in G.
  destruct (Nat.eqb_spec (cnt s) 0); [assumption|]. injection G as <-. lia.
Qed.
Lemma zero_preempt : forall s, cnt s = 0 -> preemptible s.
Proof. intros s Z n E. eexists. unfold gstep. simpl. rewrite Z. simpl. unfold goto. rewrite E. simpl. split; reflexivity. Qed.

Lemma live_run : forall ls s0 s, (forall c, ended s0 c = false) -> none_ended ls -> run gstep s0 ls = Some s -> forall c, ended s c = false.
Proof.
  induction ls as [|l ls IH]; intros s0 s G E R; simpl in R; [injection R as <-; exact G|].
  destruct (gstep s0 l) as [s1|] eqn:S1; [|discriminate]. refine (IH s1 s _ (fun n I => E n (or_intror I)) R).
  intros c. rewrite <- (G c). unfold gstep in S1. destruct l; cbn [gstep_res] in S1.
  - destruct (client s0); [|discriminate]. now injection S1 as <-.
  - destruct (stk s0 (cur s0)) as [|[] r]; try discriminate. now injection S1 as <-.
  - destruct (stk s0 (cur s0)) as [|[] r]; try discriminate; simpl in S1; try (now injection S1 as <-); try discriminate.
    destruct (cnt s0); [discriminate|]. now injection S1 as <-.
  - destruct (stk s0 (cur s0)) as [|[] r]; try discriminate; now injection S1 as <-.
  - destruct (stk s0 (cur s0)) as [|[] r]; try discriminate. destruct (kind_eqb k k0); [|discriminate]. unfold goto in S1. simpl in S1.
    destruct (ended s0 n); [discriminate|]. now injection S1 as <-.
  - destruct (cnt s0 =? 0); [|now injection S1 as <-]. unfold goto in S1. destruct (ended s0 n); [discriminate|]. now injection S1 as <-.
  - now injection S1 as <-.
  - destruct (out s0); [discriminate|]. destruct (cnt s0); [discriminate|]. now injection S1 as <-.
  - destruct (E n (or_introl eq_refl)).
Qed.
Lemma forall_lab : forall g P ls, (forall k n, In (LSw k n) ls -> g k = true) -> none_ended ls -> calls_only P ls -> Forall (lab_ok g P) ls.
Proof.
  intros g P ls K E C. apply Forall_forall. intros [] H; simpl; auto.
  - eapply K; eauto.
  - exact (E _ H).
Qed.

(** The counter is always the sum of what the calls in progress have added; no assertion on it fails; a coroutine that is in no call
    has added nothing unless it has ended. *)
Theorem guard_balanced : forall ls s, run gstep ginit ls = Some s ->
  (forall l, gstep_res s l <> Some GAbort) /\ (forall c, ended s c = false -> stk s c = [] -> dep s c = 0) /\
  (forall c, ended s c = true -> dep s c = 1) /\ (exists n, (forall c, n <= c -> dep s c = 0) /\ cnt s = out s + sumf (dep s) n).
Proof.
  intros ls s R. apply reach_gi in R as I. repeat split.
  - intros l H. destruct (step_gi s l GAbort I H) as (s' & E & _). discriminate.
  - intros c E Q. pose proof (gi_eff s I c E) as F. rewrite Q in F. simpl in F. now injection F.
  - apply (gi_end s I).
  - destruct (gi_sum s I) as [(n & Z & S1) L]. exists n. split; [assumption|lia].
Qed.
Print Assumptions guard_balanced.

(** What holds: as long as every call made so far is of a function that switches, and calls back, only with no guard of its own in
    force (the static check [ok]), client code can be preempted.  First for all switches, then for executions in which no
    coroutine had to switch at a spin lock, then for those in which none had to switch at any lock either. *)
Theorem wait_preempt_partial : forall ls s, run gstep ginit ls = Some s ->
  calls_only (fun f => ok every 0 (code f) = true) ls \/ (calls_only (fun f => ok unspun 0 (code f) = true) ls /\ none_spun ls) \/
  (calls_only (fun f => ok own_only 0 (code f) = true) ls /\ none_spun ls /\ none_locked ls) ->
  none_ended ls -> none_shared ls -> client s = true -> out s = 0 -> preemptible s.
Proof.
  intros ls s R P E X C O. apply zero_preempt. rewrite <- O. destruct P as [P|[[P N]|[P [N M]]]].
  - destruct (run_gj every _ ls s eq_refl (fun f H => H) (forall_lab every _ ls
      ltac:(intros [] n H; simpl; auto; destruct (X _ H)) E P) R) as [I J]. eapply passed_zero; eauto.
  - destruct (run_gj unspun _ ls s eq_refl (fun f H => H) (forall_lab unspun _ ls
      ltac:(intros [] n H; simpl; auto; [destruct (N _ H)|destruct (X _ H)]) E P) R) as [I J]. eapply passed_zero; eauto.
  - destruct (run_gj own_only _ ls s eq_refl (fun f H => H) (forall_lab own_only _ ls
      ltac:(intros [] n H; simpl; auto; [destruct (M _ H)|destruct (N _ H)|destruct (X _ H)]) E P) R) as [I J]. eapply passed_zero; eauto.
Qed.
Print Assumptions wait_preempt_partial.
(** A case: coroutine 1 locks a mutex that it has to wait for; coroutine 2 computes and is preempted in favour of 3. *)
Definition lock_waits : list glab := boot ++ LCall (FLock KMutex) ::
  [LOp; LOp; LOp; LOp; LPick false; LOp; LPick true; LOp; LOp; LOp; LOp] ++
  [LOp; LOp; LOp; LOp; LOp; LOp; LOp; LOp; LOp; LOp; LPick false; LOp; LPick true; LOp; LOp; LOp; LOp; LOp; LPick false; LOp; LOp; LOp; LSw Lck 2].
Example wait_preempt_ex : exists s, run gstep ginit lock_waits = Some s /\ cur s = 2 /\ client s = true /\ out s = 0 /\ stk s 1 <> [] /\
  ok unspun 0 (code (FLock KMutex)) = true /\ none_spun lock_waits /\ none_ended lock_waits /\ none_shared lock_waits /\
  option_map cur (gstep s (LSig 3)) = Some 3.
Proof.
  eexists. split; [vm_compute; reflexivity|]. repeat split; try (vm_compute; congruence);
    intros n H; vm_compute in H; repeat (destruct H as [H|H]; [discriminate|]); exact H.
Qed.

(** The check is exact: a function passes it if and only if calling nothing else leaves client code preemptible. *)
Theorem wait_preempt_exact : forall f, ok every 0 (code f) = true <->
  (forall ls s, run gstep ginit ls = Some s -> calls_only (eq f) ls -> none_ended ls -> none_shared ls -> client s = true -> out s = 0 ->
   preemptible s).
Proof.
  intros f. split.
  - intros K ls s R P E X C O. eapply wait_preempt_partial; eauto. left. intros f' H. rewrite <- (P f' H). exact K.
  - intros H. destruct (ok every 0 (code f)) eqn:K; [reflexivity|exfalso].
    destruct (hit_reached every f eq_refl (hit_every f K)) as (ls & s & R & F & C & O & Z). rewrite Forall_forall in F.
    assert (E : none_ended ls) by (intros n I; exact (F _ I)).
    specialize (H ls s R (fun f' I => F _ I) E (fun n I => ltac:(specialize (F _ I); discriminate F)) C O).
    apply preempt_zero in H; [lia|]. assert (EN : forall c, ended s c = false); [|apply EN].
    exact (live_run ls ginit s (fun _ => eq_refl) E R).
Qed.
Print Assumptions wait_preempt_exact.

(** Which functions pass.  First: with all switches.  Second: which do not pass even if spin locks are never found taken: all that
    wait at a condition variable, and co_call_once.  Third: which do not pass even if no lock is ever found taken: of these
    all but the timed waits without a predicate, which only lock again under their guard. *)
Theorem wait_preempt_table : forall f,
  (ok every 0 (code f) = true <-> In f [FYield; FSleep; FJoin; FJoinFor; FCreate; FIo; FSpinLock; FSpinTry; FSpinUnlock]) /\
  (ok unspun 0 (code f) = false <-> In f ([FCvWait KMutex; FCvWait KRec; FCvWait KShared; FCvWaitP KMutex; FCvWaitP KRec; FCvWaitP KShared;
     FCvWaitU KMutex; FCvWaitU KRec; FCvWaitU KShared; FCvWaitUP KMutex; FCvWaitUP KRec; FCvWaitUP KShared; FSemAcquire; FSemRelease;
     FLatchWait; FLatchArriveWait; FWgWait; FBarWait; FBarArriveWait; FPushFixed; FPushSync; FPop; FCallOnce])) /\
  (ok own_only 0 (code f) = false <-> In f ([FCvWait KMutex; FCvWait KRec; FCvWait KShared; FCvWaitP KMutex; FCvWaitP KRec; FCvWaitP KShared;
     FCvWaitUP KMutex; FCvWaitUP KRec; FCvWaitUP KShared; FSemAcquire; FSemRelease;
     FLatchWait; FLatchArriveWait; FWgWait; FBarWait; FBarArriveWait; FPushFixed; FPushSync; FPop; FCallOnce])).
Proof.
  intros [ | | | | | | | | | [] | [] | [] | [] | [] | [] | [] | [] | | | | | | | | | | | | | | | | | | | | | | ];
    (split; [|split]); (split; intros H; [|]); vm_compute in *; try reflexivity; try discriminate; try tauto;
    exfalso; repeat (destruct H as [H|H]; [discriminate|]); exact H.
Qed.
Print Assumptions wait_preempt_table.

(** And client code that computes while another call keeps the counter up stays for ever, whatever signals arrive and whatever other
    threads do: the other coroutines of the thread, also those that would end the wait, do not run again. *)
Theorem wait_preempt_stuck : forall s, client s = true -> out s < cnt s ->
  forall ls s', Forall passive ls -> run gstep s ls = Some s' -> cur s' = cur s.
Proof. intros s C K ls s' F R. eapply starve; eauto. Qed.
Print Assumptions wait_preempt_stuck.

(** For every function of the third list: one call of it by coroutine 1, and coroutine 2 (in a callable: coroutine 1)
    computes and can never be preempted, although nobody holds the schedule lock, nobody has ended and no lock was found taken. *)
Theorem wait_preempt_never : forall f, ok own_only 0 (code f) = false ->
  exists ls s, run gstep ginit ls = Some s /\ calls_only (eq f) ls /\ none_ended ls /\ none_shared ls /\ none_spun ls /\ none_locked ls /\ client s = true /\ out s = 0 /\
  ~ preemptible s /\ forall ls' s', Forall passive ls' -> run gstep s ls' = Some s' -> cur s' = cur s.
Proof.
  intros f K. destruct (hit_reached own_only f eq_refl (hit_own f K)) as (ls & s & R & F & C & O & Z). rewrite Forall_forall in F.
  assert (ST : forall ls' s', Forall passive ls' -> run gstep s ls' = Some s' -> cur s' = cur s).
  { intros ls' s' P R'. eapply wait_preempt_stuck; eauto. lia. }
  exists ls, s. repeat split; auto.
  - intros f' I. exact (F _ I).
  - intros n I. exact (F _ I).
  - intros n I. specialize (F _ I). discriminate F.
  - intros n I. specialize (F _ I). discriminate F.
  - intros n I. specialize (F _ I). discriminate F.
  - intros H. destruct (Nat.eq_dec (cur s) 0) as [Z0|NZ]; [unfold client in C; rewrite Z0 in C; discriminate|].
    assert (E0 : ended s 0 = false).
    { apply (live_run ls ginit s (fun _ => eq_refl)); [|exact R]. intros n I. exact (F _ I). }
    destruct (H 0 E0) as (s' & G & C'). apply NZ. rewrite <- C'. symmetry. apply (ST [LSig 0] s'); [repeat constructor|]. simpl. now rewrite G.
Qed.
Print Assumptions wait_preempt_never.
(** The same for the second list, where a lock may have been found taken. *)
Theorem wait_preempt_lock : forall f, ok unspun 0 (code f) = false ->
  exists ls s, run gstep ginit ls = Some s /\ calls_only (eq f) ls /\ none_ended ls /\ none_shared ls /\ none_spun ls /\ client s = true /\ out s = 0 /\
  ~ preemptible s /\ forall ls' s', Forall passive ls' -> run gstep s ls' = Some s' -> cur s' = cur s.
Proof.
  intros f K. destruct (hit_reached unspun f eq_refl (hit_unspun f K)) as (ls & s & R & F & C & O & Z). rewrite Forall_forall in F.
  assert (ST : forall ls' s', Forall passive ls' -> run gstep s ls' = Some s' -> cur s' = cur s).
  { intros ls' s' P R'. eapply wait_preempt_stuck; eauto. lia. }
  exists ls, s. repeat split; auto.
  - intros f' I. exact (F _ I).
  - intros n I. exact (F _ I).
  - intros n I. specialize (F _ I). discriminate F.
  - intros n I. specialize (F _ I). discriminate F.
  - intros H. destruct (Nat.eq_dec (cur s) 0) as [Z0|NZ]; [unfold client in C; rewrite Z0 in C; discriminate|].
    assert (E0 : ended s 0 = false).
    { apply (live_run ls ginit s (fun _ => eq_refl)); [|exact R]. intros n I. exact (F _ I). }
    destruct (H 0 E0) as (s' & G & C'). apply NZ. rewrite <- C'. symmetry. apply (ST [LSig 0] s'); [repeat constructor|]. simpl. now rewrite G.
Qed.
Print Assumptions wait_preempt_lock.
(** A case: pop on an empty channel, which is the refutation of the property. *)
Theorem wait_preempt_refuted : exists ls s, run gstep ginit ls = Some s /\ calls_only (eq FPop) ls /\ none_ended ls /\ none_shared ls /\ none_spun ls /\ none_locked ls /\
  client s = true /\ out s = 0 /\ ~ preemptible s /\ forall ls' s', Forall passive ls' -> run gstep s ls' = Some s' -> cur s' = cur s.
Proof. apply wait_preempt_never. vm_compute. reflexivity. Qed.
Print Assumptions wait_preempt_refuted.
(** The states of [wait_preempt_stuck] are reached. *)
Example wait_preempt_pop : exists s n, run gstep ginit n = Some s /\ client s = true /\ out s < cnt s.
Proof.
  destruct (hit_reached own_only FPop eq_refl (hit_own FPop ltac:(vm_compute; reflexivity))) as (ls & s & R & _ & C & O & Z).
  exists s, ls. repeat split; auto. lia.
Qed.
(** The idle coroutine holds a guard (co_env.cpp 369) while it switches to a coroutine with a shared stack: that coroutine, and every
    other one until the idle coroutine runs again, cannot be preempted, though no coroutine has called anything. *)
Theorem shared_preempt_refuted : exists ls s, run gstep ginit ls = Some s /\ calls_only (fun _ => False) ls /\ none_ended ls /\ none_spun ls /\
  client s = true /\ out s = 0 /\ ~ preemptible s /\ forall ls' s', Forall passive ls' -> run gstep s ls' = Some s' -> cur s' = cur s.
Proof.
  exists [LOp; LOp; LOp; LOp; LOp; LOp; LOp; LOp; LOp; LPick true; LOp; LOp; LOp; LPick false; LOp; LOp; LOp; LOp; LOp; LOp; LOp; LOp; LOp; LOp;
   LPick false; LOp; LOp; LOp; LOp; LPick true; LOp; LOp; LOp; LOp; LSw Shr 1].
  eexists. split; [vm_compute; reflexivity|].
  split; [intros n H; simpl in H; repeat (destruct H as [H|H]; [discriminate|]); exact H|].
  split; [intros n H; simpl in H; repeat (destruct H as [H|H]; [discriminate|]); exact H|].
  split; [intros n H; simpl in H; repeat (destruct H as [H|H]; [discriminate|]); exact H|].
  split; [reflexivity|]. split; [reflexivity|]. split.
  - intros H. apply preempt_zero in H; [discriminate|reflexivity].
  - intros ls' s' P R. eapply wait_preempt_stuck; [| |exact P|exact R]; [reflexivity|simpl; lia].
Qed.
Print Assumptions shared_preempt_refuted.
