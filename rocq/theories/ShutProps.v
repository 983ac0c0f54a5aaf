(** C75-C78: the manager's shutdown. *)
From Coq Require Import List Arith Bool Lia.
From Verif Require Import Base HistSpec ShutSpec ShutModel ShutProofs ShutLive.
Import ListNotations.

(** Membership in a concrete history. *)
Local Ltac isin := repeat first [left; reflexivity | right].

(** ** C75: the destructor returns *)
(** Refuted: the notification of the timer thread is sent without its lock, so it is lost when the thread has seen clean_up__
    false and an empty queue but does not wait yet.  Then the destructor never returns, whatever happens, short of a timer
    being started or stopped or a wake-up without cause. *)
Theorem shutdown_returns_refuted : exists ls s, run sstep sinit ls = Some s /\ begun (hist s) /\
  forall ls' s', Forall (fun l => l <> LIns /\ l <> LSpurT) ls' -> run sstep s ls' = Some s' -> ~ returned (hist s').
Proof.
  exists [LT true; LT true; LD]. eexists. split; [vm_compute; reflexivity|]. split; [right; now left|].
  intros ls' s' F R. eapply stuck_runs; [| | |exact F|exact R]; auto.
  apply (inv3_reach [LT true; LT true; LD]). vm_compute. reflexivity.
Qed.
Print Assumptions shutdown_returns_refuted.
(** If the timer thread is not in that window when destruction begins, then from every later state every execution of the
    background threads, the destructor and the environments is finite, and as long as the destructor has not returned one of
    them can take a step: so it returns, unless clients keep creating environments.  What is missing is the window, in which
    it is false. *)
Theorem shutdown_returns_partial : forall ls0 s0 ls1 s, run sstep sinit ls0 = Some s0 -> ~ begun (hist s0) -> parked (tp s0) = false ->
  run sstep s0 (LD :: ls1) = Some s ->
  exists n, forall ls s', Forall (fun l => serves l = true) ls -> run sstep s ls = Some s' ->
    length ls <= n /\ (returned (hist s') \/ exists l s'', serves l = true /\ sstep s' l = Some s'').
Proof.
  intros ls0 s0 ls1 s R B W R1. pose proof (inv3_reach _ _ R) as I. pose proof I as (H&C&_).
  assert (P : dp s0 = DNone).
  { unfold begun in B. rewrite (c_vc _ C), (c_cl _ C) in B. destruct (dp s0); auto; destruct B; discriminate. }
  cbn [run] in R1. destruct (sstep s0 LD) as [s2|] eqn:E; [|discriminate].
  destruct (begin_step s0 s2) as [Cl2 W2]; auto. assert (I2 : inv3 s2) by (eapply inv3_step; eauto).
  destruct (window_runs ls1 s2 s) as (I3&Cl&W3); auto. exists (meas s). intros ls s' F R'.
  destruct (serve_runs ls s s') as (A1&A2&A3&A4); auto. split; [lia|].
  destruct A2 as (H'&C'&_). unfold returned. rewrite (c_vr _ C').
  assert (D : dp s' = DRet \/ dp s' <> DRet) by (destruct (dp s'); auto; right; discriminate). destruct D as [D|D]; auto.
  right. now apply serve_can.
Qed.
Print Assumptions shutdown_returns_partial.

(** ** C76: environments are destroyed once, after use *)
Theorem env_destroyed_well : forall ls s, run sstep sinit ls = Some s -> destroyed_well (hist s).
Proof. intros ls s R. destruct (inv3_reach _ _ R) as (H&_). apply (e_h1 _ H). Qed.
Print Assumptions env_destroyed_well.
Theorem env_expired_once : forall ls s, run sstep sinit ls = Some s -> expired_once (hist s).
Proof. intros ls s R. destruct (inv3_reach _ _ R) as (H&_). apply (e_h2 _ H). Qed.
Print Assumptions env_expired_once.

(** ** C77: no environment is used after it was destroyed *)
(** An ordinary shutdown: thread 0 has used the library, an environment with a thread was made, and both background threads wait. *)
Definition plain_end : list slbl :=
  [LC; LC; LM []; LT true; LT true; LT true; LCur 0; LMake (TUser 0); LD; LC; LFree 0; LC; LC; LC; LFree 2; LC; LC; LC; LM []; LM []; LM []; LT true; LD; LD; LD].
Lemma uaf_breaks : forall t e h, used_after_free t e h -> ~ no_use_after_free h.
Proof. intros t e h (n&v&o&->&U&F) N. exact (N n v o eq_refl t e U F). Qed.
(** Whenever the destructor returns and any environment was destroyed before, the cleaner has used a destroyed environment: the
    one it made for itself when it first destroyed one. *)
Theorem cleaner_uses_freed : forall ls s e, run sstep sinit ls = Some s -> returned (hist s) -> In (VFree e) (hist s) ->
  exists c, used_after_free TCleaner c (hist s).
Proof.
  intros ls s e R Rt F. destruct (inv3_reach _ _ R) as (H&C&K). apply (c_vr _ C) in Rt.
  assert (P : cp s = CEnd) by (apply (c_d1 _ C); auto). apply (e_fr _ H) in F as [L F].
  destruct (k_fr _ K e L F) as [X|X]; [|congruence]. destruct (ccur s) as [c|] eqn:E; [|tauto]. exists c.
  destruct (k_use _ K c E) as [Y|Y]; auto; [|congruence].
  pose proof (k_exp _ K c E (or_intror P)) as N1. pose proof (k_nor _ K c E P) as N2.
  destruct (pl (envs s c)) eqn:Pc; try congruence. destruct (e_cc _ H _ E) as (Lc&O&W).
  destruct (o_nos _ _ (e_ok _ H _ Lc) (o_cln _ _ (e_ok _ H _ Lc) O)) as (_&_&D). congruence.
Qed.
Print Assumptions cleaner_uses_freed.
(** Refuted: in the ordinary shutdown above. *)
Theorem use_after_free_refuted : exists ls s, run sstep sinit ls = Some s /\ returned (hist s) /\ ~ no_use_after_free (hist s).
Proof.
  exists plain_end. eexists. split; [vm_compute; reflexivity|]. split; [left; reflexivity|].
  cbn [hist]. intros N.
  match type of N with no_use_after_free (?a :: ?b :: ?c :: ?d :: ?e :: ?f :: ?g :: ?v :: ?o) =>
    apply (N [a; b; c; d; e; f; g] v o eq_refl TCleaner 2 eq_refl) end.
  now left.
Qed.
Print Assumptions use_after_free_refuted.
(** Refuted also without the cleaner's environment: thread 0 schedules in its own environment, is told to stop, and is still
    publishing the end of its work when the cleaner destroys the environment, since there is no thread to wait for. *)
Theorem use_by_client_refuted : exists ls s, run sstep sinit ls = Some s /\ used_after_free (TUser 0) 0 (hist s).
Proof.
  exists [LC; LC; LCur 0; LSched 0; LD; LFin 0; LC; LFree 0; LPub 0]. eexists. split; [vm_compute; reflexivity|].
  eexists [VEnd 0], _, _. split; [reflexivity|]. split; [reflexivity|]. now left.
Qed.
Print Assumptions use_by_client_refuted.
(** Environments with a thread of their own are never used after they were destroyed, and the others only by the thread they
    were made for.  What is missing are those uses, which do happen. *)
Theorem use_after_free_partial : forall ls s, run sstep sinit ls = Some s -> only_own_use (hist s).
Proof. intros ls s R. destruct (inv3_reach _ _ R) as (H&_). apply (e_h3 _ H). Qed.
Print Assumptions use_after_free_partial.

(** ** C78: nothing is left when the destructor returns *)
(** Refuted: the environment with its own thread was told to stop, but not waited for; it is never destroyed, and later its
    thread uses the manager. *)
Theorem shutdown_complete_refuted : exists ls s, run sstep sinit ls = Some s /\ ~ all_destroyed (hist s) /\ ~ manager_unused (hist s).
Proof.
  exists (plain_end ++ [LFin 1; LPub 1]). eexists. split; [vm_compute; reflexivity|]. split.
  - intros A. specialize (A [VEnd 1; VUse (TWorker 1) 1; VMgr (TWorker 1); VExp 1] VReturn _ eq_refl (TUser 0) 1 true).
    simpl in A. intuition discriminate.
  - intros A. specialize (A [VEnd 1; VUse (TWorker 1) 1] (VMgr (TWorker 1)) _ eq_refl). apply A. simpl. auto.
Qed.
Print Assumptions shutdown_complete_refuted.
(** Refuted also for environments without a thread, which the destructor itself takes out of service: if the cleaner has not
    begun, it ends without destroying them. *)
Theorem shutdown_early_refuted : exists ls s, run sstep sinit ls = Some s /\ returned (hist s) /\ In (VExp 0) (hist s) /\ ~ In (VFree 0) (hist s).
Proof.
  exists [LCur 0; LD; LC; LC; LM []; LT true; LD; LD; LD]. eexists. split; [vm_compute; reflexivity|]. split; [now left|].
  split; [isin|]. simpl. intuition discriminate.
Qed.
Print Assumptions shutdown_early_refuted.
(** When the destructor returns, every environment made before the destruction began has been told to stop or taken out of
    service; if the cleaner was ready by then, told to stop or destroyed; those with a thread have been told in any case.  The
    manager's own threads do not use the manager afterwards.  What is missing is that those told to stop are waited for. *)
Theorem shutdown_told_partial : forall ls s e w, run sstep sinit ls = Some s -> made_before e w (hist s) ->
  (exists t, In (VTold t e) (hist s)) \/ In (VExp e) (hist s) /\ w = false /\ (returned (hist s) -> ready_before (hist s) -> In (VFree e) (hist s)).
Proof.
  intros ls s e w R M. destruct (inv3_reach _ _ R) as (H&C&K).
  assert (I : exists t, In (VMake t e w) (hist s)).
  { destruct M as (n&o&t&E&I). exists t. rewrite E. apply in_app_iff. right. now right. }
  destruct I as [t I]. destruct (e_mk _ H _ _ _ I) as (L&Wk&_).
  destruct (k_mb _ K _ _ M) as [X|X]; auto. pose proof X as X'. apply (e_ex _ H) in X' as [_ P].
  destruct (told (envs s e)) eqn:T; [left; now apply (e_td _ H)|]. right. split; auto. split.
  - destruct w; auto. exfalso. assert (G : ph (envs s e) = PPub \/ ph (envs s e) = PGone).
    { destruct P as [P|P]; [now apply (o_exp _ _ (e_ok _ H _ L))|right; now apply (o_fre _ _ (e_ok _ H _ L))]. }
    apply (o_fin _ _ (e_ok _ H _ L)) in G as [G _]. congruence.
  - intros Rt Rd. apply (c_vr _ C) in Rt. assert (Pc : cp s = CEnd) by (apply (c_d1 _ C); auto). apply (e_fr _ H). split; auto.
    destruct P as [P|P]; auto. pose proof (k_rd _ K e Rd (or_intror Pc) L P). congruence.
Qed.
Print Assumptions shutdown_told_partial.
Theorem shutdown_service_done_partial : forall ls s, run sstep sinit ls = Some s -> service_done (hist s).
Proof. intros ls s R. destruct (inv3_reach _ _ R) as (_&C&_). apply (c_sd _ C). Qed.
Print Assumptions shutdown_service_done_partial.

(** The ordinary shutdown: it returns, two environments are destroyed, the third was told to stop. *)
Example plain_end_ex : exists s, run sstep sinit plain_end = Some s /\ returned (hist s) /\ In (VFree 0) (hist s) /\
  made_before 1 true (hist s) /\ made_before 0 false (hist s) /\ ready_before (hist s) /\ In (VTold TDestroyer 1) (hist s).
Proof.
  eexists. split; [vm_compute; reflexivity|]. cbn [hist]. split; [now left|]. split; [isin|].
  match goal with |- context [ready_before ?h] => pose (n := firstn 21 h); pose (o := skipn 22 h);
    assert (E : h = n ++ VClean :: o) by reflexivity end.
  split; [|split; [|split]].
  - exists n, o, (TUser 0). split; [exact E|]. unfold o. cbn [skipn]. isin.
  - exists n, o, (TUser 0). split; [exact E|]. unfold o. cbn [skipn]. isin.
  - exists n, o. split; [exact E|]. unfold o. cbn [skipn]. isin.
  - isin.
Qed.
(** The timer thread waits when destruction begins: the hypotheses of [shutdown_returns_partial]. *)
Example begun_ex : exists s0 s, run sstep sinit (firstn 8 plain_end) = Some s0 /\ ~ begun (hist s0) /\ tp s0 = RWait /\ parked (tp s0) = false /\
  run sstep s0 [LD; LC; LCur 0] = Some s /\ at_place s Expired = [0].
Proof.
  eexists. eexists. split; [vm_compute; reflexivity|]. split; [vm_compute; intuition discriminate|]. split; [reflexivity|]. split; [reflexivity|].
  split; [vm_compute; reflexivity|]. reflexivity.
Qed.
