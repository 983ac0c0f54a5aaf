(** C85, C86: creation that fails; everything is given back once. *)
From Coq Require Import List Arith Bool Lia Permutation.
From Verif Require Import Base AllocSpec AllocModel AllocProofs.
Import ListNotations.

(** ** C85: a creation that fails leaves nothing behind *)
(** Refuted by one failed allocation (of the co_stack, after the mapping): nothing was amiss before; the mapping of the stack is
    then held, no environment answers for it, and whatever happens later it is never given back. *)
Theorem failed_creation_refuted : exists sz s t s' r, arun sz ainit [LThread []; LSched 2] = Some s /\
  accounted _ (live s) (own s) /\ astep sz s (LCreate 8 false (AtEnv 2) t) = Some s' /\ out s' = None :: out s /\
  ~ leaves_nothing _ (live s) (live s') /\
  forall ls s'', arun sz s' ls = Some s'' -> In r (live s'') /\ ~ In r (own s'').
Proof.
  exists 4. eexists. exists [true; true; false]. eexists. exists (RMap 3 8). split; [vm_compute; reflexivity|]. split.
  { split; [cbn; repeat constructor; cbn; intuition discriminate|]. intros r. cbn. tauto. }
  split; [vm_compute; reflexivity|]. split; [vm_compute; reflexivity|]. split.
  - intros H. specialize (H (RMap 3 8) (or_introl eq_refl)). cbn in H. intuition discriminate.
  - intros ls s'' R. eapply (lost_for_ever 4 [LThread []; LSched 2; LCreate 8 false (AtEnv 2) [true; true; false]]); [vm_compute; reflexivity| | |exact R].
    + now left.
    + cbn. intuition discriminate.
Qed.
Print Assumptions failed_creation_refuted.
(** Refuted with memory for everything: the environment was told to stop; the coroutine, its stack and its mapping are lost. *)
Theorem failed_creation_stop_refuted : exists sz s s', arun sz ainit [LThread []; LSched 2; LStop 2] = Some s /\
  accounted _ (live s) (own s) /\ astep sz s (LCreate 8 false (AtEnv 2) []) = Some s' /\ out s' = None :: out s /\
  forall r, In r [RCtx 5; RStk 4; RMap 3 8] -> ~ In r (live s) /\
    forall ls s'', arun sz s' ls = Some s'' -> In r (live s'') /\ ~ In r (own s'').
Proof.
  exists 4. do 2 eexists. split; [vm_compute; reflexivity|]. split.
  { split; [cbn; repeat constructor; cbn; intuition discriminate|]. intros r. cbn. tauto. }
  split; [vm_compute; reflexivity|]. split; [vm_compute; reflexivity|]. intros r I. split.
  - cbn in I. intros J. cbn in J. intuition (subst; discriminate).
  - intros ls s'' R. eapply (lost_for_ever 4 [LThread []; LSched 2; LStop 2; LCreate 8 false (AtEnv 2) []]); [vm_compute; reflexivity| | |exact R].
    + cbn in I. cbn. tauto.
    + cbn in I. cbn. intuition (subst; discriminate).
Qed.
Print Assumptions failed_creation_stop_refuted.
(** In all executions a creation that throws takes nothing away that was held, leaves the environments with their coroutines and
    states, and what it leaves behind without an owner are at most six things, all new.  If already the first allocation fails,
    or the mapping of the stack, nothing is left behind.  And afterwards a creation in an environment that schedules succeeds if
    there is memory.  What is missing is what is false: other failures leave something behind. *)
Theorem failed_creation_partial : forall sz ls s, arun sz ainit ls = Some s ->
  (forall l s', astep sz s l = Some s' -> out s' = None :: out s ->
     takes_nothing _ (live s) (live s') /\ incl (envs s) (envs s') /\
     (forall e, In e (envs s) -> equeue (en s' e) = equeue (en s e) /\ ephase (en s' e) = ephase (en s e)) /\
     exists X, length X <= 6 /\ (forall r, In r X -> ~ In r (live s)) /\
       forall r, In r (live s') -> In r (own s') \/ In r X \/ (In r (live s) /\ ~ In r (own s))) /\
  (forall n sh p t s', astep sz s (LCreate n sh p (false :: t)) = Some s' -> out s' = None :: out s /\ live s' = live s) /\
  (forall n p t s', astep sz s (LCreate n false p (true :: false :: t)) = Some s' -> out s' = None :: out s /\ live s' = live s) /\
  (forall n sh e, In e (envs s) -> ephase (en s e) = POn ->
     exists c s', astep sz s (LCreate n sh (AtEnv e) []) = Some s' /\ out s' = Some c :: out s /\ In c (equeue (en s' e))).
Proof.
  intros sz ls s R. destruct (reach_ok _ _ _ R) as (L&G&_). split; [|split; [|split]].
  - intros l s' E O. destruct (step_ok _ _ _ _ _ G E) as [(G'&[O'|(c&O')])|(_&(X&G'&F&B)&(T1&T2&T3)&_)].
    + exfalso. rewrite O' in O. assert (H : length (out s) = length (None :: out s)) by congruence. cbn in H. lia.
    + congruence.
    + split; auto. split; auto. split; auto. exists X. split; auto. split.
      * intros r I J. apply (g_lt _ _ G) in J. specialize (F r I). lia.
      * intros r I. apply (Permutation_in r (g_pm _ _ G')) in I. apply in_app_iff in I as [I|I]; auto. apply in_app_iff in I as [I|I]; auto.
        right. right. now apply (good_in s L r G).
  - intros n sh p t s' E. cbn [astep] in E. destruct (match p with AtEnv e => _ | AtNew => _ end); [|discriminate]. rewrite first_fails in E. injection E as <-. auto.
  - intros n p t s' E. cbn [astep] in E. destruct (match p with AtEnv e => _ | AtNew => _ end); [|discriminate]. rewrite mmap_fails in E. injection E as <-. auto.
  - intros n sh e I P. destruct (create_succeeds sz n sh e s I P) as (c&s1&E). destruct (create_and_schedule_ok _ _ _ (AtEnv e) _ _ _ _ _ _ G I E) as (_&O&_&e'&J&K&Q). specialize (Q e eq_refl). subst e'.
    exists c, (note s1 (Some c)). split; [cbn [astep]; rewrite (in_mem _ _ I), E; reflexivity|]. split; [cbn; now rewrite O|]. exact K.
Qed.
Print Assumptions failed_creation_partial.
(** Two environments with coroutines, a creation that fails in a new environment with all that it had, and a later one that succeeds. *)
Example failed_creation_example : exists s, arun 4 ainit [LThread []; LSched 2; LCreate 8 false (AtEnv 2) []; LCreate 0 true (AtEnv 2) [];
  LCreate 8 false AtNew [true; true; true; true; true; true; true; true; true; false]; LCreate 8 false (AtEnv 2) []] = Some s /\
  out s = [Some 17; None; Some 6; Some 5; Some 2] /\ length (live s) - length (own s) = 6 /\ equeue (en s 2) = [5; 6; 17].
Proof. eexists. split; [vm_compute; reflexivity|]. split; [reflexivity|]. split; vm_compute; reflexivity. Qed.

(** ** C86: everything is given back, once *)
(** In all executions, whatever fails: nothing is ever given back that is not held, so nothing is given back twice; what the
    environments and their coroutines consist of is held; everything held has its owner, except at most six things for each
    creation that threw.  If none threw, exactly what has an owner is held; and nothing, when no environment is left. *)
Theorem given_back_once : forall sz ls s, arun sz ainit ls = Some s ->
  err s = false /\ NoDup (live s) /\ incl (own s) (live s) /\ length (live s) <= length (own s) + 6 * fails (out s) /\
  (Forall (fun o => o <> None) (out s) -> accounted _ (live s) (own s) /\ (envs s = [] -> live s = [])).
Proof.
  intros sz ls s R. destruct (reach_ok _ _ _ R) as (L&G&B). split; [apply (g_err _ _ G)|]. split; [apply (g_nd _ _ G)|]. split; [|split].
  - intros r I. eapply good_own; eauto.
  - rewrite (Permutation_length (g_pm _ _ G)), app_length. lia.
  - intros F. assert (L = []).
    { destruct L as [|x L]; auto. cbn in B. assert (H : fails (out s) = 0); [|lia]. clear -F. unfold fails. induction F as [|[c|] o N F IH]; cbn; auto. congruence. }
    subst L. pose proof (g_pm _ _ G) as P. rewrite app_nil_r in P. split.
    + split; [apply (g_nd _ _ G)|]. intros r. split; apply Permutation_in; [exact P|now symmetry].
    + intros E. unfold own in P. rewrite E in P. cbn in P. now apply Permutation_nil, Permutation_sym.
Qed.
Print Assumptions given_back_once.
(** That is what err says: giving back what is not held sets it. *)
Example given_back_err : forall s r, ~ In r (live s) -> err (free s r) = true.
Proof. intros s r N. unfold free. destruct (in_dec res_eq r (live s)); [contradiction|reflexivity]. Qed.
(** Environments and coroutines of all kinds created, used and destroyed; nothing is left. *)
Example given_back_example : exists s, arun 4 ainit [LThread []; LSched 2; LCreate 8 false (AtEnv 2) []; LCreate 0 true (AtEnv 2) []; LCreate 8 false AtNew [];
  LRemove 2 5; LStop 2; LEnd 2; LDestroy 2; LThread []; LRemove 14 11; LStop 14; LEnd 14; LDestroy 14; LDestroy 17] = Some s /\ live s = [] /\ nx s = 18 /\ length (out s) = 5
  /\ Forall (fun o => o <> None) (out s).
Proof. eexists. split; [vm_compute; reflexivity|]. repeat split. repeat constructor; discriminate. Qed.
