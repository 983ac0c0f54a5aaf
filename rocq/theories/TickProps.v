(** C119: the monitor interrupts only threads that one coroutine has held for a whole period.  Executions of the scheduling loop with the
    monitor (SwitchModel.v). *)
From Coq Require Import List Arith Bool Lia.
From Verif Require Import Base SwitchSpec SwitchModel.
Import ListNotations.

(** A step in which the thread decides what to run next, by itself or forced by the signal (prepare_to_switch, co_env.cpp 241-293); a
    pending switch of shared stacks (co_env.cpp 316-319) only finishes an earlier decision, and a signal does nothing while the lock is held. *)
Definition decides (s : wst) (l : wlab) : Prop := (exists n, l = LYield n /\ info s = None) \/ (exists n, l = LSignal n /\ cnt s = 0).
(** The monitor sends the signal at the end of the period [ls2], which began in [s2] at the tick before. *)
Definition interrupted (sh : nat -> bool) (s2 : wst) (ls2 : list wlab) : Prop :=
  (exists ls1 s1, run (wstep sh) winit ls1 = Some s1 /\ wstep sh s1 LTick = Some s2) /\ ~ In LTick ls2 /\
  exists s3 s4, run (wstep sh) s2 ls2 = Some s3 /\ pend s3 = false /\ wstep sh s3 LTick = Some s4 /\ pend s4 = true.
(** At all moments of the period [P] holds. *)
Definition throughout (sh : nat -> bool) (s2 : wst) (ls2 : list wlab) (P : wst -> Prop) : Prop :=
  forall a b s, ls2 = a ++ b -> run (wstep sh) s2 a = Some s -> P s.

(** The claim is false: the thread sleeps through the period because all its coroutines wait. *)
Definition asleep (s : wst) : Prop := (exists f, at_ (now s) = PSleep f) /\ forall c, In c (queue s) -> wt s c = true.
Definition t_ls1 : list wlab := [LCreate 1; LCreate 2; LYield 1; LGo; LWait; LYield 2; LGo; LWait; LYield 0].
Theorem tick_refuted : exists sh s2 ls2, interrupted sh s2 ls2 /\ throughout sh s2 ls2 asleep /\ queue s2 <> [].
Proof.
  exists (fun _ => false). destruct (run (wstep (fun _ => false)) winit t_ls1) as [s1|] eqn:E; [|vm_compute in E; discriminate E].
  vm_compute in E. injection E as <-.
  eexists. exists [LDetach 2]. split; [|split].
  - split; [exists t_ls1; eexists; split; vm_compute; reflexivity|]. split; [intros [X|[]]; discriminate X|]. eexists. eexists. repeat split.
  - intros a b s E R. destruct a as [|x a]; [|injection E as <- E; destruct a as [|y a]; [|discriminate E]]; vm_compute in R; injection R as <-; (split; [eexists; reflexivity|]);
      intros c [<-|[<-|[]]]; reflexivity.
  - discriminate.
Qed.
Print Assumptions tick_refuted.
(** Also a thread that was idle all the time and has got its coroutines just before the tick. *)
Theorem tick_new_refuted : exists sh s2 ls2 c d, interrupted sh s2 (ls2 ++ [LCreate c; LCreate d]) /\ throughout sh s2 ls2 (fun s => queue s = [] /\ at_ (now s) = PSleep 0).
Proof.
  exists (fun _ => false). destruct (run (wstep (fun _ => false)) winit [LYield 0]) as [s1|] eqn:E; [|vm_compute in E; discriminate E].
  vm_compute in E. injection E as <-. eexists. exists [LUnwait 7], 1, 2. split.
  - split; [exists [LYield 0]; eexists; split; vm_compute; reflexivity|]. split; [intros [X|[X|[X|[]]]]; discriminate X|]. eexists. eexists. repeat split.
  - intros a b s E R. destruct a as [|x a]; [|injection E as <- E; destruct a as [|y a]; [|discriminate E]]; vm_compute in R; injection R as <-; split; reflexivity.
Qed.
Print Assumptions tick_new_refuted.

(** What is left: a thread that decides during a period is not interrupted at its end. *)
Lemma tail_flag : forall s s', tail s = WOk s' -> sflag s' = sflag s.
Proof. intros s s' E. unfold tail in E. destruct (freed s (curr s)); [discriminate E|]. destruct (pre s (curr s)) as [p|]; [destruct (freed s p); [discriminate E|]|]; injection E as <-; reflexivity. Qed.
Lemma finish_flag : forall sh s cu n s', finish_prepare sh s cu n = WOk s' -> sflag s' = sflag s.
Proof.
  intros sh s cu n s' E. unfold finish_prepare, prepare in E. destruct (freed s cu); [discriminate E|].
  destruct (cu =? n); [now apply tail_flag|]. destruct (sh cu || sh n); [destruct (cu =? 0); [apply tail_flag in E; exact E|]|]; injection E as <-; reflexivity.
Qed.
Lemma yield_flag : forall sh s n s', yield sh s n = Some (WOk s') -> (sflag s = true \/ info s = None) -> sflag s' = true.
Proof.
  intros sh s n s' E F. unfold yield in E. set (u := match info s with None => if own (now s) =? 0 then set_busy false s else s | Some _ => s end) in E.
  assert (IU : info u = info s) by (unfold u; destruct (info s) eqn:I; auto; destruct (own (now s) =? 0); auto).
  assert (FU : sflag u = sflag s) by (unfold u; destruct (info s); auto; destruct (own (now s) =? 0); auto).
  change (info (reap u)) with (info u) in E. rewrite IU in E. destruct (info s) as [[f t]|].
  - destruct F as [F|F]; [|discriminate F]. destruct (negb (n =? 0)); [discriminate E|]. destruct (freed (reap u) f); [discriminate E|]. destruct (freed (reap u) t); [discriminate E|].
    injection E as <-. simpl. congruence.
  - destruct (negb (pick (reap u) n)); [discriminate E|]. injection E as E. destruct (n =? 0) eqn:N.
    + injection E as <-. reflexivity.
    + apply finish_flag in E. rewrite E. reflexivity.
Qed.
Lemma signal_flag : forall sh s n s', signal sh s n = Some (WOk s') -> (sflag s = true \/ cnt s = 0) -> sflag s' = true.
Proof.
  intros sh s n s' E F. unfold signal in E. destruct (negb (pend s)); [discriminate E|]. destruct (cnt s =? 0) eqn:C; cbn [negb] in E.
  - destruct (sigpoint (at_ (now s)) && pick s n); cbn [negb] in E; [|discriminate E]. destruct (freed s (curr s)); [discriminate E|]. unfold prepare in E.
    destruct (curr s =? n); [|destruct (sh (curr s) || sh n); [destruct (curr s =? 0)|]]; injection E as <-; reflexivity.
  - apply Nat.eqb_neq in C. destruct F as [F|F]; [|congruence]. destruct (n =? 0); [|discriminate E]. injection E as <-. exact F.
Qed.
Lemma flag_keep : forall sh s l s', wstep sh s l = Some s' -> l <> LTick -> sflag s = true -> sflag s' = true.
Proof.
  intros sh s l s' E N F. unfold wstep in E. destruct (wstep_res sh s l) as [[x|]|] eqn:R; [|discriminate E|discriminate E]. injection E as <-.
  destruct l; simpl in R; try congruence.
  - destruct ((c =? 0) || inq s c || freed s c); [discriminate R|]. now injection R as <-.
  - destruct (inq s c); [|discriminate R]. now injection R as <-.
  - destruct (inuser s); [|discriminate R]. now injection R as <-.
  - now injection R as <-.
  - destruct (inuser s); [|discriminate R]. now injection R as <-.
  - destruct (inuser s && _); [|discriminate R]. now injection R as <-.
  - destruct (inuser s); [|discriminate R]. now injection R as <-.
  - destruct (at_ (now s)); try discriminate R; eapply yield_flag; eauto.
  - destruct (at_ (now s)); try discriminate R. destruct (_ || _); [|discriminate R]. injection R as R. apply finish_flag in R. congruence.
  - destruct (at_ (now s)); try discriminate R; injection R as R; unfold switch in R;
      repeat match type of R with context[if freed ?x ?y then _ else _] => destruct (freed x y); [discriminate R|] end; injection R as <-; exact F.
  - destruct (at_ (now s)); try discriminate R; injection R as R; apply tail_flag in R; simpl in R; congruence.
  - eapply signal_flag; eauto.
Qed.
Lemma flag_set : forall sh s l s', wstep sh s l = Some s' -> decides s l -> sflag s' = true.
Proof.
  intros sh s l s' E D. unfold wstep in E. destruct (wstep_res sh s l) as [[x|]|] eqn:R; [|discriminate E|discriminate E]. injection E as <-.
  destruct D as [(n&->&I)|(n&->&C)]; simpl in R.
  - destruct (at_ (now s)); try discriminate R; eapply yield_flag; eauto.
  - eapply signal_flag; eauto.
Qed.
Theorem tick_partial : forall sh s2 ls2, interrupted sh s2 ls2 -> (forall a l b s, ls2 = a ++ l :: b -> run (wstep sh) s2 a = Some s -> ~ decides s l) /\
  forall s, run (wstep sh) s2 ls2 = Some s -> exists c d r, queue s = c :: d :: r.
Proof.
  intros sh s2 ls2 (_&NT&s3&s4&R&P3&E&P4). split.
  2:{ intros s R'. rewrite R' in R. injection R as ->. unfold wstep, wstep_res in E. injection E as <-. destruct (queue s3) as [|c [|d r]]; [| |eauto];
      simpl in P4; rewrite andb_false_r in P4; congruence. }
  intros a l b s -> Ra D.
  rewrite run_app, Ra in R. cbn [run] in R. destruct (wstep sh s l) as [s'|] eqn:El; [|discriminate R].
  assert (F : sflag s3 = true).
  { pose proof (flag_set _ _ _ _ El D) as F. assert (NB : ~ In LTick b) by (intros X; apply NT, in_or_app; right; now right).
    clear -R F NB. revert s' R F. induction b as [|x b IH]; intros s' R F; cbn [run] in R; [now injection R as <-|].
    destruct (wstep sh s' x) as [s1|] eqn:E; [|discriminate R]. apply (IH (fun X => NB (or_intror X)) s1 R). eapply flag_keep; eauto. intros ->. apply NB. now left. }
  unfold wstep, wstep_res in E. rewrite F in E. rewrite andb_false_r in E. injection E as <-. simpl in P4. congruence.
Qed.
Print Assumptions tick_partial.
(** Coroutine 1 runs through the period, with others waiting to run: the signal is sent.  If it yields, there is none. *)
Definition t_ls : list wlab := [LCreate 1; LCreate 2; LYield 1; LGo].
Example tick_example : exists s1 s2, run (wstep (fun _ => false)) winit t_ls = Some s1 /\ wstep (fun _ => false) s1 LTick = Some s2 /\
  interrupted (fun _ => false) s2 [LCreate 3; LUnwait 2] /\
  option_map pend (run (wstep (fun _ => false)) s2 [LCreate 3; LYield 2; LGo; LTick]) = Some false.
Proof.
  destruct (run (wstep (fun _ => false)) winit t_ls) as [s1|] eqn:E; [|vm_compute in E; discriminate E]. vm_compute in E. injection E as <-.
  eexists. eexists. split; [reflexivity|]. split; [vm_compute; reflexivity|]. split.
  - split; [exists t_ls; eexists; split; vm_compute; reflexivity|]. split; [intros [X|[X|[]]]; discriminate X|]. eexists. eexists. repeat split.
  - vm_compute. reflexivity.
Qed.
