(** C87: timers when the creation of a coroutine fails. *)
From Coq Require Import List Arith Bool Lia.
From Verif Require Import Base TimerSpec TimerModel TimerProofs TimerProps TimerFailModel.
Import ListNotations.

(** Nothing is launched in this part of a history, and nothing of a timer without launched callback begins. *)
Definition no_launch (H : thist) : Prop := forall t n, ~ In (KFire t n) H.
Definition no_begin (t : nat) (H : thist) : Prop := forall n, ~ In (KRun t n) H.

(** Steps of others write no launch. *)
Lemma others : forall k s l s', step_ok k s l = Some s' -> by_thread l = false -> exists p, th s' = p ++ th s /\ no_launch p /\
  rp s' = rp s /\ (forall t, cb s t = 0 -> cb s' t = 0 /\ no_begin t p).
Proof.
  intros k s l s' E B. destruct l; try discriminate; cases E.
  all: try (exists []; split; [reflexivity|]; split; [intros ? ? []|]; split; [reflexivity|intros ? H; split; [exact H|intros ? []]]; fail).
  all: try (match goal with |- exists p, _ = p ++ _ /\ _ => idtac end; eexists [_]; split; [unfold release; try match goal with |- context [if ?o then _ else _] => destruct o end; reflexivity|];
    split; [intros ? ? [H|[]]; discriminate H|]; split; [unfold release; try match goal with |- context [if ?o then _ else _] => destruct o end; reflexivity|];
    intros ? H; split; [unfold release; try match goal with |- context [if ?o then _ else _] => destruct o end; exact H|intros ? [H'|[]]; discriminate H']; fail).
  - exists [KRun t (now s)]. split; [reflexivity|]. split; [intros ? ? [H|[]]; discriminate H|]. split; [reflexivity|]. intros u H. simpl. unfold upd.
    destruct (Nat.eqb_spec u t) as [->|N]; [congruence|]. split; auto. intros n' [H'|[]]. congruence.
  - exists []. unfold release. destruct b; (split; [reflexivity|]; split; [intros ? ? []|]; split; [reflexivity|intros ? H; split; [exact H|intros ? []]]).
Qed.
(** Once the thread is gone. *)
Lemma after_death : forall k ls s s', dead s = true -> run (fstep k) s ls = Some s' -> dead s' = true /\ exists p, th (tm s') = p ++ th (tm s) /\ no_launch p /\
  qfree (tm s') = qfree (tm s) /\ (forall t, cb (tm s) t = 0 -> cb (tm s') t = 0 /\ no_begin t p).
Proof.
  intros k ls. induction ls as [|l ls IH]; intros s s' D R; cbn in R.
  - injection R as <-. split; auto. exists []. split; auto. split; [intros ? ? []|]. split; auto. intros t H. split; auto. intros ? [].
  - destruct (fstep k s l) as [s1|] eqn:E; [|discriminate]. destruct l as [l|]; cbn in E; rewrite D in E; [|discriminate]. cbn in E.
    destruct (by_thread l) eqn:B; [discriminate|]. destruct (step_ok k (tm s) l) as [x|] eqn:S; [|discriminate]. injection E as <-.
    destruct (others _ _ _ _ S B) as (p1&P1&P2&P3&P4). destruct (IH (mkF x true) s' eq_refl R) as (D'&p2&Q1&Q2&Q3&Q4). cbn [tm] in *. split; auto.
    exists (p2 ++ p1). split; [now rewrite Q1, P1, app_assoc|]. split; [intros t n I; apply in_app_iff in I as [I|I]; [eapply Q2|eapply P2]; eauto|].
    split; [rewrite Q3; unfold qfree; now rewrite P3|]. intros t H. destruct (P4 t H) as (H1&H2). destruct (Q4 t H1) as (H3&H4). split; auto.
    intros n I. apply in_app_iff in I as [I|I]; [eapply H4|eapply H2]; eauto.
Qed.
Lemma fti_run : forall k ls s, run (fstep k) (finit k) ls = Some s -> TI (tm s) /\ MI (tm s).
Proof.
  intros k ls s R. revert R. apply run_inv with (I := fun s => TI (tm s) /\ MI (tm s)); [split; [apply ti_init|apply mi_init]|].
  intros x l y (A&B) E. destruct l as [l|]; cbn in E.
  - destruct (dead x && by_thread l); [discriminate|]. destruct (step_ok k (tm x) l) as [z|] eqn:S; [|discriminate]. injection E as <-. cbn.
    split; [eapply ti_step; eauto|eapply mi_step; eauto].
  - destruct (dead x); [discriminate|]. destruct (rp (tm x)) eqn:P; try discriminate. injection E as <-. cbn. split.
    + apply (ti_rp (tm x) RWaitE (ntf (tm x))); auto; try congruence. unfold first; simpl; auto.
    + eapply mi_same; eauto.
Qed.

(** ** C87 *)
(** Refuted: one creation throws when timer 0 is due; then nothing is ever launched again, whatever happens: not timer 0, not
    timer 1, started before, and not timer 3, which can still be started and is due at once. *)
Theorem timer_dies_refuted : exists k ls s s1, run (fstep k) (finit k) ls = Some s /\ pend 0 (th (tm s)) = Some 5 /\ pend 1 (th (tm s)) = Some 8 /\ now (tm s) = 6 /\
  run (fstep k) s [FL (LStart 0 3); FL (LGo 0)] = Some s1 /\ pend 3 (th (tm s1)) = Some 6 /\
  (forall ls' s', run (fstep k) s ls' = Some s' -> exists p, th (tm s') = p ++ th (tm s) /\ no_launch p /\ forall t, no_begin t p) /\
  (forall n, exists s', run (fstep k) s [FL (LClock n)] = Some s' /\ now (tm s') = 6 + n).
Proof.
  exists (fun t => match t with 0 => KOnce 5 | 1 => KAbs 8 | _ => KOnce 0 end),
    (map FL [LTimer; LStart 0 0; LGo 0; LStart 0 1; LGo 0; LClock 6; LTimer; LTimer; LTimer] ++ [FThrow]). do 2 eexists.
  split; [vm_compute; reflexivity|]. split; [reflexivity|]. split; [reflexivity|]. split; [reflexivity|]. split; [vm_compute; reflexivity|]. split; [reflexivity|]. split.
  - intros ls' s' R. destruct (after_death _ _ _ _ (eq_refl : dead (mkF _ true) = true) R) as (_&p&A&B&_&C). exists p. split; auto. split; auto. intros t. apply (C t).
    destruct t as [|[|[|t]]]; reflexivity.
  - intros n. eexists. split; reflexivity.
Qed.
Print Assumptions timer_dies_refuted.
(** In all executions, with any failure: what is said of launched callbacks (C47: never early, C49: not after stop) holds; start
    and stop are not blocked by the failure; and as long as no creation throws the timers do exactly what TimerModel does.
    What is missing is what is false: that timers go on after a failure. *)
Theorem timer_dies_partial : forall k ls s, run (fstep k) (finit k) ls = Some s ->
  never_early (th (tm s)) /\ stop_final_launch (th (tm s)) /\ (dead s = true <-> In FThrow ls) /\
  (dead s = true -> qfree (tm s) = true) /\
  (~ In FThrow ls -> exists ls0, ls = map FL ls0 /\ run (step_ok k) (tinit k) ls0 = Some (tm s)).
Proof.
  intros k ls s R. destruct (fti_run _ _ _ R) as (T&_). pose proof (i_early _ T) as NE. split; auto. split.
  { intros post t n pre E. destruct NE as [A _]. destruct (A _ _ _ _ E) as (e&P&_). eapply pend_stopped; eauto. }
  assert (G : forall ls x y, run (fstep k) x ls = Some y -> (dead y = true <-> dead x = true \/ In FThrow ls) /\
    ((dead x = true -> qfree (tm x) = true) -> dead y = true -> qfree (tm y) = true)).
  { clear. induction ls as [|l ls IH]; intros x y R; cbn in R.
    - injection R as <-. split; [cbn; tauto|auto].
    - destruct (fstep k x l) as [z|] eqn:E; [|discriminate]. destruct (IH _ _ R) as (I1&I2). destruct l as [l|]; cbn in E.
      + destruct (dead x && by_thread l) eqn:B; [discriminate|]. destruct (step_ok k (tm x) l) as [w|] eqn:S; [|discriminate]. injection E as <-. cbn [dead tm] in *.
        split; [rewrite I1; cbn; split; [tauto|intros [H|[H|H]]; [auto|discriminate|auto]]|]. intros H D. apply I2; auto. intros Dx. rewrite Dx in B. cbn in B.
        destruct (others _ _ _ _ S B) as (_&_&_&Q&_). unfold qfree. rewrite Q. now apply H.
      + destruct (dead x) eqn:Dx; [discriminate|]. destruct (rp (tm x)) eqn:P; try discriminate. injection E as <-. cbn [dead tm] in *.
        split; [rewrite I1; cbn; tauto|]. intros _ D. apply I2; auto. }
  destruct (G _ _ _ R) as (G1&G2). cbn in G1. split; [rewrite G1; split; [intros [H|H]; [discriminate|auto]|auto]|]. split; [apply G2; discriminate|].
  intros N. clear -R N. assert (H : forall ls x y, run (fstep k) x ls = Some y -> ~ In FThrow ls -> exists ls0, ls = map FL ls0 /\ run (step_ok k) (tm x) ls0 = Some (tm y)).
  { clear. induction ls as [|l ls IH]; intros x y R N; cbn in R.
    - injection R as <-. exists []. split; reflexivity.
    - destruct (fstep k x l) as [z|] eqn:E; [|discriminate]. destruct l as [l|]; [|exfalso; apply N; now left]. cbn in E.
      destruct (dead x && by_thread l); [discriminate|]. destruct (step_ok k (tm x) l) as [w|] eqn:S; [|discriminate]. injection E as <-.
      destruct (IH _ _ R) as (l0&A&B); [intros I; apply N; now right|]. exists (l :: l0). split; [cbn; now rewrite A|]. cbn. now rewrite S. }
  apply (H _ _ _ R N).
Qed.
Print Assumptions timer_dies_partial.
(** A callback is launched, then the next creation throws; the launched callback still begins. *)
Example timer_dies_example : option_map (fun s => (th (tm s), dead s, q (tm s))) (run (fstep kX) (finit kX)
  (map FL [LTimer; LStart 0 1; LGo 0; LStart 0 0; LGo 0; LClock 6; LTimer; LTimer; LTimer; LTimer; LTimer; LTimer; LTimer; LTimer] ++ [FThrow; FL (LRun 1 1); FL (LRet 1); FL (LStop 0 0); FL (LGo 0)]))
  = Some ([KStop 0; KRun 1 6; KFire 1 6; KStart 0 5; KStart 1 3; KSleep 0], true, []).
Proof. vm_compute. reflexivity. Qed.
