(** C47, sleeps. *)
From Coq Require Import List Arith Bool Lia.
From Verif Require Import Base TimerSpec TimerModel TimerProofs TimerProps SleepModel.
Import ListNotations.

Lemma abs_step : forall k s l s', step_ok k s l = Some s' ->
  (forall t e, k t = KAbs e -> exp s t = e) -> (forall t e, k t = KAbs e -> exp s' t = e).
Proof.
  intros k s l s' E A t e K. destruct l; cases E; simpl; auto; try (unfold release; destruct own; simpl; auto); try (unfold release; destruct b; simpl; auto);
    unfold upd, due; match goal with |- context[t =? ?x] => nq t x; rewrite ?K; auto end.
Qed.
Lemma starts_step : forall k s l s', step_ok k s l = Some s' -> (forall t e, k t = KAbs e -> exp s t = e) ->
  (forall t e e', k t = KAbs e -> In (KStart t e') (th s) -> e' = e) -> (forall t e e', k t = KAbs e -> In (KStart t e') (th s') -> e' = e).
Proof.
  intros k s l s' E A B t e e' K H. destruct l; cases E; simpl in H; eauto;
    try (destruct own; simpl in H); try (destruct b; simpl in H); eauto;
    destruct H as [H|H]; eauto; try discriminate H; injection H as <- <-; auto; unfold due; rewrite K; auto.
Qed.
Lemma runs_step : forall k s l s', step_ok k s l = Some s' -> (forall a t o, incb s a = Some (t, o) -> exists n, In (KRun t n) (th s)) ->
  (forall t n, In (KRun t n) (th s) -> In (KRun t n) (th s')) /\ (forall a t o, incb s' a = Some (t, o) -> exists n, In (KRun t n) (th s')).
Proof.
  intros k s l s' E B. destruct l; cases E; simpl in *; auto;
    try (destruct own; simpl); try (destruct b; simpl); (split; [solve [auto]|]); intros z u o H.
  all: try (unfold upd in H; nq z a; [try discriminate|]).
  all: try (injection H as <- <-); try solve [eauto]; try solve [destruct (B _ _ _ H); eauto].
Qed.
Lemma pend_in : forall t H e, pend t H = Some e -> In (KStart t e) H.
Proof.
  induction H as [|x H IH]; simpl; intros e E; [discriminate|]. destruct x; auto; destruct (Nat.eqb_spec t t0); subst; try discriminate; auto.
  injection E as <-. auto.
Qed.
Lemma launched_in : forall t H, launched t H > 0 -> exists m, In (KFire t m) H.
Proof.
  induction H as [|x H IH]; simpl; intros E; [lia|]. destruct x; try (destruct (IH E); eauto; fail); destruct (Nat.eqb_spec t t0); subst; eauto.
  - destruct (IH E); eauto.
  - destruct IH; [lia|eauto].
  - destruct (IH E); eauto.
Qed.

Record SLI (k : nat -> tkind) (s : sst) : Prop := {
  l_inv : INV (tm s);
  l_abs : forall t e, k t = KAbs e -> exp (tm s) t = e;
  l_st : forall t e e', k t = KAbs e -> In (KStart t e') (th (tm s)) -> e' = e;
  l_run : forall a t o, incb (tm s) a = Some (t, o) -> exists n, In (KRun t n) (th (tm s));
  l_wb : forall t, wb s t = false -> sp s t <> SNone -> exists n, In (KRun t n) (th (tm s));
  l_back : forall t e n, k t = KAbs e -> back s t = Some n -> e <= n }.
Lemma run_due : forall k s t n e, SLI k s -> k t = KAbs e -> In (KRun t n) (th (tm s)) -> e <= now (tm s).
Proof.
  intros k s t n e I K H. pose proof (l_inv _ _ I) as (T&_). destruct (i_early _ T) as [A B]. apply in_split in H as (post&pre&E).
  destruct (B _ _ _ _ E) as [L _]. apply launched_in in L as (m&F). pose proof F as F0. apply in_split in F as (p2&pre2&E2).
  rewrite E2 in E. destruct (A (post ++ KRun t n :: p2) t m pre2) as (e'&P&Q). { rewrite E, <- app_assoc. reflexivity. }
  apply pend_in in P. assert (e' = e). { eapply (l_st _ _ I); eauto. rewrite E. apply in_or_app. right. right. apply in_or_app. right. now right. }
  assert (m <= now (tm s)). { eapply (i_fire _ T t). rewrite E. apply in_or_app. right. right. apply in_or_app. right. now left. } lia.
Qed.
Lemma tm_step : forall k s l x, SLI k s -> step_ok k (tm s) l = Some x ->
  INV x /\ (forall t e, k t = KAbs e -> exp x t = e) /\ (forall t e e', k t = KAbs e -> In (KStart t e') (th x) -> e' = e) /\
  (forall t n, In (KRun t n) (th (tm s)) -> In (KRun t n) (th x)) /\ (forall a t o, incb x a = Some (t, o) -> exists n, In (KRun t n) (th x)).
Proof.
  intros k s l x [] E. destruct (runs_step _ _ _ _ E l_run0). split; [eapply inv_step; eauto|]. split; [eapply abs_step; eauto|]. split; [eapply starts_step; eauto|]. auto.
Qed.
Lemma sli_step : forall k sl s l s', SLI k s -> slstep k sl s l = Some s' -> SLI k s'.
Proof.
  intros k sl s l s' I E. destruct l; simpl in E.
  - destruct (foreign sl l && body_ok sl s l); [|discriminate]. destruct (step_ok k (tm s) l) as [x|] eqn:S; [|discriminate]. injection E as <-.
    destruct (tm_step _ _ _ _ I S) as (A&B&C&D&F). destruct I. constructor; simpl; auto. intros t H1 H2. destruct (l_wb0 t H1 H2). eauto.
  - destruct (sp s t) eqn:P; try discriminate. destruct (sl t); [|discriminate]. injection E as <-. destruct I. constructor; simpl; auto.
    intros u H1 H2. unfold upd in *. nq u t; [discriminate|]. auto.
  - destruct (sp s t) eqn:P; try discriminate. destruct (in_wake sl s a); [discriminate|]. destruct (step_ok k (tm s) (LStart a t)) as [x|] eqn:S; [|discriminate]. injection E as <-.
    destruct (tm_step _ _ _ _ I S) as (A&B&C&D&F). destruct I. constructor; simpl; auto. intros u H1 H2.
    destruct (l_wb0 u H1); eauto. unfold upd in H2. nq u t; congruence.
  - destruct (sp s t) eqn:P; try discriminate. destruct (pc (tm s) a); try discriminate. injection E as <-.
    destruct I. constructor; simpl; auto. intros u H1 H2. apply l_wb0; auto. unfold upd in H2. nq u t; congruence.
  - destruct (incb (tm s) a) as [[u o]|] eqn:C; [|discriminate]. destruct (Nat.eqb_spec t u); simpl in E; [|discriminate]. subst u. destruct (sl t); [|discriminate]. injection E as <-.
    destruct I. constructor; simpl; auto. intros u H1 H2. unfold upd in H1. nq u t; [|auto]. eauto.
  - destruct (sp s t) eqn:P; try discriminate. destruct (wb s t) eqn:W; [discriminate|]. injection E as <-.
    destruct (l_wb _ _ I t W) as [n R]; [congruence|]. pose proof (run_due k s t n) as RD. destruct I as [? ? ? ? ? LB] eqn:Q. constructor; simpl; auto.
    + intros u H1 H2. apply l_wb0; auto. unfold upd in H2. nq u t; congruence.
    + intros u e m K H. unfold upd in H. nq u t; [|eauto]. injection H as <-. eapply RD; eauto.
Qed.
(** A call of sleep_until(e), whose timer has the time point e, does not return before e: for all calls and timers, all
    interleavings, all clocks. *)
Theorem sleep_never_early : forall k sl ls s, run (slstep k sl) (slinit k) ls = Some s ->
  forall t e n, k t = KAbs e -> back s t = Some n -> e <= n.
Proof.
  intros k sl ls s R. refine (l_back k s _). refine (run_inv (slstep k sl) (SLI k) (slinit k) _ _ ls R).
  - constructor; simpl; try discriminate; try tauto; [apply inv_init|]. intros t e K. now rewrite K.
  - intros. eapply sli_step; eauto.
Qed.
(** Timer 1 belongs to a call of sleep_until(3) made at time 0; its callback runs at 4; the call returns at 6. *)
Example sleep_example : option_map (fun s => (back s 1, th (tm s))) (run (slstep kX (fun t => t =? 1)) (slinit kX)
   [SL LTimer; SBegin 1; SStart 0 1; SL (LGo 0); SGo 1; SL LTimer; SL LTimer; SL LTimer; SL (LClock 3); SL LTimer; SL LTimer; SL LTimer; SL LTimer; SL LTimer;
    SL (LClock 1); SL (LRun 2 1); SLeave 2 1; SL (LClock 2); SBack 1]) =
  Some (Some 6, [KRun 1 4; KFire 1 3; KSleep 0; KStart 1 3; KSleep 0]).
Proof. vm_compute. reflexivity. Qed.
Print Assumptions sleep_never_early.
