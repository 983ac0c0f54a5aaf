(** C116: timers in fair executions. C117: calls of start and stop in fair executions. *)
From Coq Require Import List Arith Bool Lia.
From Verif Require Import Base FairSpec FairCycle TimerSpec TimerModel TimerProofs TimerProps TimerFair.
Import ListNotations.

(** Executions in which the timer thread is treated fairly, the mutex of a timer that the timer thread
    wants to lock becomes free (calls and callbacks end) and no timer is started for the very moment another one is pending for (that case is C48, timer_equal_refuted). *)
Definition fair_timers (k : nat -> tkind) (st : nat -> tst) (lb : nat -> option tlbl) : Prop :=
  execution _ _ (step_ok k) (tinit k) st lb /\ strongly_fair _ _ (step_ok k) twho st lb /\
  (forall n, distinct (th (st n))) /\ forall u n, needs (st n) u -> exists m, n <= m /\ mu (st m) u = None.

(** ** C116 *)
(** A started timer whose time comes is launched or stopped, whatever else is started, also for times that have passed. *)
Theorem timer_fair_launched : forall k st lb, fair_timers k st lb -> forall t e n c, pend t (th (st n)) = Some e -> e <= now (st c) ->
  exists m, n <= m /\ (th (st (S m)) = KFire t (now (st m)) :: th (st m) \/ th (st (S m)) = KStop t :: th (st m)).
Proof. intros k st lb (EX&SF&DT&MF) t e n c P C. exact (pending_ends k st lb EX SF DT MF t e n c P C). Qed.
Print Assumptions timer_fair_launched.

(** A periodic timer that has been launched is launched again, or stopped, if time goes on. *)
Theorem timer_fair_periodic : forall k st lb, fair_timers k st lb -> (forall e, exists c, e <= now (st c)) ->
  forall t i n x, k t = KLoop i -> th (st (S n)) = KFire t x :: th (st n) ->
  exists m, n < m /\ (th (st (S m)) = KFire t (now (st m)) :: th (st m) \/ th (st (S m)) = KStop t :: th (st m)).
Proof.
  intros k st lb (EX&SF&DT&MF) CL t i n x K F. destruct (again k st lb EX SF DT MF t i n x K F) as (m&L&H).
  destruct (CL (now (st m) + i)) as (c&C).
  destruct (pending_ends k st lb EX SF DT MF t (now (st m) + i) (S m) c) as (m'&L'&H'); auto.
  - rewrite H. simpl. now rewrite Nat.eqb_refl.
  - exists m'. split; [lia|exact H'].
Qed.
Print Assumptions timer_fair_periodic.

(** The hypotheses hold of this execution, which does not end: a timer of period 3 and one of 5, once. *)
Definition kP (t : nat) : tkind := match t with 0 => KLoop 3 | _ => KOnce 5 end.
Definition p_pre : list tlbl :=
  [LTimer; LStart 0 0; LGo 0; LStart 0 1; LGo 0; LTimer; LTimer; LTimer; LClock 3] ++ repeat LTimer 10 ++ [LRun 2 0; LRet 2; LClock 2] ++
  repeat LTimer 9 ++ [LRun 2 1; LRet 2].
Definition p_cyc : list tlbl := LClock 3 :: repeat LTimer 10 ++ [LRun 2 0; LRet 2].
Definition p_base (s : tst) : Prop :=
  rp s = RWaitU (exp s 0) /\ q s = [0] /\ st s 0 = true /\ exp s 0 <= now s + 3 /\ (forall u, mu s u = None) /\ (forall a, pc s a = AIdle) /\
  (forall a, incb s a = None) /\ cb s 0 = 0 /\ distinct (th s) /\ forall u, u <> 0 -> pend u (th s) = None.
Lemma distinct_more : forall x H, distinct H -> (forall t e, x = KStart t e -> forall u, u <> t -> pend u H <> Some e) -> distinct (x :: H).
Proof. intros x H D X [|y post] t e pre E; injection E as E1 E2; subst; [eapply X; eauto|eapply D; eauto]. Qed.
Lemma p_1 : exists s, run (step_ok kP) (tinit kP) p_pre = Some s /\ p_base s.
Proof.
  eexists. split; [vm_compute; reflexivity|]. unfold p_base. cbn [rp q st exp now mu pc incb cb th]. repeat split; try (vm_compute; reflexivity || (repeat constructor)).
  - intros u. vm_compute. destruct u as [|[|u]]; reflexivity.
  - intros a. vm_compute. destruct a as [|[|[|a]]]; reflexivity.
  - intros a. vm_compute. destruct a as [|[|[|a]]]; reflexivity.
  - repeat (apply distinct_more; [|intros t e E; try discriminate E; try (injection E as <- <-; intros u U; destruct u as [|[|u]]; vm_compute; congruence)]).
    intros post t e pre E. destruct post; discriminate E.
  - intros u U. destruct u as [|[|u]]; [congruence|vm_compute; reflexivity|vm_compute; reflexivity].
Qed.
Lemma run_cons : forall k s l ls s1 r, step_ok k s l = Some s1 -> run (step_ok k) s1 ls = r -> run (step_ok k) s (l :: ls) = r.
Proof. intros k s l ls s1 r E <-. simpl. now rewrite E. Qed.
Ltac one tac := eapply run_cons; [unfold step_ok, step, tstep, mine; cbn -[Nat.leb Nat.add]; unfold upd; cbn -[Nat.leb Nat.add]; tac; cbn -[Nat.leb Nat.add]; reflexivity|].
Lemma p_round : forall s, p_base s -> exists s', run (step_ok kP) s p_cyc = Some s' /\ p_base s' /\ now s' = now s + 3.
Proof.
  intros s (R&Q&S0&D&M&P&C&B&DI&PD). destruct s as [n ex sr m qq c p ic r nf h]. cbn [rp q st exp now mu pc incb cb th] in *. subst r qq.
  assert (L1 : (ex 0 <=? n + 3) = true) by (apply Nat.leb_le; exact D).
  assert (L2 : (n + 3 + 3 <=? n + 3) = false) by (apply Nat.leb_gt; lia).
  eexists. split.
  - unfold p_cyc. cbn [repeat app]. do 13 (one ltac:(rewrite ?L1, ?L2, ?S0, ?M, ?P, ?C, ?B, ?orb_true_r, ?Nat.eqb_refl)). reflexivity.
  - split; [|reflexivity]. unfold p_base. cbn -[Nat.leb Nat.add].
    split; [auto|]. split; [rewrite Nat.eqb_refl; reflexivity|]. split; [auto|]. split; [auto|]. split; [|split; [auto|split; [|split; [auto|split]]]].
    + intros u. unfold upd. destruct (u =? 0); auto.
    + intros a. unfold upd. destruct (a =? 2); auto.
    + repeat (apply distinct_more; [|intros t e E; try discriminate E]); auto.
      injection E as <- <-. intros u U. simpl. rewrite (proj2 (Nat.eqb_neq u 0) U), (PD u U). discriminate.
    + intros u U. apply Nat.eqb_neq in U as U'. rewrite U'. auto.
Qed.
Lemma p_2 : forall s, p_base s -> exists s', run (step_ok kP) s p_cyc = Some s' /\ p_base s'.
Proof. intros s B. destruct (p_round s B) as (s'&R&B'&_). eauto. Qed.
Definition p_st : nat -> tst := cst _ _ (step_ok kP) (tinit kP) p_pre p_cyc.
Definition p_lb : nat -> option tlbl := clb _ p_pre p_cyc.
Lemma p_ne : p_cyc <> []. Proof. discriminate. Qed.
(** The state at the beginning of a round. *)
Lemma p_often : forall n, exists m, n <= m /\ p_base (p_st m).
Proof. intros n. exists (length p_pre + length p_cyc * n). split; [simpl length; lia|]. exact (cyc_base _ _ _ _ _ _ p_base p_1 p_2 n). Qed.
Lemma distinct_back : forall k s l s', step_ok k s l = Some s' -> distinct (th s') -> distinct (th s).
Proof.
  intros k s l s' E D. destruct l; cases E; simpl in *; auto; try (unfold release in D; match type of D with context[if ?o then _ else _] => destruct o end; simpl in D);
    auto; try (now apply distinct_cons in D).
Qed.
Lemma distinct_before : forall k st lb, execution _ _ (step_ok k) (tinit k) st lb -> forall n m, n <= m -> distinct (th (st m)) -> distinct (th (st n)).
Proof.
  intros k st lb EX n m L. induction L as [|m L IH]; auto. intros D. apply IH. pose proof (proj2 EX m) as E. destruct (lb m); [eapply distinct_back; eauto|now rewrite <- E].
Qed.
Lemma p_fair : fair_timers kP p_st p_lb.
Proof.
  assert (EX : execution _ _ (step_ok kP) (tinit kP) p_st p_lb) by exact (cyc_exec _ _ _ _ _ _ p_base p_ne p_1 p_2).
  split; [exact EX|]. split; [|split].
  - intros t n. destruct t as [|t].
    + destruct (clb_often _ _ _ p_pre p_cyc p_base p_ne p_2 1 n) as (m&L&E&_); [simpl; lia|]. exists m. split; auto. left. exists LTimer. auto.
    + exists n. split; auto. right. intros j _ (l&s'&W&_). destruct l; discriminate W.
  - intros n. destruct (p_often n) as (m&L&B). apply (distinct_before _ _ _ EX n m L). apply B.
  - intros u n _. destruct (p_often n) as (m&L&B). exists m. split; auto. apply B.
Qed.
Lemma p_clock_gen : forall f : nat -> tst, (forall j, p_base (f j) /\ run (step_ok kP) (f j) p_cyc = Some (f (S j))) -> forall j, j <= now (f j).
Proof.
  intros f H. induction j as [|j IH]; [lia|]. destruct (H j) as [B R]. destruct (p_round _ B) as (s'&R'&_&N). rewrite R' in R. injection R as ->. lia.
Qed.
Lemma p_clock : forall j, j <= now (p_st (length p_pre + length p_cyc * j)).
Proof.
  exact (p_clock_gen (fun j => p_st (length p_pre + length p_cyc * j))
    (fun j => conj (cyc_base _ _ _ _ _ _ p_base p_1 p_2 j) (cyc_next _ _ _ _ _ _ p_base p_1 p_2 j))).
Qed.
(** At 5 both timers are pending; at 13 the periodic one is launched; at 25 the clock has reached 5. *)
Example timer_fair_example : fair_timers kP p_st p_lb /\ (forall e, exists c, e <= now (p_st c)) /\ kP 0 = KLoop 3 /\
  pend 1 (th (p_st 5)) = Some 5 /\ now (p_st 25) = 5 /\ th (p_st 14) = KFire 0 3 :: th (p_st 13).
Proof.
  split; [exact p_fair|]. split; [intros e; exists (length p_pre + length p_cyc * e); apply p_clock|]. split; [reflexivity|].
  split; [vm_compute; reflexivity|]. split; vm_compute; reflexivity.
Qed.

(** ** C117 *)
(** Now the threads in calls of start and stop are to be treated fairly as well; the callback and the client outside are free. *)
Definition cwho (l : tlbl) : option nat := match l with LTimer => Some 0 | LGo a => Some (S a) | _ => None end.
Definition in_call (s : tst) (a : nat) : Prop := pc s a <> AIdle.

(** If the timer thread sleeps again and again, every call of start and stop returns. *)
Theorem timer_calls_partial : forall k st lb, execution _ _ (step_ok k) (tinit k) st lb -> strongly_fair _ _ (step_ok k) cwho st lb ->
  (forall n, exists m, n <= m /\ (rp (st m) = RWaitE \/ exists e, rp (st m) = RWaitU e)) ->
  forall a n, in_call (st n) a -> exists m, n <= m /\ ~ in_call (st m) a.
Proof.
  intros k st lb EX SF SL a n C.
  assert (NE : forall s l s', step_ok k s l = Some s' -> l <> LGo a -> pc s a <> AIdle -> pc s' a = pc s a).
  { intros s l s' E N P. destruct l; cases E; simpl; auto; try (unfold release; match goal with |- context[if ?o then _ else _] => destruct o end; simpl); auto;
      unfold upd; try (destruct (Nat.eqb_spec a a0); [subst; congruence|reflexivity]). }
  assert (G : forall j, (exists m, n <= m /\ lb m = Some (LGo a)) \/ pc (st (n + j)) a = pc (st n) a).
  { induction j as [|j [IH|IH]]; auto; [right; now rewrite Nat.add_0_r|]. rewrite Nat.add_succ_r. set (m := n + j) in *. pose proof (proj2 EX m) as E.
    destruct (lb m) as [l|] eqn:El; [|right; now rewrite E].
    assert (T : l = LGo a \/ l <> LGo a) by (destruct l as [| | |b| | | |]; try (right; discriminate); destruct (Nat.eq_dec b a); [left; congruence|right; congruence]).
    destruct T as [->|T]; [left; exists m; split; auto; lia|]. right. rewrite (NE _ _ _ E T); auto. rewrite IH. exact C. }
  assert (W : exists m, n <= m /\ lb m = Some (LGo a)).
  { destruct (SF (S a) n) as (m&L&[(l&El&W)|M]).
    - exists m. split; auto. destruct l; try discriminate W. now injection W as ->.
    - destruct (SL m) as (h&Lh&R). destruct (G (h - n)) as [X|X]; auto. replace (n + (h - n)) with h in X by lia. exfalso. apply (M h Lh).
      unfold in_call in C. exists (LGo a). unfold step_ok, step, qfree. rewrite X. destruct (pc (st n) a); [congruence|..]; destruct R as [R|(e&R)]; rewrite R; eexists; split; reflexivity. }
  destruct W as (m&L&El). exists (S m). split; [lia|]. pose proof (proj2 EX m) as E. rewrite El in E. unfold in_call. intros X. apply X.
  cases E; unfold release; match goal with |- context[if ?o then _ else _] => destruct o end; simpl; unfold upd; now rewrite Nat.eqb_refl.
Qed.
Print Assumptions timer_calls_partial.
(** The execution above meets the hypotheses: at 2 and 4 a thread is in a call of start. *)
Lemma p_idle : forall n, length p_pre <= n -> forall a, pc (p_st n) a = AIdle.
Proof.
  intros n L. induction L as [|n L IH]; intros a.
  - pose proof (cyc_base _ _ _ _ _ _ p_base p_1 p_2 0) as B. rewrite Nat.mul_0_r, Nat.add_0_r in B. destruct B as (_&_&_&_&_&B&_). exact (B a).
  - pose proof (proj2 (proj1 p_fair) n) as E. destruct (p_lb n) as [l|] eqn:El; [|now rewrite E].
    assert (X : In l p_cyc).
    { unfold p_lb, clb in El. rewrite (proj2 (Nat.ltb_ge _ _) L) in El. now apply nth_error_In in El. }
    revert E. generalize (p_st (S n)). revert IH. generalize (p_st n). intros s IH s' E.
    assert (T : l = LTimer \/ (exists d, l = LClock d) \/ l = LRun 2 0 \/ l = LRet 2) by (unfold p_cyc in X; simpl in X; intuition (subst; eauto)).
    destruct T as [->|[(d&->)|[->| ->]]]; cases E; simpl; auto; try (unfold release; match goal with |- context[if ?o then _ else _] => destruct o end; simpl; auto).
Qed.
Example timer_calls_example : execution _ _ (step_ok kP) (tinit kP) p_st p_lb /\ strongly_fair _ _ (step_ok kP) cwho p_st p_lb /\
  (forall n, exists m, n <= m /\ (rp (p_st m) = RWaitE \/ exists e, rp (p_st m) = RWaitU e)) /\ in_call (p_st 2) 0 /\ in_call (p_st 4) 0.
Proof.
  split; [exact (proj1 p_fair)|]. split; [|split; [|split; vm_compute; discriminate]].
  - intros [|a] n.
    + destruct (clb_often _ _ _ p_pre p_cyc p_base p_ne p_2 1 n) as (m&L&E&_); [simpl; lia|]. exists m. split; auto. left. exists LTimer. auto.
    + exists (max n (length p_pre)). split; [lia|]. right. intros j Lj (l&s'&W&E). destruct l; try discriminate W. injection W as ->.
      unfold step_ok, step in E. rewrite p_idle in E by lia. discriminate E.
  - intros n. destruct (p_often n) as (m&L&B). exists m. split; auto. right. exists (exp (p_st m) 0). apply B.
Qed.

(** In general not: while some timer is always due the timer thread never gives up mu_timer_queue__ (co_manager.cpp 351).  A timer of period
    0 is launched for ever, its callback runs each time, the clock goes on; the thread that starts another timer never returns. *)
Definition kQ (t : nat) : tkind := match t with 0 => KLoop 0 | _ => KOnce 5 end.
Definition z_pre : list tlbl := [LTimer; LStart 0 0; LGo 0] ++ repeat LTimer 6 ++ [LRun 2 0; LRet 2; LStart 1 1].
Definition z_cyc : list tlbl := LClock 1 :: repeat LTimer 6 ++ [LRun 2 0; LRet 2].
Definition z_base (s : tst) : Prop :=
  rp s = RLoop /\ q s = [0] /\ st s 0 = true /\ exp s 0 <= now s /\ mu s 0 = None /\ pc s 1 = AIns 1 true /\ (forall a, a <> 1 -> pc s a = AIdle) /\
  incb s 2 = None /\ cb s 0 = 0.
Lemma z_1 : exists s, run (step_ok kQ) (tinit kQ) z_pre = Some s /\ z_base s.
Proof.
  eexists. split; [vm_compute; reflexivity|]. unfold z_base. cbn [rp q st exp now mu pc incb cb th]. repeat split; try (vm_compute; reflexivity || (repeat constructor)).
  intros a A. vm_compute. destruct a as [|[|[|a]]]; congruence.
Qed.
Lemma z_2 : forall s, z_base s -> exists s', run (step_ok kQ) s z_cyc = Some s' /\ z_base s'.
Proof.
  intros s (R&Q&S0&D&M&P&PO&C&B). destruct s as [n ex sr m qq c p ic r nf h]. cbn [rp q st exp now mu pc incb cb th] in *. subst r qq.
  assert (L1 : (ex 0 <=? n + 1) = true) by (apply Nat.leb_le; lia). assert (P2 : p 2 = AIdle) by (apply PO; discriminate).
  eexists. split.
  - unfold z_cyc. cbn [repeat app]. do 9 (one ltac:(rewrite ?L1, ?S0, ?M, ?P2, ?C, ?B, ?orb_true_r, ?Nat.eqb_refl)). reflexivity.
  - unfold z_base. cbn -[Nat.leb Nat.add]. rewrite Nat.eqb_refl. repeat split; auto. unfold upd. simpl. lia.
Qed.
Definition z_st : nat -> tst := cst _ _ (step_ok kQ) (tinit kQ) z_pre z_cyc.
Definition z_lb : nat -> option tlbl := clb _ z_pre z_cyc.
Lemma z_ne : z_cyc <> []. Proof. discriminate. Qed.
Lemma z_seg : forall s, z_base s -> forall i s1, i <= length z_cyc -> run (step_ok kQ) s (firstn i z_cyc) = Some s1 -> qfree s1 = false /\ pc s1 = pc s.
Proof.
  intros s (R&Q&S0&D&M&P&PO&C&B). destruct s as [n ex sr m qq c p ic r nf h]. cbn [rp q st exp now mu pc incb cb th] in *. subst r qq.
  assert (L1 : (ex 0 <=? n + 1) = true) by (apply Nat.leb_le; lia). assert (P2 : p 2 = AIdle) by (apply PO; discriminate).
  intros i s1 Li H. unfold z_cyc in *. cbn [repeat app length] in *.
  do 10 (destruct i as [|i]; [cbn [firstn] in H;
    match type of H with run _ ?s0 ?ls = _ => let X := fresh in
      eassert (X : run (step_ok kQ) s0 ls = Some _) by (repeat (one ltac:(rewrite ?L1, ?S0, ?M, ?P2, ?C, ?B, ?orb_true_r, ?Nat.eqb_refl)); reflexivity); rewrite X in H end;
    injection H as <-; split; reflexivity|]). lia.
Qed.
Lemma z_now : forall s s', run (step_ok kQ) s z_cyc = Some s' -> now s + 1 <= now s'.
Proof.
  assert (G : forall ls s s', run (step_ok kQ) s ls = Some s' -> now s <= now s').
  { induction ls as [|l ls IH]; intros s s' H; simpl in H; [now injection H as ->|]. destruct (step_ok kQ s l) as [s1|] eqn:E; [|discriminate H].
    apply now_step in E. apply IH in H. lia. }
  intros s s' H. exact (G (repeat LTimer 6 ++ [LRun 2 0; LRet 2]) (setnow s (now s + 1)) s' H).
Qed.
(** At every moment after the beginning. *)
Lemma z_all : forall n, length z_pre <= n -> qfree (z_st n) = false /\ pc (z_st n) 1 = AIns 1 true /\ forall a, a <> 1 -> pc (z_st n) a = AIdle.
Proof.
  intros n L. set (j := (n - length z_pre) / length z_cyc). set (i := (n - length z_pre) mod length z_cyc).
  assert (Li : i < length z_cyc) by (apply Nat.mod_upper_bound; simpl; lia).
  assert (E : n = length z_pre + length z_cyc * j + i) by (pose proof (Nat.div_mod_eq (n - length z_pre) (length z_cyc)); unfold i, j; lia).
  pose proof (cyc_base _ _ _ _ _ _ z_base z_1 z_2 j) as B. pose proof (proj1 (cyc_seg _ _ _ _ _ _ z_base z_1 z_2 j i (Nat.lt_le_incl _ _ Li))) as S.
  rewrite <- E in S. pose proof (z_seg _ B i _ (Nat.lt_le_incl _ _ Li) S) as [F P]. destruct B as (_&_&_&_&_&B1&B2&_).
  split; [exact F|]. unfold z_st. split; [etransitivity; [exact (f_equal (fun f => f 1) P)|exact B1]|].
  intros a A. etransitivity; [exact (f_equal (fun f => f a) P)|exact (B2 a A)].
Qed.
Theorem timer_calls_refuted : exists k st lb a, execution _ _ (step_ok k) (tinit k) st lb /\ strongly_fair _ _ (step_ok k) cwho st lb /\
  (forall e, exists n, e <= now (st n)) /\ exists n, forall m, n <= m -> in_call (st m) a.
Proof.
  exists kQ, z_st, z_lb, 1. split; [exact (cyc_exec _ _ _ _ _ _ z_base z_ne z_1 z_2)|]. split; [|split].
  - intros [|a] n.
    + destruct (clb_often _ _ _ z_pre z_cyc z_base z_ne z_2 1 n) as (m&L&E&_); [simpl; lia|]. exists m. split; auto. left. exists LTimer. auto.
    + exists (max n (length z_pre)). split; [lia|]. right. intros j Lj (l&s'&W&E). destruct (z_all j ltac:(lia)) as (F&P1&P2).
      revert F P1 P2 E. generalize (z_st j). intros s F P1 P2 E. destruct l; try discriminate W. injection W as ->.
      unfold step_ok, step in E. destruct (Nat.eq_dec a 1) as [->|N]; [rewrite P1, F in E|rewrite (P2 a N) in E]; discriminate E.
  - intros e. exists (length z_pre + length z_cyc * e).
    assert (G : forall f : nat -> tst, (forall j, z_base (f j) /\ run (step_ok kQ) (f j) z_cyc = Some (f (S j))) -> forall j, j <= now (f j)).
    { intros f H. induction j as [|j IH]; [lia|]. destruct (H j) as [B R]. apply z_now in R. lia. }
    exact (G (fun j => z_st (length z_pre + length z_cyc * j)) (fun j => conj (cyc_base _ _ _ _ _ _ z_base z_1 z_2 j) (cyc_next _ _ _ _ _ _ z_base z_1 z_2 j)) e).
  - exists (length z_pre). intros m L. unfold in_call. destruct (z_all m L) as (_&P&_). intros X. rewrite P in X. discriminate X.
Qed.
Print Assumptions timer_calls_refuted.
