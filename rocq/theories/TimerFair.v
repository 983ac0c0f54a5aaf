(** Timers in fair executions: what one step does to a pending timer, and the measure of TimerProps along an execution. *)
From Coq Require Import List Arith Bool Lia.
From Verif Require Import Base FairSpec TimerSpec TimerModel TimerProofs TimerProps.
Import ListNotations.

(** The timer thread is the actor that must be treated fairly (timer_routine__, co_manager.cpp 349-385); spurious wake-ups, the clock
    and the callers of start and stop need not be. *)
Definition twho (l : tlbl) : option nat := match l with LTimer => Some 0 | _ => None end.

Ltac rel := try (unfold release; match goal with |- context[if ?o then _ else _] => destruct o end; simpl).
Lemma now_step : forall k s l s', step_ok k s l = Some s' -> now s <= now s'.
Proof. intros k s l s' E. destruct l; cases E; simpl; try lia; rel; lia. Qed.

(** A pending timer stays so until it is launched or stopped. *)
Lemma pend_step : forall k s l s' t e, TI s -> DI s -> step_ok k s l = Some s' -> pend t (th s) = Some e ->
  pend t (th s') = Some e \/ th s' = KFire t (now s) :: th s \/ th s' = KStop t :: th s.
Proof.
  intros k s l s' t e I D E P. destruct (d_pend _ D _ _ P) as [Q _].
  destruct l; cases E; simpl; auto; try (unfold release; destruct own; simpl); auto;
    try match goal with |- context[t =? ?u] => nq t u end; auto.
  - destruct (i_ins _ I _ _ _ M) as (_&X&_). contradiction.
  - destruct (i_ins _ I _ _ _ M) as (_&X&_). contradiction.
  - destruct b; auto.
  - pose proof (i_rp _ I) as F. unfold first in F. rewrite M in F. contradiction.
Qed.

(** Only the timer thread, and a spurious wake-up of it, move it. *)
Lemma rp_step : forall k s l s', step_ok k s l = Some s' -> l <> LTimer -> l <> LSpur -> rp s' = rp s.
Proof. intros k s l s' E N N'. destruct l; cases E; simpl; auto; rel; auto; congruence. Qed.

(** While the timer thread is not in one of its waits nobody else changes the queue, so nobody gets before t. *)
Lemma cnt_step : forall k s l s' t, TI s -> step_ok k s l = Some s' -> l <> LTimer -> qfree s = false -> In t (q s) -> cnt s' t = cnt s t.
Proof.
  intros k s l s' t I E N F Q. destruct l; try congruence; cases E; try congruence; try (rewrite (cnt_same s) by (simpl; auto); lia).
  - destruct (mine_out _ _ _ _ I M M0) as [NI NE].
    assert (NQ : ~ In t0 (q s)) by (intros X; destruct (i_q _ I _ X) as [Y|(z&o&Y)]; [congruence|eapply NE; eauto]).
    unfold cnt. simpl. rewrite (filter_ext_in _ (fun u => exp s u <? exp s t)); auto.
    intros u U. unfold upd. nq u t0; [contradiction|]. nq t t0; [contradiction|auto].
  - unfold release. destruct b; rewrite (cnt_same s) by (simpl; auto); lia.
Qed.
Lemma spur_wait : forall k s s', step_ok k s LSpur = Some s' -> qfree s = true /\ qfree s' = false.
Proof. intros k s s' E. unfold qfree. cases E; auto. Qed.
Lemma other_step : forall k s l s' t, TI s -> step_ok k s l = Some s' -> l <> LTimer -> qfree s = false -> In t (q s) ->
  rp s' = rp s /\ ms s' t = ms s t.
Proof.
  intros k s l s' t I E N F Q. assert (S : l <> LSpur) by (intros ->; apply spur_wait in E; intuition congruence).
  pose proof (rp_step _ _ _ _ E N S) as R. split; auto. unfold ms. now rewrite R, (cnt_step _ _ _ _ _ I E N F Q).
Qed.
(** The timer thread does not begin a wait while a timer is due, and leaves a wait when it makes a step. *)
Lemma awake_step : forall k s s' t, TI s -> step_ok k s LTimer = Some s' -> In t (q s) -> exp s t <= now s -> qfree s' = false.
Proof.
  intros k s s' t I E Q D. pose proof (i_rp _ I) as F. pose proof (i_ss _ I) as SS. unfold first in F. cases E; auto.
  - destruct Q.
  - exfalso. destruct F as [r QQ]. apply Nat.leb_gt in M1. rewrite QQ in *. destruct Q as [->|Q]; [lia|]. inversion SS as [|? ? _ FA]; subst.
    rewrite Forall_forall in FA. apply FA in Q. unfold ltx in Q. lia.
Qed.
(** The timer thread is about to lock the mutex of u. *)
Definition needs (s : tst) (u : nat) : Prop := rp s = RChk u \/ rp s = RPost u \/ rp s = RAgain u.
(** A step of the timer thread finds the mutex it needs free. *)
Lemma timer_free : forall k s s' u, step_ok k s LTimer = Some s' -> needs s u -> mu s u = None.
Proof. intros k s s' u E P. unfold needs in P. unfold step_ok, step, tstep in E. destruct P as [P|[P|P]]; rewrite P in E; destruct (mu s u); auto; discriminate. Qed.

Section TimerFair.
  Variables (k : nat -> tkind) (st : nat -> tst) (lb : nat -> option tlbl).
  Hypothesis EX : execution _ _ (step_ok k) (tinit k) st lb.
  Hypothesis SF : strongly_fair _ _ (step_ok k) twho st lb.
  Hypothesis DT : forall n, distinct (th (st n)).
  (** The mutex the timer thread is waiting for becomes free. *)
  Hypothesis MF : forall u n, needs (st n) u -> exists m, n <= m /\ mu (st m) u = None.

  Lemma ex_inv : forall n, INV (st n) /\ loops k (st n).
  Proof.
    destruct EX as [E0 E]. induction n as [|n [IH IL]].
    - rewrite E0. split; [apply inv_init|]. intros x X. discriminate X.
    - specialize (E n). destruct (lb n) as [l|]; [|now rewrite E]. split; [eapply inv_step; eauto|eapply loops_step; eauto].
  Qed.
  Lemma ex_di : forall n, DI (st n).
  Proof. intros n. destruct (ex_inv n) as [(_&_&_&D) _]. apply D, DT. Qed.
  Lemma ex_now : forall n m, n <= m -> now (st n) <= now (st m).
  Proof.
    destruct EX as [_ E]. intros n m L. induction L as [|m L IH]; auto. specialize (E m). destruct (lb m) as [l|]; [|now rewrite E].
    apply now_step in E. lia.
  Qed.

  Variables (t e : nat).
  (** The end of the wait. *)
  Definition ended (m : nat) : Prop := th (st (S m)) = KFire t (now (st m)) :: th (st m) \/ th (st (S m)) = KStop t :: th (st m).
  Lemma pend_ex : forall n j, pend t (th (st n)) = Some e -> (exists m, n <= m /\ ended m) \/ pend t (th (st (n + j))) = Some e.
  Proof.
    intros n j P. induction j as [|j [IH|IH]]; [right; now rewrite Nat.add_0_r|now left|]. rewrite Nat.add_succ_r. pose proof (proj2 EX (n + j)) as E.
    destruct (lb (n + j)) as [l|]; [|right; now rewrite E]. destruct (ex_inv (n + j)) as [(I&_) _].
    destruct (pend_step _ _ _ _ _ _ I (ex_di _) E IH) as [X|X]; auto. left. exists (n + j). split; [lia|exact X].
  Qed.

  Variable n0 : nat.
  Hypothesis CL : e <= now (st n0).
  Notation done := (exists m, n0 <= m /\ ended m).
  Lemma due_now : forall n, n0 <= n -> pend t (th (st n)) = Some e -> In t (q (st n)) /\ exp (st n) t <= now (st n) /\ rp (st n) <> RPost t.
  Proof.
    intros n L P. destruct (d_pend _ (ex_di n) _ _ P) as [Q X]. pose proof (ex_now n0 n L). repeat split; auto; [lia|].
    intros R. rewrite (d_post _ (ex_di n) _ R) in P. discriminate P.
  Qed.

  (** The timer thread makes a step, unless the timer is launched or stopped before, or it is woken up for nothing. *)
  Lemma goes : forall n, n0 <= n -> pend t (th (st n)) = Some e ->
    done \/ exists m l, n <= m /\ pend t (th (st m)) = Some e /\ lb m = Some l /\ (l = LTimer \/ l = LSpur) /\
      rp (st m) = rp (st n) /\ (qfree (st n) = false -> ms (st m) t = ms (st n) t).
  Proof.
    intros n L P.
    assert (G : forall j, done \/ (exists m l, n <= m /\ pend t (th (st m)) = Some e /\ lb m = Some l /\ (l = LTimer \/ l = LSpur) /\
      rp (st m) = rp (st n) /\ (qfree (st n) = false -> ms (st m) t = ms (st n) t)) \/
      pend t (th (st (n + j))) = Some e /\ (forall i, n <= i < n + j -> ~ moves _ twho lb 0 i) /\ rp (st (n + j)) = rp (st n) /\
        (qfree (st n) = false -> ms (st (n + j)) t = ms (st n) t)).
    { induction j as [|j [IH|[IH|(A&B&C&D)]]]; auto; [right; right; rewrite Nat.add_0_r; split; auto; split; [intros; lia|auto]|].
      rewrite Nat.add_succ_r. set (m := n + j) in *. pose proof (proj2 EX m) as E. destruct (ex_inv m) as [(I&_) _].
      destruct (due_now m ltac:(lia) A) as (Q&_). destruct (lb m) as [l|] eqn:El.
      - assert (T : (l = LTimer \/ l = LSpur) \/ l <> LTimer /\ l <> LSpur) by (destruct l; auto; right; split; discriminate).
        destruct T as [T|[T T']]; [right; left; exists m, l; repeat split; auto; lia|].
        destruct (pend_step _ _ _ _ _ _ I (ex_di m) E A) as [A'|A']; [|left; exists m; split; [lia|exact A']].
        right. right. split; auto. split; [|split].
        + intros i Li. destruct (Nat.eq_dec i m) as [->|]; [|apply B; lia]. intros (l'&X&Y). rewrite El in X. injection X as <-. destruct l; try discriminate Y. congruence.
        + rewrite (rp_step _ _ _ _ E T T'). auto.
        + intros F. rewrite <- (D F). apply (other_step _ _ _ _ _ I E T); auto. unfold qfree in *. now rewrite C.
      - right. right. rewrite E. split; auto. split; auto. intros i Li. destruct (Nat.eq_dec i m) as [->|]; [|apply B; lia].
        intros (l'&X&_). rewrite El in X. discriminate X. }
    destruct (SF 0 n) as (m&Lm&[M|M]).
    - destruct (G (S m - n)) as [X|[X|(_&X&_)]]; auto. exfalso. apply (X m); auto. lia.
    - destruct (G (m - n)) as [X|[X|(X0&_&R0&_)]]; auto. replace (n + (m - n)) with m in * by lia.
      assert (FR : exists h, m <= h /\ forall u, needs (st m) u -> mu (st h) u = None).
      { assert (ND : (exists u, needs (st m) u) \/ forall u, ~ needs (st m) u).
        { unfold needs. destruct (rp (st m)); try (right; intros u [H|[H|H]]; discriminate H); left; eauto. }
        destruct ND as [(u&U)|N]; [|exists m; split; auto; intros u U; exfalso; eapply N; eauto].
        destruct (MF u m U) as (h&Lh&F). exists h. split; auto. intros v V. replace v with u; auto. unfold needs in U, V. destruct U as [U|[U|U]], V as [V|[V|V]]; congruence. }
      destruct FR as (h&Lh&F).
      destruct (G (h - n)) as [X|[X|(X&_&R&_)]]; auto. replace (n + (h - n)) with h in * by lia.
      exfalso. apply (M h Lh). destruct (ex_inv h) as [(I&MM&W&_) LO]. destruct (due_now h ltac:(lia) X) as (Q&DU&NP).
      destruct (progress1 k (st h) t I W LO) as (s1&E1&_); auto.
      + intros v V. apply F. unfold needs. now rewrite R0, <- R.
      + exists LTimer, s1. auto.
  Qed.
  (** Out of its waits it works through what is due before t, and nothing is added. *)
  Lemma fires : forall z n, ms (st n) t < z -> n0 <= n -> pend t (th (st n)) = Some e -> qfree (st n) = false -> done.
  Proof.
    induction z as [|z IH]; intros n LT L P F; [lia|]. destruct (goes n L P) as [X|(m&l&Lm&Pm&El&T&R&MS)]; auto. specialize (MS F).
    assert (Fm : qfree (st m) = false) by (unfold qfree in *; now rewrite R).
    pose proof (proj2 EX m) as E. rewrite El in E. destruct T as [-> | ->]; [|apply spur_wait in E; destruct E; congruence].
    destruct (ex_inv m) as [(I&MM&W&_) LO]. destruct (due_now m ltac:(lia) Pm) as (Q&DU&NP).
    destruct (pend_step _ _ _ _ _ _ I (ex_di m) E Pm) as [P'|P']; [|exists m; split; [lia|exact P']].
    destruct (progress1 k (st m) t I W LO) as (s1&E1&_&_&[G|G]); auto.
    - intros u U. eapply timer_free; eauto.
    - rewrite E in E1. injection E1 as <-. destruct G as [G _]. rewrite G in P'. simpl in P'. rewrite Nat.eqb_refl in P'. discriminate P'.
    - rewrite E in E1. injection E1 as <-. apply (IH (S m)); auto; [lia|lia|]. eapply awake_step; eauto.
  Qed.
  Lemma fires_at : forall n, n0 <= n -> pend t (th (st n)) = Some e -> done.
  Proof.
    intros n L P. destruct (qfree (st n)) eqn:F; [|exact (fires (S (ms (st n) t)) n (Nat.lt_succ_diag_r _) L P F)].
    destruct (goes n L P) as [X|(m&l&Lm&Pm&El&T&R&_)]; auto. pose proof (proj2 EX m) as E. rewrite El in E.
    destruct (ex_inv m) as [(I&_) _]. destruct (due_now m ltac:(lia) Pm) as (Q&DU&NP).
    destruct (pend_step _ _ _ _ _ _ I (ex_di m) E Pm) as [P'|P']; [|exists m; split; [lia|exact P']].
    apply (fires (S (ms (st (S m)) t)) (S m)); auto; [lia|].
    destruct T as [-> | ->]; [eapply awake_step; eauto|]. apply spur_wait in E. apply E.
  Qed.
End TimerFair.

(** A pending timer whose time comes is launched or stopped. *)
Lemma pending_ends : forall k st lb, execution _ _ (step_ok k) (tinit k) st lb -> strongly_fair _ _ (step_ok k) twho st lb ->
  (forall n, distinct (th (st n))) -> (forall u n, needs (st n) u -> exists m, n <= m /\ mu (st m) u = None) ->
  forall t e n c, pend t (th (st n)) = Some e -> e <= now (st c) -> exists m, n <= m /\ ended st t m.
Proof.
  intros k st lb EX SF DT MF t e n c P CL. destruct (pend_ex k st lb EX DT t e n (max n c - n) P) as [X|X]; auto.
  replace (n + (max n c - n)) with (max n c) in X by lia.
  destruct (fires_at k st lb EX SF DT MF t e (max n c)) with (n := max n c) as (m&Lm&M); auto.
  - pose proof (ex_now k st lb EX c (max n c)). lia.
  - exists m. split; auto. lia.
Qed.

(** After a launch of a periodic timer the timer thread starts it again. *)
Lemma at_mutex : forall k st lb, execution _ _ (step_ok k) (tinit k) st lb -> strongly_fair _ _ (step_ok k) twho st lb ->
  (forall u n, needs (st n) u -> exists m, n <= m /\ mu (st m) u = None) -> forall t n p, p = RPost t \/ p = RAgain t -> rp (st n) = p ->
  exists m, n <= m /\ lb m = Some LTimer /\ rp (st m) = p.
Proof.
  intros k st lb EX SF MF t n p PP R.
  assert (G : forall j, (exists m, n <= m /\ lb m = Some LTimer /\ rp (st m) = p) \/ rp (st (n + j)) = p).
  { induction j as [|j [IH|IH]]; auto; [right; now rewrite Nat.add_0_r|]. rewrite Nat.add_succ_r. set (m := n + j) in *. pose proof (proj2 EX m) as E.
    destruct (lb m) as [l|] eqn:El; [|right; now rewrite E].
    assert (T : l = LTimer \/ l <> LTimer) by (destruct l; auto; right; discriminate). destruct T as [->|T]; [left; exists m; repeat split; auto; lia|].
    assert (S : l <> LSpur) by (intros ->; apply spur_wait in E; unfold qfree in E; rewrite IH in E; destruct PP as [-> | ->]; destruct E; discriminate).
    right. now rewrite (rp_step _ _ _ _ E T S). }
  destruct (SF 0 n) as (m&Lm&[(l&El&W)|M]).
  - destruct (G (m - n)) as [X|X]; auto. replace (n + (m - n)) with m in X by lia. exists m. repeat split; auto. destruct l; try discriminate W. auto.
  - destruct (G (m - n)) as [X0|X0]; auto. replace (n + (m - n)) with m in X0 by lia.
    destruct (MF t m) as (h&Lh&F); [unfold needs; rewrite X0; destruct PP as [-> | ->]; auto|].
    destruct (G (h - n)) as [X|X]; auto. replace (n + (h - n)) with h in X by lia. exfalso. apply (M h Lh).
    destruct PP as [-> | ->]; unfold able; exists LTimer; unfold step_ok, step, tstep; rewrite X, F; destruct (TimerModel.st (st h) t); eexists; split; reflexivity.
Qed.
Lemma again : forall k st lb, execution _ _ (step_ok k) (tinit k) st lb -> strongly_fair _ _ (step_ok k) twho st lb ->
  (forall n, distinct (th (st n))) -> (forall u n, needs (st n) u -> exists m, n <= m /\ mu (st m) u = None) ->
  forall t i n c, k t = KLoop i -> th (st (S n)) = KFire t c :: th (st n) ->
  exists m, n < m /\ th (st (S m)) = KStart t (now (st m) + i) :: th (st m).
Proof.
  intros k st lb EX SF DT MF t i n c K H.
  assert (R : rp (st (S n)) = RPost t).
  { assert (X : forall r : thist, r <> KFire t c :: r) by (induction r as [|x r IH]; [discriminate|intros Q; injection Q as Q0 Q; rewrite Q0 in Q; auto]).
    pose proof (proj2 EX n) as E. destruct (lb n) as [l|]; [|exfalso; rewrite E in H; eapply X; exact H].
    revert H. generalize (st (S n)) E. intros s' E' H. destruct l; cases E'; simpl in *; try discriminate H; try (exfalso; eapply X; exact H); auto;
      try (unfold release in H; match type of H with context[if ?o then _ else _] => destruct o end; simpl in H; try discriminate H; exfalso; eapply X; exact H).
    injection H as -> _. reflexivity. }
  destruct (at_mutex k st lb EX SF MF t (S n) _ (or_introl eq_refl) R) as (m1&L1&E1&R1).
  assert (R2 : rp (st (S m1)) = RAgain t).
  { pose proof (proj2 EX m1) as E. rewrite E1 in E. unfold step_ok, step, tstep in E. rewrite R1, K in E. destruct (mu (st m1) t); [discriminate E|].
    destruct (TimerModel.st (st m1) t); injection E as <-; reflexivity. }
  destruct (at_mutex k st lb EX SF MF t (S m1) _ (or_intror eq_refl) R2) as (m2&L2&E2&R3).
  exists m2. split; [lia|]. pose proof (proj2 EX m2) as E. rewrite E2 in E. unfold step_ok, step, tstep in E. rewrite R3 in E. destruct (mu (st m2) t) eqn:MU; [discriminate E|].
  destruct (ex_inv k st lb EX m2) as [(I&_) _]. pose proof (ex_di k st lb EX DT m2) as D. pose proof (i_rp _ I) as F. unfold first in F. rewrite R3 in F.
  destruct (TimerModel.st (st m2) t) eqn:S.
  - exfalso. destruct (d_st _ D _ S) as [(a&o&X)|X]; [|contradiction]. apply (i_ins _ I) in X as (_&_&X). congruence.
  - injection E as <-. simpl. unfold due. rewrite K. reflexivity.
Qed.
