(** C47, C48, C49, C51 and the timer part of C50. *)
From Coq Require Import List Arith Bool Lia Sorting.Sorted.
From Verif Require Import Base TimerSpec TimerModel TimerProofs.
Import ListNotations.

(** ** C47 *)
(** For all kinds of timers, all interleavings of calls, callbacks, the timer thread and the clock. *)
Theorem timer_never_early : forall k ls s, run (step_ok k) (tinit k) ls = Some s -> never_early (th s).
Proof. intros k ls s R. apply (inv_run _ _ _ R). Qed.
(** A timer of 5 started at time 2 is launched at 7, its callback begins at 9; an absolute one for 3 is launched first. *)
Definition kX (t : nat) : tkind := match t with 0 => KOnce 5 | 1 => KAbs 3 | 2 => KLoop 4 | _ => KOnce 0 end.
Definition earlyW : list tlbl :=
  [LTimer; LClock 2; LStart 0 0; LGo 0; LStart 0 1; LGo 0; LTimer; LTimer; LTimer; LClock 5; LTimer; LTimer; LTimer; LTimer; LTimer; LTimer; LTimer; LTimer;
   LTimer; LTimer; LTimer; LTimer; LClock 2; LRun 1 1; LRet 1; LRun 1 0].
Example timer_early_example : option_map th (run (step_ok kX) (tinit kX) earlyW) =
  Some [KRun 0 9; KRun 1 9; KSleep 7; KFire 0 7; KFire 1 7; KSleep 2; KStart 1 3; KStart 0 7; KSleep 0].
Proof. vm_compute. reflexivity. Qed.

(** ** C48 *)
(** Two timers due at the same time: the second one is not put into the set. *)
Definition equalW : list tlbl :=
  [LTimer; LStart 0 3; LGo 0; LStart 0 4; LGo 0; LTimer] ++ repeat LTimer 5.
Theorem timer_equal_refuted : exists k ls s, run (step_ok k) (tinit k) ls = Some s /\ ~ all_pending_fired (th s).
Proof.
  exists kX, equalW. eexists. split; [vm_compute; reflexivity|]. intros A. pose proof (A [] 0 _ eq_refl 4 0 eq_refl). lia.
Qed.
(** A call of start between the launch and the stop of the timer thread, for instance by the callback itself, is lost. *)
Definition lostW : list tlbl := [LTimer; LStart 0 3; LGo 0; LTimer; LTimer; LTimer; LTimer; LRun 1 3; LStart 1 3; LRet 1; LTimer; LTimer].
Theorem timer_restart_refuted : exists k ls s, run (step_ok k) (tinit k) ls = Some s /\ distinct (th s) /\ ~ all_fired (th s).
Proof.
  exists kX, lostW. eexists. split; [vm_compute; reflexivity|]. split.
  - intros post t e pre E. repeat (destruct post as [|? post]; [injection E as; subst; simpl; intros; try discriminate; congruence|injection E as _ E]). destruct post; discriminate.
  - intros A. pose proof (A [] 0 _ eq_refl 3 0 eq_refl). lia.
Qed.

Lemma apf_step : forall k s l s', INV s -> (distinct (th s) -> all_pending_fired (th s)) -> step_ok k s l = Some s' -> distinct (th s') -> all_pending_fired (th s').
Proof.
  intros k s l s' (I&MM&W&D) A E DT.
  assert (C : forall e, distinct (e :: th s) -> (forall n t d, e = KSleep n -> pend t (th s) = Some d -> n < d) -> all_pending_fired (e :: th s)).
  { intros e X Y post n pre Z t d P. apply distinct_cons in X as [X _]. destruct (tsplit _ _ _ _ _ Z) as [(_&-> & <-)|(p&_&Q)]; eauto. eapply A; eauto. }
  destruct l; cases E; simpl in *; auto; try (unfold release in *; match goal with |- context[if ?o then _ else _] => destruct o end; simpl in *; auto);
    try (apply C; auto; intros; discriminate).
  - apply C; auto. intros n t d X P. apply distinct_cons in DT as [DT _]. destruct (d_pend _ (D DT) _ _ P) as [Z _]. rewrite M0 in Z. destruct Z.
  - apply C; auto. intros n u d X P. injection X as <-. apply distinct_cons in DT as [DT _]. destruct (d_pend _ (D DT) _ _ P) as [Z <-].
    pose proof (i_rp _ I) as F. unfold first in F. rewrite M in F. destruct F as [r Q]. apply Nat.leb_gt in M1. pose proof (i_ss _ I) as SS. rewrite Q in *.
    destruct Z as [->|Z]; auto. inversion SS as [|? ? _ F]; subst. rewrite Forall_forall in F. apply F in Z. unfold ltx in Z. lia.
Qed.
(** If no two pending timers are due at the same time: whenever the timer thread goes to sleep, every pending timer that is due has
    been launched. *)
Theorem timer_all_fired_partial : forall k ls s, run (step_ok k) (tinit k) ls = Some s -> distinct (th s) -> all_pending_fired (th s).
Proof.
  intros k ls s R. assert (X : INV s /\ (distinct (th s) -> all_pending_fired (th s))).
  { eapply run_inv with (I := fun s => INV s /\ (distinct (th s) -> all_pending_fired (th s))); [|..|exact R].
    - split; [apply inv_init|]. intros _ post n pre E. destruct post; discriminate.
    - intros s0 l s1 [A B] E. split; [eapply inv_step; eauto|]. intros; eapply apf_step; eauto. }
  apply X.
Qed.

(** Progress of the timer thread. *)
Definition cnt (s : tst) (t : nat) : nat := length (filter (fun u => exp s u <? exp s t) (q s)).
Definition rank (p : rpc) : nat := match p with RPost _ => 0 | RFire _ => 1 | RChk _ => 2 | RFront => 3 | RLoop | RWaitE => 4 | _ => 5 end.
Definition ms (s : tst) (t : nat) : nat := 8 * cnt s t + rank (rp s).
Definition loops (k : nat -> tkind) (s : tst) : Prop := forall x, rp s = RAgain x -> exists i, k x = KLoop i.
Lemma loops_step : forall k s l s', loops k s -> step_ok k s l = Some s' -> loops k s'.
Proof.
  intros k s l s' I E x. destruct l; cases E; simpl; auto; try discriminate;
    try (unfold release; match goal with |- context[if ?o then _ else _] => destruct o end; simpl; auto); intros X; try discriminate X; try (injection X as <-; eauto).
Qed.
Lemma cnt_same : forall s s' t, q s' = q s -> exp s' = exp s -> cnt s' t = cnt s t.
Proof. intros s s' t A B. unfold cnt. now rewrite A, B. Qed.
Lemma insert_cnt : forall ex t x l, ex t <= ex x -> length (filter (fun u => ex u <? ex t) (insert ex x l)) = length (filter (fun u => ex u <? ex t) l).
Proof.
  intros ex t x l L. assert (X : (ex x <? ex t) = false) by (apply Nat.ltb_ge; lia). induction l as [|y r IH]; simpl.
  - now rewrite X.
  - destruct (ex x <? ex y); simpl; [now rewrite X|]. destruct (ex y <? ex x); simpl; auto. destruct (ex y <? ex t); simpl; auto.
Qed.
Lemma progress1 : forall k s t, TI s -> WI s -> loops k s ->
  (forall u, rp s = RChk u \/ rp s = RPost u \/ rp s = RAgain u -> mu s u = None) -> In t (q s) -> exp s t <= now s -> rp s <> RPost t ->
  exists s', step_ok k s LTimer = Some s' /\ mu s' = mu s /\ now s' = now s /\
    (th s' = KFire t (now s) :: th s /\ 0 < cb s' t \/ In t (q s') /\ exp s' t = exp s t /\ rp s' <> RPost t /\ ms s' t < ms s t).
Proof.
  intros k s t I W L M Q D R. unfold step_ok, step, tstep, WI, loops in *. destruct (rp s) as [| |e| |x|x|x|x] eqn:P.
  - destruct (q s) as [|y r] eqn:QQ; [destruct Q|]. eexists. split; [reflexivity|]. simpl. rewrite QQ. repeat split; auto. right. repeat split; auto; try discriminate.
    unfold ms. rewrite P. simpl. rewrite (cnt_same s) by auto. lia.
  - destruct W as [W|W]; [|rewrite W in Q; destruct Q]. rewrite W. eexists. split; [reflexivity|]. simpl. repeat split; auto. right. repeat split; auto; try discriminate.
    unfold ms. rewrite P. simpl. rewrite (cnt_same s) by auto. lia.
  - assert (X : ntf s || (e <=? now s) = true).
    { destruct W as [W|W]; [now rewrite W|]. apply orb_true_iff. right. apply Nat.leb_le. apply W in Q. lia. }
    rewrite X. eexists. split; [reflexivity|]. simpl. repeat split; auto. right. repeat split; auto; try discriminate.
    unfold ms. rewrite P. simpl. rewrite (cnt_same s) by auto. lia.
  - destruct (q s) as [|y r] eqn:QQ; [destruct Q|]. eexists. split; [reflexivity|]. simpl. rewrite QQ. repeat split; auto. right. repeat split; auto; try discriminate.
    unfold ms. rewrite P. simpl. rewrite (cnt_same s) by auto. lia.
  - rewrite (M x) by auto. pose proof (i_rp _ I) as F. unfold first in F. rewrite P in F. destruct F as [r QQ].
    assert (X : exp s x <=? now s = true).
    { apply Nat.leb_le. pose proof (i_ss _ I) as SS. rewrite QQ in *. destruct Q as [->|Q]; auto. inversion SS as [|? ? _ F]; subst.
      rewrite Forall_forall in F. apply F in Q. unfold ltx in Q. lia. }
    rewrite X. eexists. split; [reflexivity|]. simpl. repeat split; auto. right. repeat split; auto; try discriminate.
    unfold ms. rewrite P. simpl. rewrite (cnt_same s) by auto. lia.
  - eexists. split; [reflexivity|]. simpl. repeat split; auto. destruct (Nat.eq_dec x t) as [->|N]; [left; unfold upd; rewrite Nat.eqb_refl; split; [auto|lia]|]. right. repeat split; auto; try congruence.
    unfold ms. rewrite P. simpl. rewrite (cnt_same s) by auto. lia.
  - assert (MX : mu s x = None) by auto. rewrite MX. rewrite (rp_first _ _ I P MX). pose proof (i_rp _ I) as F. unfold first in F. rewrite P in F. destruct F as [[r QQ] _].
    pose proof (i_ss _ I) as SS. rewrite QQ in SS.
    assert (N : x <> t) by congruence. assert (Q' : In t r) by (rewrite QQ in Q; destruct Q; congruence).
    assert (LT : exp s x < exp s t) by (inversion SS as [|? ? _ F]; subst; rewrite Forall_forall in F; apply F in Q'; exact Q').
    eexists. split; [reflexivity|]. simpl. rewrite QQ. rewrite erase_head by auto. repeat split; auto. right. repeat split; auto.
    + destruct (k x); discriminate.
    + unfold ms, cnt. rewrite P. simpl. rewrite QQ, erase_head by auto. simpl. apply Nat.ltb_lt in LT. rewrite LT. simpl. destruct (k x); simpl; lia.
  - rewrite (M x) by auto. destruct (st s x).
    + eexists. split; [reflexivity|]. simpl. repeat split; auto. right. repeat split; auto; try discriminate.
      unfold ms. rewrite P. simpl. rewrite (cnt_same s) by auto. lia.
    + pose proof (i_rp _ I) as F. unfold first in F. rewrite P in F. assert (N : t <> x) by congruence. destruct (L x eq_refl) as [i K].
      unfold due. rewrite K. eexists. split; [reflexivity|]. simpl. repeat split; auto. right. repeat split; try discriminate.
      * now apply insert_keeps.
      * unfold upd. now rewrite (proj2 (Nat.eqb_neq _ _) N).
      * unfold ms, cnt. rewrite P. simpl. rewrite insert_cnt.
        -- assert (X : forall u, In u (q s) -> upd (exp s) x (now s + i) u = exp s u) by (intros u H; unfold upd; nq u x; [contradiction|auto]).
           rewrite (X t Q). rewrite (filter_ext_in (fun u => upd (exp s) x (now s + i) u <? exp s t) (fun u => exp s u <? exp s t)); [lia|].
           intros u H. now rewrite X.
        -- unfold upd. rewrite (proj2 (Nat.eqb_neq _ _) N), Nat.eqb_refl. lia.
Qed.
Lemma progress : forall k n s t, ms s t < n -> TI s -> MI s -> WI s -> loops k s -> (forall u, mu s u = None) -> In t (q s) -> exp s t <= now s -> rp s <> RPost t ->
  exists j s', run (step_ok k) s (repeat LTimer j) = Some s' /\ In (KFire t (now s)) (th s').
Proof.
  induction n as [|n IH]; intros s t LT I MM W L M Q D R; [lia|].
  destruct (progress1 k s t I W L (fun u _ => M u) Q D R) as (s1&E&M1&N1&[[X _]|(Q1&E1&R1&MS)]).
  - exists 1, s1. simpl. rewrite E. split; [auto|rewrite X; now left].
  - destruct (IH s1 t) as (j&s'&X&Y); auto; try lia; try (now rewrite M1).
    + eapply ti_step; eauto.
    + eapply mi_step; eauto.
    + eapply wi_step; eauto.
    + eapply loops_step; eauto.
    + exists (S j), s'. simpl. rewrite E. split; auto. congruence.
Qed.
(** And it does not sleep too long: when a pending timer is due and nobody is in a call or a callback, steps of the timer thread
    alone launch it, with the clock as it is now. *)
Theorem timer_fires_partial : forall k ls s t e, run (step_ok k) (tinit k) ls = Some s -> distinct (th s) ->
  (forall u, mu s u = None) -> pend t (th s) = Some e -> e <= now s ->
  exists j s', run (step_ok k) s (repeat LTimer j) = Some s' /\ In (KFire t (now s)) (th s').
Proof.
  intros k ls s t e R DT M P LE. destruct (inv_run _ _ _ R) as (I&MM&W&D). specialize (D DT). destruct (d_pend _ D _ _ P) as [Q X].
  apply (progress k (S (ms s t))); auto; try lia.
  - eapply run_inv with (I := loops k); [|intros; eapply loops_step; eauto|exact R]. intros x X'. discriminate.
  - intros X'. rewrite (d_post _ D _ X') in P. discriminate.
Qed.
(** Three timers of different kinds, all due at 9: all are launched, the periodic one is started again. *)
Definition threeW : list tlbl := [LTimer; LStart 0 0; LGo 0; LStart 0 1; LGo 0; LStart 1 2; LGo 1; LClock 9].
Example timer_fires_example : exists s, run (step_ok kX) (tinit kX) threeW = Some s /\ distinct (th s) /\ (forall u, mu s u = None) /\
  pend 0 (th s) = Some 5 /\ now s = 9 /\
  option_map th (run (step_ok kX) s (repeat LTimer 19)) = Some ([KSleep 9; KFire 0 9; KStart 2 13; KFire 2 9; KFire 1 9] ++ th s).
Proof.
  eexists. split; [vm_compute; reflexivity|]. split; [|split; [|split; [|split]]]; [| |vm_compute; reflexivity|reflexivity|vm_compute; reflexivity].
  - simpl. intros post t e pre E. repeat (destruct post as [|? post]; [injection E as; subst; simpl; intros u N; repeat (destruct (u =? _)); congruence|injection E as _ E]). destruct post; discriminate.
  - intros [|[|[|[|u]]]]; reflexivity.
Qed.

(** ** Periodic and relative timers *)
Record PI (k : nat -> tkind) (s : tst) : Prop := {
  p_uns : forall t i, k t = KLoop i -> unserved t (th s) = true -> rp s = RPost t \/ rp s = RAgain t;
  p_ag : forall t, rp s = RAgain t -> st s t = true -> exists a o, pc s a = AIns t o;
  p_last : forall t m, lastfire t (th s) = Some m -> In (KFire t m) (th s);
  p_exp : forall t i m, k t = KLoop i -> lastfire t (th s) = Some m -> rp s = RPost t \/ rp s = RAgain t \/ m + i <= exp s t;
  p_per : forall t i, k t = KLoop i -> periodic t i (th s) }.
Lemma per_cons : forall e H t i, periodic t i H -> (forall n, e = KSleep n -> unserved t H = false) ->
  (forall n m, e = KFire t n -> lastfire t H = Some m -> m + i <= n) -> periodic t i (e :: H).
Proof.
  intros e H t i [A B] C D. split.
  - intros post n pre E. destruct (tsplit _ _ _ _ _ E) as [(_&-> & <-)|(p&_&->)]; eauto.
  - intros post n pre m E. destruct (tsplit _ _ _ _ _ E) as [(_&-> & <-)|(p&_&->)]; eauto.
Qed.
Lemma pi_step : forall k s l s', TI s -> PI k s -> step_ok k s l = Some s' -> PI k s'.
Proof.
  intros k s l s' I P E. destruct P as [P1 P2 P3 P4 P5]. pose proof (i_fire _ I) as FI. pose proof (i_rp _ I) as RP. unfold first in RP.
  destruct l; cases E.
  all: try (unfold release; match goal with |- context[if ?o then _ else _] => destruct o end).
  all: repeat match goal with H : rp ?z = _ |- _ => rewrite H in * end.
  all: constructor; simpl.
  all: try assumption.
  all: try solve [intros u ii K H; destruct (P1 u ii K H); discriminate].
  all: try solve [intros; discriminate].
  all: try solve [intros u ii K; apply per_cons; eauto; discriminate].
  all: try solve [intros u m H; destruct (Nat.eqb_spec u t); [discriminate|auto]].
  all: try solve [intros u m H; right; auto].
  all: try solve [intros u ii K H; destruct (u =? t); [discriminate|eauto]].
  all: try solve [intros u ii m K H; destruct (P4 u ii m K H) as [X|[X|X]]; auto; try discriminate X; injection X as X; subst; auto; congruence].
  all: try solve [intros u ii K H; destruct (P1 u ii K H) as [X|X]; auto; try discriminate X; injection X as X; subst; auto; congruence].
  all: try solve [intros u ii K; apply per_cons; auto; try discriminate; intros n _; destruct (unserved u (th s)) eqn:U; auto; destruct (P1 u ii K U); discriminate].
  all: try solve [intros u H; unfold qfree in *; rewrite H in *; discriminate].
  all: try solve [intros u X; injection X as X; subst; rewrite ?upd_same; congruence].
  - intros u H S. unfold upd in S. nq u t; [exists a, b; now rewrite upd_same|]. destruct (P2 u H S) as (z&o&X). exists z, o. rewrite upd_other; auto. congruence.
  - intros u ii m K H. unfold upd. nq u t; [|eauto]. unfold due. rewrite K. right. right. apply P3, FI in H. lia.
  - intros u H S. unfold upd in S. nq u t; [discriminate|]. destruct (P2 u H S) as (z&o&X). exists z, o. rewrite upd_other; auto. congruence.
  - intros u ii K H. nq u t; [auto|]. destruct (P1 u ii K H); discriminate.
  - intros u m H. nq u t; [injection H as <-; auto|auto].
  - intros u ii m K H. nq u t; [auto|]. destruct (P4 u ii m K H) as [X|[X|X]]; auto; discriminate X.
  - intros u ii K. apply per_cons; auto; [discriminate|]. intros n m X H. injection X as -> <-. destruct (P4 u ii m K H) as [X|[X|X]]; try discriminate X. lia.
  - intros u ii K H. exfalso. destruct (P2 t eq_refl M1) as (a&o&X). apply (i_ins _ I) in X. intuition congruence.
  - intros u ii m K H. exfalso. destruct (P2 t eq_refl M1) as (a&o&X). apply (i_ins _ I) in X. intuition congruence.
  - intros u ii K H. nq u t; [discriminate|]. destruct (P1 u ii K H) as [X|X]; [discriminate X|injection X as X; congruence].
  - intros u ii m K H. unfold upd. nq u t; [|destruct (P4 u ii m K H) as [X|[X|X]]; auto; try discriminate X; injection X as X; congruence].
    unfold due. rewrite K. right. right. apply P3, FI in H. lia.
Qed.
(** For all interleavings: a periodic timer is started again after each launch, before the timer thread sleeps, and at least
    a period lies between two launches. *)
Theorem timer_periodic : forall k ls s, run (step_ok k) (tinit k) ls = Some s -> forall t i, k t = KLoop i -> periodic t i (th s).
Proof.
  intros k ls s R. assert (X : INV s /\ PI k s); [|apply X].
  refine (run_inv (step_ok k) (fun s => INV s /\ PI k s) (tinit k) _ _ ls R).
  - split; [apply inv_init|]. constructor; simpl; try discriminate. intros t i K. split; intros [|] n; discriminate.
  - intros z l z' [A B] E. split; [eapply inv_step; eauto|]. eapply pi_step; eauto. apply A.
Qed.
Example timer_periodic_example : option_map th (run (step_ok kX) (tinit kX)
   ([LTimer; LStart 0 2; LGo 0; LTimer; LClock 5; LTimer; LTimer; LTimer; LTimer; LTimer; LTimer; LTimer; LTimer; LClock 4] ++ repeat LTimer 5)) =
  Some [KFire 2 9; KSleep 5; KStart 2 9; KFire 2 5; KStart 2 4; KSleep 0].
Proof. vm_compute. reflexivity. Qed.
(** A call of start that finds the timer stopped: no launch in the interval of the timer after it. *)
Theorem timer_relative : forall k ls s a t i ls' s', run (step_ok k) (tinit k) ls = Some s -> k t = KOnce i \/ k t = KLoop i ->
  st s t = false -> run (step_ok k) s (LStart a t :: ls') = Some s' ->
  forall n, In (KFire t n) (th s') -> In (KFire t n) (th s) \/ now s + i <= n.
Proof.
  intros k ls s a t i ls' s' R K ST R'. simpl in R'. destruct (step_ok k s (LStart a t)) as [s1|] eqn:E; [|discriminate].
  pose (I1 := fun z => INV z /\ now s <= now z /\ now s + i <= exp z t /\ forall n, In (KFire t n) (th z) -> In (KFire t n) (th s) \/ now s + i <= n).
  assert (X : I1 s'); [|apply X]. refine (run_inv (step_ok k) I1 s1 _ _ ls' R').
  - split; [eapply inv_step; eauto using inv_run|]. unfold step_ok, step in E. rewrite ST in E. dm E. injection E as <-. simpl.
    rewrite upd_same. unfold due. destruct K as [-> | ->]; auto.
  - intros z l z' (A&B&C&D) S. split; [eapply inv_step; eauto|].
    assert (N : now z <= now z') by (destruct l; cases S; simpl; try (destruct own; simpl); try (destruct b; simpl); lia).
    split; [lia|]. assert (F : exp z' t = exp z t \/ exp z' t = now z + i).
    { destruct l; cases S; simpl; try (destruct own; simpl); try (destruct b; simpl); auto; unfold upd, due; match goal with |- context[t =? ?x] => nq t x end; auto;
      destruct K as [-> | ->]; auto. }
    split; [lia|]. intros n H. pose proof (i_rp _ (proj1 A)) as RP. unfold first in RP.
    destruct l; cases S; simpl in H; try (destruct own; simpl in H); try (destruct b; simpl in H); auto; destruct H as [H|H]; auto; try discriminate H.
    injection H as -> <-. right. lia.
Qed.
Example timer_relative_example : exists s s', run (step_ok kX) (tinit kX) [LTimer; LClock 3] = Some s /\ st s 0 = false /\ run (step_ok kX) s (LStart 0 0 :: [LGo 0; LTimer; LTimer; LClock 5; LTimer; LTimer]) = Some s' /\ In (KFire 0 8) (th s').
Proof. eexists. eexists. split; [vm_compute; reflexivity|]. split; [reflexivity|]. split; [vm_compute; reflexivity|]. simpl. auto. Qed.

(** ** C49 *)
(** The callback can begin after stop has returned: it was launched before. *)
Definition stopW : list tlbl := [LTimer; LStart 0 3; LGo 0; LTimer; LTimer; LTimer; LTimer; LTimer; LStop 0 3; LRun 1 3].
Theorem timer_stop_refuted : exists k ls s, run (step_ok k) (tinit k) ls = Some s /\ ~ stop_final (th s).
Proof.
  exists kX, stopW. eexists. split; [vm_compute; reflexivity|]. intros A. pose proof (A [] 3 0 _ eq_refl). discriminate.
Qed.
(** Other timers are affected: stopping timer 5 takes timer 0, due at the same time, out of the queue; the timer thread sleeps
    past its time. *)
Definition otherW : list tlbl := [LTimer; LStart 0 0; LGo 0; LStart 0 5; LGo 0].
Definition kY (t : nat) : tkind := KOnce 5.
Theorem timer_stop_other_refuted : exists k ls s0 s1 s2, run (step_ok k) (tinit k) ls = Some s0 /\ q s0 = [0] /\
  run (step_ok k) s0 [LStop 0 5; LGo 0] = Some s1 /\ th s1 = KStop 5 :: th s0 /\ pend 0 (th s1) = Some 5 /\ q s1 = [] /\
  run (step_ok k) s1 ([LClock 9; LStart 0 1; LGo 0] ++ repeat LTimer 3) = Some s2 /\ exists r, th s2 = KSleep 9 :: r /\ pend 0 r = Some 5.
Proof.
  exists kY, otherW. do 3 eexists.
  split; [vm_compute; reflexivity|]. split; [vm_compute; reflexivity|]. split; [vm_compute; reflexivity|].
  split; [vm_compute; reflexivity|]. split; [vm_compute; reflexivity|]. split; [vm_compute; reflexivity|].
  split; [vm_compute; reflexivity|]. eexists. split; vm_compute; reflexivity.
Qed.
Lemma pend_stopped : forall t H e, pend t H = Some e -> stopped t H = false.
Proof.
  induction H as [|x H IH]; simpl; intros e E; auto. destruct x; eauto; try (destruct (t =? t0); [congruence|eauto]).
Qed.
(** What holds: after stop has returned, until the next start, no callback is launched. *)
Theorem timer_stop_partial : forall k ls s, run (step_ok k) (tinit k) ls = Some s -> stop_final_launch (th s).
Proof.
  intros k ls s R post t n pre E. destruct (timer_never_early _ _ _ R) as [A _]. destruct (A _ _ _ _ E) as (e&P&_). eapply pend_stopped; eauto.
Qed.
Example timer_stop_example : option_map (fun s => (th s, q s, stopped 0 (th s))) (run (step_ok kX) (tinit kX) [LTimer; LStart 0 0; LGo 0; LClock 9; LStop 1 0; LGo 1; LTimer]) =
  Some ([KStop 0; KStart 0 5; KSleep 0], [], true).
Proof. vm_compute. reflexivity. Qed.

(** ** C51 *)
(** The wait for a first timer is not repeated: the timer is stopped before the timer thread gets the lock. *)
Definition emptyW : list tlbl := [LTimer; LStart 0 0; LGo 0; LStop 0 0; LGo 0; LTimer].
Theorem timer_empty_refuted : exists k ls s, ~ In LSpur ls /\ run (step_ok k) (tinit k) ls = Some s /\ step k s LTimer = Some TEmpty.
Proof. exists kX, emptyW. eexists. split; [simpl; intuition discriminate|]. split; vm_compute; reflexivity. Qed.
(** What holds: if no program thread stops a timer and there is no spurious wake-up, it never happens. *)
Theorem timer_empty_partial : forall k ls s, run (step_ok k) (tinit k) ls = Some s -> ~ In LSpur ls -> (forall a t, ~ In (LStop a t) ls) ->
  forall l, step k s l <> Some TEmpty.
Proof.
  intros k ls s R NS NP.
  assert (G : forall ls s s', INV s -> (forall a t o, pc s a <> AEra t o) /\ (rp s = RFront \/ rp s = RWaitE /\ ntf s = true -> q s <> []) ->
    run (step_ok k) s ls = Some s' -> ~ In LSpur ls -> (forall a t, ~ In (LStop a t) ls) ->
    (forall a t o, pc s' a <> AEra t o) /\ (rp s' = RFront \/ rp s' = RWaitE /\ ntf s' = true -> q s' <> [])).
  { clear. induction ls as [|l ls IH]; intros s s' IV [A B] R NS NP; simpl in R; [injection R as <-; auto|].
    destruct (step_ok k s l) as [s1|] eqn:E; [|discriminate]. apply (IH s1); auto.
    - eapply inv_step; eauto.
    - destruct l; try (exfalso; apply NS; now left); try (exfalso; eapply NP; now left); cases E; simpl in *; auto;
        try solve [split; [assumption|intros [X|[X Y]]; try discriminate X; try discriminate Y; solve [congruence|auto]]].
      + split; auto. intros z u o H. unfold upd in H. nq z a; [discriminate|eapply A; eauto].
      + assert (X : insert (exp s) t (q s) <> []) by (destruct (q s); simpl; [discriminate|]; destruct (_ <? _); [discriminate|]; destruct (_ <? _); discriminate).
        destruct own; simpl; (split; [|auto]); intros z u o H; unfold upd in H; (nq z a; [discriminate|eapply A; eauto]).
      + exfalso. eapply A; eauto.
      + destruct b; auto.
    - intros H. apply NS. now right.
    - intros z u H. eapply NP. right. eauto. }
  destruct (G ls (tinit k) s (inv_init k)) as [_ B]; auto; [split; simpl; [discriminate|intuition discriminate]|].
  intros l E. destruct l; unfold step, tstep in E; dm E; try discriminate E. apply B; auto.
Qed.
Example timer_empty_example : option_map (fun s => (rp s, q s)) (run (step_ok kX) (tinit kX) [LTimer; LStart 0 1; LGo 0; LTimer; LClock 9; LTimer; LTimer; LTimer; LTimer; LTimer]) =
  Some (RWaitE, []).
Proof. vm_compute. reflexivity. Qed.

(** ** C50, timers *)
(** A thread that holds the mutex of the timer the timer thread wants, and itself wants the queue. *)
Definition crossed (s : tst) (a t : nat) : Prop := rp s = RPost t /\ mu s t = Some a /\ pc s a <> AIdle.
Lemma crossed_step : forall k s a t l s', MI s -> crossed s a t -> step_ok k s l = Some s' ->
  crossed s' a t /\ (forall u n, In (KFire u n) (th s') -> In (KFire u n) (th s)) /\
  (forall u n, In (KStart u n) (th s') -> In (KStart u n) (th s)) /\ (In (KStop t) (th s') -> In (KStop t) (th s)).
Proof.
  intros k s a t l s' I (A&B&C) E. unfold crossed.
  assert (MN : forall z u b, pc s z = AIdle -> mine s z u = Some b -> z <> a /\ u <> t).
  { intros z u b P Q. split; [congruence|]. intros ->. apply mine_some in Q. destruct Q as [[Q _]|[Q _]]; congruence. }
  destruct l; unfold step_ok, step, tstep, qfree in E; rewrite ?A, ?B in E; dm E; try discriminate E; injection E as <-;
    try (destruct (MN _ _ _ M M0) as [? ?]);
    simpl; rewrite ?upd_other by auto; try solve [intuition (try discriminate; try congruence)].
  apply (m_in _ I) in M0 as Y. subst p. destruct Y as [Y ->].
  assert (t <> n) by congruence. simpl. rewrite upd_other by auto. intuition.
Qed.
Lemma crossed_run : forall k ls s s' a t, INV s -> crossed s a t -> run (step_ok k) s ls = Some s' ->
  crossed s' a t /\ (forall u n, In (KFire u n) (th s') -> In (KFire u n) (th s)) /\
  (forall u n, In (KStart u n) (th s') -> In (KStart u n) (th s)) /\ (In (KStop t) (th s') -> In (KStop t) (th s)).
Proof.
  induction ls as [|l ls IH]; intros s s' a t V C R; simpl in R; [injection R as <-; auto|].
  destruct (step_ok k s l) as [s1|] eqn:E; [|discriminate].
  destruct (crossed_step _ _ _ _ _ _ (proj1 (proj2 V)) C E) as (C1&F1&S1&P1).
  destruct (IH s1 s' a t (inv_step _ _ _ _ V E) C1 R) as (C2&F2&S2&P2). repeat split; auto; apply C2.
Qed.
(** stop called while the callback has just been launched: it never returns, no timer fires and none is started any more,
    whatever happens next. *)
Definition crossW : list tlbl := [LTimer; LStart 0 0; LGo 0; LTimer; LClock 5; LTimer; LTimer; LTimer; LStop 1 0].
Theorem timer_stop_deadlock_refuted : exists k ls s, ~ In LSpur ls /\ run (step_ok k) (tinit k) ls = Some s /\
  forall ls' s', run (step_ok k) s ls' = Some s' -> ~ In (KStop 0) (th s') /\
    (forall u n, In (KFire u n) (th s') -> In (KFire u n) (th s)) /\ (forall u n, In (KStart u n) (th s') -> In (KStart u n) (th s)).
Proof.
  exists kX, crossW. eexists. split; [simpl; intuition discriminate|]. split; [vm_compute; reflexivity|]. intros ls' s' R.
  eapply crossed_run with (a := 1) (t := 0) in R; [|eapply (inv_run kX crossW); vm_compute; reflexivity|repeat split; simpl; discriminate].
  destruct R as (_&F&S&P). split; [|auto]. intros H. apply P in H. simpl in H. intuition discriminate.
Qed.
(** A callback that starts another timer, before the timer thread has retired its own: the same end; nothing is stopped. *)
Definition cbW : list tlbl := [LTimer; LStart 0 0; LGo 0; LTimer; LClock 5; LTimer; LTimer; LTimer; LRun 1 0; LStart 1 1].
Theorem timer_callback_deadlock_refuted : exists k ls s, ~ In LSpur ls /\ (forall a t, ~ In (LStop a t) ls) /\ run (step_ok k) (tinit k) ls = Some s /\
  forall ls' s', run (step_ok k) s ls' = Some s' -> (forall e, ~ In (KStart 1 e) (th s')) /\
    (forall u n, In (KFire u n) (th s') -> In (KFire u n) (th s)) /\ (forall u n, In (KStart u n) (th s') -> In (KStart u n) (th s)).
Proof.
  exists kX, cbW. eexists. split; [simpl; intuition discriminate|]. split; [simpl; intuition discriminate|]. split; [vm_compute; reflexivity|]. intros ls' s' R.
  eapply crossed_run with (a := 1) (t := 0) in R; [|eapply (inv_run kX cbW); vm_compute; reflexivity|repeat split; simpl; discriminate].
  destruct R as (_&F&S&P). split; [|auto]. intros e H. apply S in H. simpl in H. intuition discriminate.
Qed.
(** What holds: without stop, without periodic timers, and with callbacks that use no timers, the timer thread never waits for
    a mutex whose holder waits for the queue: it is inside a callback. *)
Theorem timer_deadlock_partial : forall k ls s, run (step_ok k) (tinit k) ls = Some s -> (forall t i, k t <> KLoop i) -> (forall a t, ~ In (LStop a t) ls) ->
  (forall a t u, In (LRun a t) ls -> ~ In (LStart a u) ls) ->
  forall t a, rp s = RChk t \/ rp s = RPost t \/ rp s = RAgain t -> mu s t = Some a -> pc s a = AIdle /\ exists s', step k s (LRet a) = Some (TOk s') /\ mu s' t = None.
Proof.
  intros k ls s R NL NP NC t a RP M.
  assert (G : (forall a t o, pc s a <> AEra t o) /\ (forall t, rp s <> RAgain t) /\ (forall a, incb s a <> None -> exists t, In (LRun a t) ls) /\
     (forall a t o, pc s a = AIns t o -> exists t, In (LStart a t) ls)).
  { clear RP M t a NC. revert NP. revert s R. induction ls as [|l ls IH] using rev_ind; intros s R NP.
    - injection R as <-. simpl. intuition; discriminate.
    - rewrite run_app in R. destruct (run (step_ok k) (tinit k) ls) as [s1|] eqn:R1; [|discriminate]. rename R into R2. simpl in R2. destruct (step_ok k s1 l) as [s2|] eqn:E; [|discriminate]. injection R2 as ->.
      destruct (IH s1 eq_refl) as (A&B&C&D). { intros a t H. eapply NP. apply in_or_app. left. eauto. }
      assert (C' : forall a, incb s1 a <> None -> exists t, In (LRun a t) (ls ++ [l])) by (intros a H; destruct (C a H) as [t X]; exists t; apply in_or_app; now left).
      assert (D' : forall a t o, pc s1 a = AIns t o -> exists t, In (LStart a t) (ls ++ [l])) by (intros a t o H; destruct (D a t o H) as [v X]; exists v; apply in_or_app; now left).
      assert (Z : In l (ls ++ [l])) by (apply in_or_app; right; now left). clear IH R1 C D.
      destruct l; try (exfalso; eapply NP; eauto; fail); cases E; simpl in *; auto.
      all: try (destruct own; simpl); try (destruct b; simpl).
      all: try (exfalso; eapply B; eauto; fail); try (exfalso; eapply NL; eauto; fail); try (exfalso; eapply A; eauto; fail).
      all: split; [first [assumption|(intros z u o H; unfold upd in H; nq z a; [discriminate|eapply A; eauto])]|].
      all: split; [auto; discriminate|].
      all: split; [first [assumption|intros z H; unfold upd in H; nq z a; [solve [eauto|congruence]|auto]] |first [assumption|intros z u o H; unfold upd in H; nq z a; [solve [eauto|congruence]|eauto]]]. }
  destruct G as (A&B&C&D). pose proof (inv_run _ _ _ R) as (I&MM&_).
  assert (Q : In t (q s)). { pose proof (i_rp _ I) as F. unfold first in F. destruct RP as [E|[E|E]]; [| |exfalso; eapply B; eauto]; rewrite E in F.
    - destruct F as [r ->]. now left. - destruct F as [[r ->] _]. now left. }
  destruct (m_held _ MM _ _ M) as [(o&[E|E])|(o&E)]; [apply (i_ins _ I) in E; tauto|exfalso; eapply A; eauto|].
  assert (P : pc s a = AIdle). { destruct (pc s a) eqn:P; auto; exfalso; [|eapply A; eauto]. destruct (C a) as [u X]; [congruence|]. destruct (D _ _ _ P) as [v Y]. eapply NC; eauto. }
  split; auto. unfold step. rewrite P, E. eexists. split; [reflexivity|]. destruct (m_in _ MM _ _ _ E) as [_ ->]. simpl. now rewrite upd_same.
Qed.
Example timer_deadlock_example : option_map (fun s => (rp s, mu s 0, pc s 1)) (run (step_ok (fun _ => KOnce 5)) (tinit (fun _ => KOnce 5))
  [LTimer; LStart 0 0; LGo 0; LTimer; LClock 5; LTimer; LTimer; LTimer; LRun 1 0]) = Some (RPost 0, Some 1, AIdle).
Proof. vm_compute. reflexivity. Qed.

Print Assumptions timer_never_early.
Print Assumptions timer_equal_refuted.
Print Assumptions timer_restart_refuted.
Print Assumptions timer_all_fired_partial.
Print Assumptions timer_fires_partial.
Print Assumptions timer_stop_refuted.
Print Assumptions timer_stop_other_refuted.
Print Assumptions timer_stop_partial.
Print Assumptions timer_empty_refuted.
Print Assumptions timer_empty_partial.
Print Assumptions timer_stop_deadlock_refuted.
Print Assumptions timer_callback_deadlock_refuted.
Print Assumptions timer_deadlock_partial.
Print Assumptions timer_periodic.
Print Assumptions timer_relative.
