(** Sleeps in fair executions: every callback ends, the timer thread sleeps again and again, every call of start returns, every launched
    callback runs, so that a call whose time comes returns. *)
From Coq Require Import List Arith Bool Lia.
From Verif Require Import Base FairSpec TimerSpec TimerModel TimerProofs TimerProps SleepModel SleepProps SleepLive TimerFair.
Import ListNotations.

(** Who makes a step: the timer thread; thread a inside start; thread a that returns from a callback; the callback of t that wakes the
    sleeper (co_co.h 181-183); the coroutine made for the callback of t, when it is begun; the call of t (co_co.h 184-188).  The clock and
    the beginning of calls are free. *)
Definition slwho (l : slbl) : option nat :=
  match l with
  | SL LTimer => Some 0
  | SL (LGo a) => Some (S (5 * a))
  | SL (LRet a) => Some (S (5 * a + 1))
  | SLeave _ t => Some (S (5 * t + 2))
  | SL (LRun _ t) => Some (S (5 * t + 3))
  | SStart _ t | SGo t | SBack t => Some (S (5 * t + 4))
  | _ => None
  end.
(** The step as a step of the timers. *)
Definition tl_of (l : slbl) : option tlbl := match l with SL l => Some l | SStart a t => Some (LStart a t) | _ => None end.

Section Comes.
  Variables (state label : Type) (step : state -> label -> option state) (init : state) (who : label -> option nat).
  Variables (st : nat -> state) (lb : nat -> option label).
  Hypothesis EX : execution _ _ step init st lb.
  Hypothesis SF : strongly_fair _ _ step who st lb.
  (** What only [x] itself ends lasts until [x] makes a step, and it makes one if it is able to again and again. *)
  Lemma comes : forall (P : nat -> Prop) x n,
    (forall i, P i -> lb i = None -> P (S i)) ->
    (forall i l, P i -> lb i = Some l -> step (st i) l = Some (st (S i)) -> who l <> Some x -> P (S i)) -> P n ->
    (forall m, n <= m -> P m -> exists h, m <= h /\ (P h -> able _ _ step who (st h) x)) ->
    exists m l, n <= m /\ P m /\ lb m = Some l /\ who l = Some x /\ step (st m) l = Some (st (S m)).
  Proof.
    intros P x n P0 P1 Pn Ab.
    assert (G : forall j, (exists m l, n <= m /\ P m /\ lb m = Some l /\ who l = Some x /\ step (st m) l = Some (st (S m))) \/ P (n + j)).
    { induction j as [|j [IH|IH]]; [right; now rewrite Nat.add_0_r|now left|]. rewrite Nat.add_succ_r. pose proof (proj2 EX (n + j)) as E.
      destruct (lb (n + j)) as [l|] eqn:El; [|right; now apply P0].
      assert (D : who l = Some x \/ who l <> Some x).
      { destruct (who l) as [y|]; [|right; discriminate]. destruct (Nat.eq_dec y x); [left; congruence|right; congruence]. }
      destruct D as [D|D]; [|right; eapply P1; eauto]. left. exists (n + j), l. split; [lia|auto]. }
    destruct (SF x n) as (m&L&[(l&El&W)|M]).
    - destruct (G (m - n)) as [Q|Q]; auto. replace (n + (m - n)) with m in Q by lia. exists m, l. pose proof (proj2 EX m) as E. rewrite El in E. auto.
    - destruct (G (m - n)) as [Q|Q]; auto. replace (n + (m - n)) with m in Q by lia. destruct (Ab m L Q) as (h&Lh&A).
      destruct (G (h - n)) as [R|R]; auto. replace (n + (h - n)) with h in R by lia. exfalso. exact (M h Lh (A R)).
  Qed.
End Comes.

(** Frames of the timer model. *)
Ltac fr E := cases E; simpl; auto; try (unfold release; match goal with |- context[if ?o then _ else _] => is_var o; destruct o end; simpl); auto;
  unfold upd; repeat match goal with |- context[?x =? ?y] => destruct (Nat.eqb_spec x y); subst end; try congruence; auto.
Lemma in_frame : forall k s l s' a x, step_ok k s l = Some s' -> incb s a = Some x -> l <> LRet a -> incb s' a = Some x.
Proof. intros k s l s' a x E P N. destruct l; fr E. Qed.
Lemma cb_frame : forall k s l s' t, step_ok k s l = Some s' -> 0 < cb s t -> (forall a, l <> LRun a t) -> 0 < cb s' t.
Proof. intros k s l s' t E P N. destruct l; fr E; try lia. exfalso. eapply N; eauto. Qed.
Lemma pc_frame : forall k s l s' a, step_ok k s l = Some s' -> pc s a <> AIdle -> l <> LGo a -> pc s' a = pc s a.
Proof. intros k s l s' a E P N. destruct l; fr E. Qed.
Lemma q_frame : forall k s l s', step_ok k s l = Some s' -> qfree s = false -> l <> LTimer -> q s' = q s.
Proof. intros k s l s' E P N. destruct l; fr E. Qed.

Section SleepFair.
  Variable d : nat -> nat.
  Hypothesis dinj : forall t u, d t = d u -> t = u.
  Let k (t : nat) : tkind := KAbs (d t).
  Let sl (t : nat) : bool := true.
  Variables (st : nat -> sst) (lb : nat -> option slbl).
  Hypothesis EX : execution _ _ (slstep k sl) (slinit k) st lb.
  Hypothesis SF : strongly_fair _ _ (slstep k sl) slwho st lb.
  Hypothesis NS : forall n, lb n <> Some (SL LSpur).

  Lemma ex_j : forall n, J d (st n).
  Proof.
    induction n as [|n IH]; [rewrite (proj1 EX); apply j_init|]. pose proof (proj2 EX n) as E. destruct (lb n) as [l|] eqn:El; [|now rewrite E].
    eapply j_step; eauto. intros ->. exact (NS n El).
  Qed.
  Lemma ex_ti : forall n, TI (tm (st n)) /\ MI (tm (st n)) /\ WI (tm (st n)) /\ DI (tm (st n)).
  Proof.
    intros n. pose proof (ex_j n) as H. destruct (l_inv _ _ (j_sli _ _ H)) as (A&B&C&D). split; [exact A|]. split; [exact B|]. split; [exact C|]. apply D, (j_dist d dinj), H.
  Qed.
  (** The timers along the execution. *)
  Definition pl (n : nat) : option tlbl := match lb n with Some l => tl_of l | None => None end.
  Lemma sl_tm : forall s l s', slstep k sl s l = Some s' ->
    match tl_of l with Some x => step_ok k (tm s) x = Some (tm s') | None => tm s' = tm s end.
  Proof.
    intros s l s' E. destruct l as [l|u|a u|u|a u|u]; simpl in E |- *.
    - destruct (foreign sl l && body_ok sl s l); [|discriminate]. destruct (step_ok k (tm s) l); [|discriminate]. now injection E as <-.
    - destruct (sp s u); try discriminate. now injection E as <-.
    - destruct (sp s u), (in_wake sl s a); try discriminate. destruct (step_ok k (tm s) (LStart a u)); [|discriminate]. now injection E as <-.
    - destruct (sp s u); try discriminate. destruct (pc (tm s) a); try discriminate. now injection E as <-.
    - destruct (incb (tm s) a) as [[v o]|]; [|discriminate]. destruct ((u =? v) && sl u); [|discriminate]. now injection E as <-.
    - destruct (sp s u), (wb s u); try discriminate. now injection E as <-.
  Qed.
  Lemma ex_tm : execution _ _ (step_ok k) (tinit k) (fun n => tm (st n)) pl.
  Proof.
    split; [now rewrite (proj1 EX)|]. intros n. unfold pl. pose proof (proj2 EX n) as E. destruct (lb n) as [l|]; [|now rewrite E]. apply sl_tm in E. exact E.
  Qed.
  Lemma timer_able : forall s x, step_ok k (tm s) LTimer = Some x -> able _ _ (slstep k sl) slwho s 0.
  Proof. intros s x E. exists (SL LTimer), (with_tm s x). split; auto. simpl. now rewrite E. Qed.
  Lemma sf_tm : strongly_fair _ _ (step_ok k) twho (fun n => tm (st n)) pl.
  Proof.
    intros [|t] n.
    - destruct (SF 0 n) as (m&L&[(l&El&W)|M]); exists m; split; auto.
      + left. exists LTimer. split; auto. unfold pl. rewrite El. destruct l as [[]| | | | |]; try discriminate W; try reflexivity; simpl in W; injection W; lia.
      + right. intros h Lh (l&s'&W&E). apply (M h Lh). destruct l; try discriminate W. eapply timer_able; eauto.
    - exists n. split; auto. right. intros h _ (l&s'&W&_). destruct l; discriminate W.
  Qed.

  (** Frames of the calls. *)
  Lemma wb_true : forall s l s' t, slstep k sl s l = Some s' -> wb s t = true -> slwho l <> Some (S (5 * t + 2)) -> wb s' t = true.
  Proof.
    intros s l s' t E P N. destruct l as [l|u|a u|u|a u|u]; simpl in E.
    - destruct (foreign sl l && body_ok sl s l); [|discriminate]. destruct (step_ok k (tm s) l); [|discriminate]. now injection E as <-.
    - destruct (sp s u); try discriminate. injection E as <-. simpl. unfold upd. destruct (t =? u); auto.
    - destruct (sp s u), (in_wake sl s a); try discriminate. destruct (step_ok k (tm s) (LStart a u)); [|discriminate]. now injection E as <-.
    - destruct (sp s u); try discriminate. destruct (pc (tm s) a); try discriminate. now injection E as <-.
    - destruct (incb (tm s) a) as [[v o]|]; [|discriminate]. destruct ((u =? v) && sl u); [|discriminate]. injection E as <-. simpl. unfold upd.
      destruct (Nat.eqb_spec t u); auto. subst. exfalso. now apply N.
    - destruct (sp s u), (wb s u); try discriminate. now injection E as <-.
  Qed.
  Lemma wb_false : forall s l s' t, slstep k sl s l = Some s' -> wb s t = false -> sp s t <> SNone -> wb s' t = false /\ sp s' t <> SNone.
  Proof.
    intros s l s' t E P N. destruct l as [l|u|a u|u|a u|u]; simpl in E.
    - destruct (foreign sl l && body_ok sl s l); [|discriminate]. destruct (step_ok k (tm s) l); [|discriminate]. now injection E as <-.
    - destruct (sp s u) eqn:S0; try discriminate. injection E as <-. simpl. unfold upd. destruct (Nat.eqb_spec t u); [subst; congruence|auto].
    - destruct (sp s u), (in_wake sl s a); try discriminate. destruct (step_ok k (tm s) (LStart a u)); [|discriminate]. injection E as <-. simpl. unfold upd.
      destruct (t =? u); split; auto; discriminate.
    - destruct (sp s u); try discriminate. destruct (pc (tm s) a); try discriminate. injection E as <-. simpl. unfold upd. destruct (t =? u); split; auto; discriminate.
    - destruct (incb (tm s) a) as [[v o]|]; [|discriminate]. destruct ((u =? v) && sl u); [|discriminate]. injection E as <-. simpl. unfold upd. destruct (t =? u); auto.
    - destruct (sp s u), (wb s u); try discriminate. injection E as <-. simpl. unfold upd. destruct (t =? u); split; auto; discriminate.
  Qed.
  Lemma sp_frame : forall s l s' t, slstep k sl s l = Some s' -> sp s t <> SNone -> slwho l <> Some (S (5 * t + 4)) -> sp s' t = sp s t.
  Proof.
    intros s l s' t E P N. destruct l as [l|u|a u|u|a u|u]; simpl in E; assert (NE : forall u, S (5 * u + 4) <> S (5 * t + 4) -> t <> u) by (intros; lia).
    - destruct (foreign sl l && body_ok sl s l); [|discriminate]. destruct (step_ok k (tm s) l); [|discriminate]. now injection E as <-.
    - destruct (sp s u) eqn:S0; try discriminate. injection E as <-. simpl. unfold upd. destruct (Nat.eqb_spec t u); [subst; congruence|auto].
    - destruct (sp s u), (in_wake sl s a); try discriminate. destruct (step_ok k (tm s) (LStart a u)); [|discriminate]. injection E as <-. simpl. unfold upd.
      destruct (Nat.eqb_spec t u); auto. subst. exfalso. now apply N.
    - destruct (sp s u); try discriminate. destruct (pc (tm s) a); try discriminate. injection E as <-. simpl. unfold upd. destruct (Nat.eqb_spec t u); auto. subst. exfalso. now apply N.
    - destruct (incb (tm s) a) as [[v o]|]; [|discriminate]. destruct ((u =? v) && sl u); [|discriminate]. now injection E as <-.
    - destruct (sp s u), (wb s u); try discriminate. injection E as <-. simpl. unfold upd. destruct (Nat.eqb_spec t u); auto. subst. exfalso. now apply N.
  Qed.
  (** Inside a callback. *)
  Lemma in_sl : forall s l s' a x, slstep k sl s l = Some s' -> incb (tm s) a = Some x -> slwho l <> Some (S (5 * a + 1)) -> incb (tm s') a = Some x.
  Proof.
    intros s l s' a x E P N. apply sl_tm in E. destruct (tl_of l) as [y|] eqn:T; [|now rewrite E]. eapply in_frame; eauto.
    intros ->. destruct l; try discriminate T. injection T as ->. now apply N.
  Qed.
  Lemma begun : forall n a t o, incb (tm (st n)) a = Some (t, o) -> sp (st n) t <> SNone.
  Proof. intros n a t o P S0. destruct (j_new _ _ (ex_j n) t (or_introl S0)) as (_&_&X). exact (X a o P). Qed.

  (** The callback wakes the sleeper. *)
  Lemma wakes : forall n a t o, incb (tm (st n)) a = Some (t, o) -> exists m, n <= m /\ wb (st m) t = false /\ incb (tm (st m)) a = Some (t, o).
  Proof.
    intros n a t o P. destruct (wb (st n) t) eqn:W; [|exists n; auto].
    destruct (comes _ _ _ _ slwho st lb EX SF (fun i => incb (tm (st i)) a = Some (t, o) /\ wb (st i) t = true) (S (5 * t + 2)) n) as (m&l&L&(Pm&Wm)&El&Wl&E).
    - intros i (A&B) X. pose proof (proj2 EX i) as E. rewrite X in E. now rewrite E.
    - intros i l (A&B) El E N. split; [|eapply wb_true; eauto]. eapply in_sl; eauto. intros X.
      destruct l as [[]| | | | |]; try discriminate X; try (simpl in X; injection X as X; lia). assert (a0 = a) by (injection X; lia). subst a0.
      simpl in E. rewrite A, B in E. discriminate E.
    - auto.
    - intros m L _. exists m. split; auto. intros (A&B). exists (SLeave a t). eexists. split; [reflexivity|]. simpl. rewrite A, Nat.eqb_refl. reflexivity.
    - exists (S m). split; [lia|]. assert (X : exists b, l = SLeave b t).
      { destruct l as [[]| | | |b u|]; try discriminate Wl; try (simpl in Wl; injection Wl as Wl; lia). exists b. f_equal. injection Wl; lia. }
      destruct X as (b&->). pose proof (sl_tm _ _ _ E) as T. simpl in T. rewrite T. split; auto. simpl in E.
      destruct (incb (tm (st m)) b) as [[v o']|]; [|discriminate E]. destruct ((t =? v) && sl t); [|discriminate E]. injection E as <-. simpl. apply upd_same.
  Qed.
  (** The callback ends and gives up the mutex. *)
  Lemma ends : forall n a t o, incb (tm (st n)) a = Some (t, o) -> exists m, n <= m /\ mu (tm (st m)) t = None.
  Proof.
    intros n a t o P. destruct (wakes n a t o P) as (n1&L1&W1&P1).
    destruct (comes _ _ _ _ slwho st lb EX SF (fun i => incb (tm (st i)) a = Some (t, o) /\ wb (st i) t = false) (S (5 * a + 1)) n1) as (m&l&L&(Pm&Wm)&El&Wl&E).
    - intros i (A&B) X. pose proof (proj2 EX i) as E. rewrite X in E. now rewrite E.
    - intros i l (A&B) El E N. split; [eapply in_sl; eauto|]. eapply wb_false; eauto. eapply begun; eauto.
    - auto.
    - intros m L _. exists m. split; auto. intros (A&B). exists (SL (LRet a)). pose proof (j_cbpc _ _ (ex_j m) a) as PC. rewrite A in PC. specialize (PC ltac:(discriminate)).
      eexists. split; [reflexivity|]. cbn [slstep foreign body_ok andb]. rewrite A, B. cbn [andb negb sl]. unfold step_ok, step. rewrite PC, A. reflexivity.
    - exists (S m). split; [lia|]. assert (X : l = SL (LRet a)).
      { destruct l as [[]| | | | |]; try discriminate Wl; try (simpl in Wl; injection Wl as Wl; lia). do 2 f_equal. injection Wl; lia. }
      subst l. pose proof (sl_tm _ _ _ E) as T. simpl in T. destruct (ex_ti m) as (_&MM&_). destruct (m_in _ MM _ _ _ Pm) as [_ ->].
      unfold step_ok, step in T. rewrite Pm in T. destruct (pc (tm (st m)) a); try discriminate T. injection T as <-. simpl. apply upd_same.
  Qed.
  (** The mutex of a timer that is queued, or whose callback has been launched, becomes free. *)
  Lemma free : forall n t, In t (q (tm (st n))) \/ 0 < cb (tm (st n)) t -> exists m, n <= m /\ mu (tm (st m)) t = None.
  Proof.
    intros n t Q. destruct (mu (tm (st n)) t) as [a|] eqn:M; [|exists n; auto]. destruct (ex_ti n) as (I&MM&_).
    destruct (m_held _ MM _ _ M) as [(o&[X|X])|(o&X)].
    - exfalso. destruct Q as [Q|Q]; [destruct (i_ins _ I _ _ _ X) as (_&N&_); contradiction|]. rewrite (j_ins _ _ (ex_j n) _ _ _ X) in Q. lia.
    - exfalso. eapply (j_era _ _ (ex_j n)); eauto.
    - eapply ends; eauto.
  Qed.
  Lemma mf_tm : forall u n, needs (tm (st n)) u -> exists m, n <= m /\ mu (tm (st m)) u = None.
  Proof.
    intros u n U. apply free. left. destruct (ex_ti n) as (I&_). pose proof (i_rp _ I) as F. unfold first in F.
    destruct U as [U|[U|U]]; rewrite U in F; [destruct F as [r ->]; now left|destruct F as [[r ->] _]; now left|]. exfalso. eapply (j_rp _ _ (ex_j n)); eauto.
  Qed.

  (** The timer thread sleeps again and again. *)
  Lemma sleeps : forall z n, 8 * length (q (tm (st n))) + rk (rp (tm (st n))) < z -> exists m, n <= m /\ qfree (tm (st m)) = true.
  Proof.
    induction z as [|z IH]; intros n LT; [lia|]. destruct (qfree (tm (st n))) eqn:F; [exists n; auto|].
    assert (G : exists m l, n <= m /\ (rp (tm (st m)) = rp (tm (st n)) /\ q (tm (st m)) = q (tm (st n))) /\ lb m = Some l /\ slwho l = Some 0 /\ slstep k sl (st m) l = Some (st (S m))).
    { apply (comes _ _ _ _ slwho st lb EX SF (fun i => rp (tm (st i)) = rp (tm (st n)) /\ q (tm (st i)) = q (tm (st n))) 0 n); auto.
      - intros i A X. pose proof (proj2 EX i) as E. rewrite X in E. now rewrite E.
      - intros i l (A&B) El E N. assert (Fi : qfree (tm (st i)) = false) by (unfold qfree in *; now rewrite A).
        pose proof (sl_tm _ _ _ E) as T. destruct (tl_of l) as [y|] eqn:TL; [|now rewrite T].
        assert (NT : y <> LTimer) by (intros ->; destruct l; try discriminate TL; injection TL as ->; now apply N).
        assert (NP : y <> LSpur) by (intros ->; destruct l; try discriminate TL; injection TL as ->; exact (NS i El)).
        now rewrite (rp_step _ _ _ _ T NT NP), (q_frame _ _ _ _ T Fi NT).
      - intros m L (A&B).
        assert (FR : exists h, m <= h /\ forall u, needs (tm (st m)) u -> mu (tm (st h)) u = None).
        { assert (ND : (exists u, needs (tm (st m)) u) \/ forall u, ~ needs (tm (st m)) u).
          { unfold needs. destruct (rp (tm (st m))); try (right; intros u [H|[H|H]]; discriminate H); left; eauto. }
          destruct ND as [(u&U)|N]; [|exists m; split; auto; intros u U; exfalso; eapply N; eauto].
          destruct (mf_tm u m U) as (h&Lh&X). exists h. split; auto. intros v V. replace v with u; auto. unfold needs in U, V. destruct U as [U|[U|U]], V as [V|[V|V]]; congruence. }
        destruct FR as (h&Lh&FR). exists h. split; auto. intros (A'&B'). unfold needs in FR. rewrite A in FR.
        pose proof (j_ne _ _ (ex_j h)) as NE. pose proof (j_rp _ _ (ex_j h)) as NR. rewrite A' in NE, NR.
        assert (X : exists x, step_ok k (tm (st h)) LTimer = Some x).
        { unfold step_ok, step, tstep. rewrite A'. unfold qfree in F. destruct (rp (tm (st n))) as [| |e| |x|x|x|x]; try discriminate F.
          - destruct (q (tm (st h))); eexists; reflexivity.
          - destruct (q (tm (st h))); [exfalso; apply NE; auto|eexists; reflexivity].
          - rewrite FR by auto. eexists; reflexivity.
          - eexists; reflexivity.
          - rewrite FR by auto. destruct (TimerModel.st (tm (st h)) x); eexists; reflexivity.
          - exfalso. eapply NR; eauto. }
        destruct X as (x&X). eapply timer_able; eauto. }
    destruct G as (m&l&L&(A&B)&El&Wl&E). assert (X : l = SL LTimer) by (destruct l as [[]| | | | |]; try discriminate Wl; try reflexivity; simpl in Wl; injection Wl; lia). subst l.
    destruct (qfree (tm (st (S m)))) eqn:F'; [exists (S m); split; auto; lia|].
    destruct (IH (S m)) as (h&Lh&H); [|exists h; split; auto; lia].
    pose proof (sl_tm _ _ _ E) as T. simpl in T. destruct (ex_ti m) as (I&_). pose proof (i_rp _ I) as FI. unfold first in FI.
    pose proof (j_rp _ _ (ex_j m)) as NR. unfold step_ok, step, tstep in T. unfold qfree in F, F'. rewrite A, B in *. clear E.
    destruct (rp (tm (st n))) as [| |e| |x|x|x|x] eqn:R; try discriminate F.
    - destruct (q (tm (st n))) eqn:Q; injection T as T; rewrite <- T in *; simpl in *; [discriminate F'|]. try rewrite B; rewrite ?Q. simpl in *. lia.
    - destruct (q (tm (st n))) eqn:Q; [discriminate T|]. injection T as T. rewrite <- T in *. simpl in *. rewrite ?B, ?Q. simpl in *. lia.
    - destruct (mu (tm (st m)) x); [discriminate T|]. destruct (exp (tm (st m)) x <=? now (tm (st m))); injection T as T; rewrite <- T in *; simpl in *; [|discriminate F']. rewrite B. lia.
    - injection T as T. rewrite <- T in *. simpl in *. rewrite B. lia.
    - destruct (mu (tm (st m)) x) eqn:MU; [discriminate T|]. pose proof (rp_first _ _ I A MU) as S1. rewrite S1 in T. destruct FI as [[r Q] _].
      pose proof (i_ss _ I) as SS. rewrite B, Q in SS. injection T as T. rewrite <- T in *. simpl in *. rewrite B, Q, erase_head by auto. rewrite Q in LT. simpl in *. lia.
    - exfalso. eapply NR; eauto.
  Qed.
  (** A thread in start comes out. *)
  Lemma start_ends : forall n a, pc (tm (st n)) a <> AIdle -> exists m, n <= m /\ pc (tm (st m)) a = pc (tm (st n)) a /\ lb m = Some (SL (LGo a)) /\ slstep k sl (st m) (SL (LGo a)) = Some (st (S m)).
  Proof.
    intros n a P.
    destruct (comes _ _ _ _ slwho st lb EX SF (fun i => pc (tm (st i)) a = pc (tm (st n)) a) (S (5 * a)) n) as (m&l&L&Pm&El&Wl&E); auto.
    - intros i A X. pose proof (proj2 EX i) as E. rewrite X in E. now rewrite E.
    - intros i l A El E N. apply sl_tm in E. destruct (tl_of l) as [y|] eqn:TL; [|now rewrite E]. rewrite (pc_frame _ _ _ _ a E); auto; [congruence|].
      intros ->. destruct l; try discriminate TL. injection TL as ->. now apply N.
    - intros m L A. destruct (sleeps _ m (Nat.lt_succ_diag_r _)) as (h&Lh&Q). exists h. split; auto. intros A'. rewrite <- A' in P.
      destruct (pc (tm (st h)) a) as [|t o|t o] eqn:PC; [congruence| |exfalso; eapply (j_era _ _ (ex_j h)); eauto].
      exists (SL (LGo a)). eexists. split; [simpl; f_equal; lia|]. cbn [slstep foreign body_ok andb]. unfold step_ok, step. rewrite PC, Q. reflexivity.
    - exists m. assert (X : l = SL (LGo a)).
      { destruct l as [[]| | | | |]; try discriminate Wl; try (simpl in Wl; injection Wl as Wl; lia). do 2 f_equal. simpl in Wl. injection Wl; lia. }
      subst l. auto.
  Qed.
  (** From the launch of the callback to the end of its wake. *)
  Lemma launched : forall n t, 0 < cb (tm (st n)) t -> exists m, n <= m /\ wb (st m) t = false.
  Proof.
    intros n t C.
    destruct (comes _ _ _ _ slwho st lb EX SF (fun i => 0 < cb (tm (st i)) t) (S (5 * t + 3)) n) as (m&l&L&Pm&El&Wl&E); auto.
    - intros i A X. pose proof (proj2 EX i) as E. rewrite X in E. now rewrite E.
    - intros i l A El E N. apply sl_tm in E. destruct (tl_of l) as [y|] eqn:TL; [|now rewrite E]. eapply cb_frame; eauto.
      intros a ->. destruct l; try discriminate TL. injection TL as ->. now apply N.
    - intros m L A. destruct (free m t (or_intror A)) as (h&Lh&M). exists h. split; auto. intros A'.
      destruct (j_fin _ _ (ex_j h)) as [b F]. destruct (F b (Nat.le_refl b)) as [P IN]. destruct (cb (tm (st h)) t) as [|c] eqn:CT; [lia|].
      exists (SL (LRun b t)). eexists. split; [reflexivity|]. cbn [slstep foreign body_ok andb]. unfold step_ok, step, mine. rewrite P, M, IN, CT. reflexivity.
    - assert (X : exists a, l = SL (LRun a t)).
      { destruct l as [[]| | | | |]; try discriminate Wl; try (simpl in Wl; injection Wl as Wl; lia). exists a. do 2 f_equal. simpl in Wl. injection Wl; lia. }
      destruct X as (a&->). apply sl_tm in E. simpl in E.
      assert (Y : exists o, incb (tm (st (S m))) a = Some (t, o)).
      { unfold step_ok, step in E. destruct (pc (tm (st m)) a), (mine (tm (st m)) a t), (incb (tm (st m)) a), (cb (tm (st m)) t); try discriminate E; injection E as <-; simpl; rewrite upd_same; eauto. }
      destruct Y as (o&Y). destruct (wakes (S m) a t o Y) as (h&Lh&H&_). exists h. split; auto. lia.
  Qed.
  Lemma fire_cb : forall s l s' t x, step_ok k s l = Some s' -> th s' = KFire t x :: th s -> 0 < cb s' t.
  Proof.
    intros s l s' t x E H. assert (X : forall (r : thist) e, r <> e :: r) by (induction r as [|y r IH]; intros e Q; [discriminate|injection Q as Q0 Q; exact (IH _ Q)]).
    destruct l; cases E; simpl in *; try (unfold release in H |- *; match type of H with context[if ?o then _ else _] => is_var o; destruct o end; simpl in *);
      try (exfalso; eapply X; exact H); try discriminate H; try (injection H; intros; subst; rewrite upd_same; lia).
  Qed.
  Lemma no_stop : forall s l s' t, step_ok k s l = Some s' -> (forall a u o, pc s a <> AEra u o) -> (forall a u, l <> LStop a u) -> th s' <> KStop t :: th s.
  Proof.
    intros s l s' t E NA NL H. assert (X : forall (r : thist) e, r <> e :: r) by (induction r as [|y r IH]; intros e Q; [discriminate|injection Q as Q0 Q; exact (IH _ Q)]).
    destruct l; cases E; simpl in *; try (unfold release in H; match type of H with context[if ?o then _ else _] => is_var o; destruct o end; simpl in H);
      try (eapply X; exact H); try discriminate H; try (eapply NA; eassumption); try (eapply NL; reflexivity).
  Qed.
  Lemma pending : forall n t, pend t (th (tm (st n))) <> None -> (exists c, d t <= now (tm (st c))) -> exists m, n <= m /\ wb (st m) t = false.
  Proof.
    intros n t P (c&C). destruct (pend t (th (tm (st n)))) as [e|] eqn:PE; [|congruence]. clear P.
    assert (De : e = d t) by (eapply (l_st _ _ (j_sli _ _ (ex_j n)) t (d t) e eq_refl), pend_in, PE). subst e.
    destruct (pending_ends k (fun n => tm (st n)) pl ex_tm sf_tm) with (t := t) (e := d t) (n := n) (c := c) as (m&L&[H|H]); auto.
    - intros i. apply (j_dist d dinj), ex_j.
    - intros u i. apply mf_tm.
    - destruct (launched (S m) t) as (h&Lh&W); [|exists h; split; auto; lia]. pose proof (proj2 ex_tm m) as E. cbv beta in E. destruct (pl m) as [l|]; [eapply fire_cb; eauto|].
      exfalso. rewrite E in H. clear -H. revert H. generalize (th (tm (st m))). intros r. assert (X : forall (r : thist) e, r <> e :: r) by (induction r0 as [|y r0 IH]; intros e Q; [discriminate|injection Q as Q0 Q; exact (IH _ Q)]). apply X.
    - exfalso. pose proof (proj2 ex_tm m) as E. cbv beta in E.
      assert (X : forall (r : thist) e, r <> e :: r) by (induction r as [|y r IH]; intros e Q; [discriminate|injection Q as Q0 Q; exact (IH _ Q)]).
      destruct (pl m) as [l|] eqn:PL; [|rewrite E in H; eapply X; exact H]. eapply no_stop; eauto; [exact (j_era _ _ (ex_j m))|].
      intros a u ->. pose proof (proj2 EX m) as E'. unfold pl in PL. destruct (lb m) as [y|]; [|discriminate PL]. destruct y; try discriminate PL. injection PL as ->. discriminate E'.
  Qed.
  (** Started, the resource is taken out of the wait set. *)
  Lemma woken : forall n t, sp (st n) t = SOut -> (exists c, d t <= now (tm (st c))) -> exists m, n <= m /\ wb (st m) t = false.
  Proof.
    intros n t SP C. destruct (wb (st n) t) eqn:W; [|exists n; auto].
    destruct (j_w _ _ (ex_j n) t (or_introl SP) W) as [P|[Q|[(a&o&I)|(a&o&P)]]].
    - now apply pending.
    - now apply launched.
    - destruct (wakes n a t o I) as (m&L&X&_). eauto.
    - destruct (start_ends n a) as (m&L&A&_&E); [congruence|]. rewrite P in A. destruct (pending (S m) t) as (h&Lh&H); auto; [|exists h; split; auto; lia].
      apply sl_tm in E. simpl in E. unfold step_ok, step in E. rewrite A in E. destruct (qfree (tm (st m))); [|discriminate E]. injection E as <-.
      unfold release. destruct o; simpl; rewrite Nat.eqb_refl; discriminate.
  Qed.
  Lemma actor4 : forall l t, slwho l = Some (S (5 * t + 4)) -> (exists a, l = SStart a t) \/ l = SGo t \/ l = SBack t.
  Proof.
    intros l t W. destruct l as [[]|u|a u|u|a u|u]; try discriminate W; try (exfalso; simpl in W; injection W as W; lia); assert (u = t) by (injection W; lia); subst; eauto.
  Qed.
  (** The three steps of the call itself. *)
  Lemma out_back : forall n t, sp (st n) t = SOut -> (exists c, d t <= now (tm (st c))) -> exists m x, n <= m /\ sp (st m) t = SRet /\ back (st m) t = Some x.
  Proof.
    intros n t SP C.
    destruct (comes _ _ _ _ slwho st lb EX SF (fun i => sp (st i) t = SOut) (S (5 * t + 4)) n) as (m&l&L&Pm&El&Wl&E); auto.
    - intros i A X. pose proof (proj2 EX i) as E. rewrite X in E. now rewrite E.
    - intros i l A El E N. rewrite (sp_frame _ _ _ t E); auto. congruence.
    - intros m L A. destruct (woken m t A C) as (h&Lh&W). exists h. split; auto. intros A'. exists (SBack t). eexists. split; [reflexivity|]. simpl. rewrite A', W. reflexivity.
    - exists (S m). destruct (actor4 _ _ Wl) as [(a&->)|[->| ->]]; simpl in E; rewrite Pm in E; try discriminate E. destruct (wb (st m) t); [discriminate E|].
      injection E as <-. simpl. rewrite !upd_same. eexists. repeat split; [lia].
  Qed.
  Lemma starting_out : forall n t a, sp (st n) t = SStarting a -> exists m, n <= m /\ sp (st m) t = SOut.
  Proof.
    intros n t a SP.
    destruct (comes _ _ _ _ slwho st lb EX SF (fun i => sp (st i) t = SStarting a) (S (5 * t + 4)) n) as (m&l&L&Pm&El&Wl&E); auto.
    - intros i A X. pose proof (proj2 EX i) as E. rewrite X in E. now rewrite E.
    - intros i l A El E N. rewrite (sp_frame _ _ _ t E); auto. congruence.
    - intros m L A. assert (PI : exists h, m <= h /\ pc (tm (st h)) a = AIdle).
      { destruct (pc (tm (st m)) a) as [|u o|u o] eqn:PC; [exists m; auto| |].
        all: destruct (start_ends m a) as (h&Lh&B&_&E); [congruence|]; exists (S h); split; [lia|]; apply sl_tm in E; simpl in E; unfold step_ok, step in E;
          rewrite B, PC in E; destruct (qfree (tm (st h))); [|discriminate E]; injection E as <-; unfold release; destruct o; simpl; apply upd_same. }
      destruct PI as (h&Lh&P). exists h. split; auto. intros A'. exists (SGo t). eexists. split; [reflexivity|]. simpl. rewrite A', P. reflexivity.
    - exists (S m). split; [lia|]. destruct (actor4 _ _ Wl) as [(b&->)|[->| ->]]; simpl in E; rewrite Pm in E; try discriminate E.
      destruct (pc (tm (st m)) a); try discriminate E. injection E as <-. simpl. apply upd_same.
  Qed.
  Lemma in_starting : forall n t, sp (st n) t = SIn -> exists m a, n <= m /\ sp (st m) t = SStarting a.
  Proof.
    intros n t SP.
    destruct (comes _ _ _ _ slwho st lb EX SF (fun i => sp (st i) t = SIn) (S (5 * t + 4)) n) as (m&l&L&Pm&El&Wl&E); auto.
    - intros i A X. pose proof (proj2 EX i) as E. rewrite X in E. now rewrite E.
    - intros i l A El E N. rewrite (sp_frame _ _ _ t E); auto. congruence.
    - intros m L _. exists m. split; auto. intros A. destruct (j_new _ _ (ex_j m) t (or_intror A)) as (S0&_&I). destruct (j_fin _ _ (ex_j m)) as [b F]. destruct (F b (Nat.le_refl b)) as [P IN].
      assert (M : mu (tm (st m)) t = None).
      { destruct (mu (tm (st m)) t) as [c|] eqn:M; auto. destruct (ex_ti m) as (TI0&MI0&_).
        destruct (m_held _ MI0 _ _ M) as [(o&[X|X])|(o&X)]; exfalso; [|eapply (j_era _ _ (ex_j m)); eauto|eapply I; eauto]. destruct (i_ins _ TI0 _ _ _ X) as (Y&_). congruence. }
      exists (SStart b t). eexists. split; [reflexivity|]. cbn [slstep]. unfold in_wake, step_ok, step, mine. rewrite A, IN, P, M, S0. reflexivity.
    - exists (S m). destruct (actor4 _ _ Wl) as [(b&->)|[->| ->]]; simpl in E; rewrite Pm in E; try discriminate E. exists b. split; [lia|].
      destruct (in_wake sl (st m) b); [discriminate E|]. destruct (step_ok k (tm (st m)) (LStart b t)); [|discriminate E]. injection E as <-. simpl. apply upd_same.
  Qed.
  Lemma sleep_back : forall n t, sp (st n) t <> SNone -> sp (st n) t <> SRet -> (exists c, d t <= now (tm (st c))) ->
    exists m x, n <= m /\ back (st m) t = Some x /\ d t <= x.
  Proof.
    intros n t N0 N1 C. assert (O : exists m, n <= m /\ sp (st m) t = SOut).
    { destruct (sp (st n) t) as [| |a| |] eqn:S0; try congruence.
      - destruct (in_starting n t S0) as (m&a&L&A). destruct (starting_out m t a A) as (h&Lh&B). exists h. split; auto. lia.
      - exact (starting_out n t a S0).
      - exists n. auto. }
    destruct O as (m&L&O). destruct (out_back m t O C) as (h&x&Lh&_&B). exists h, x. split; [lia|]. split; auto. eapply (l_back _ _ (j_sli _ _ (ex_j h)) t (d t) x eq_refl B).
  Qed.
End SleepFair.
