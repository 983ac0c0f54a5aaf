(** C42, C43, C44: the manager's distribution of coroutines among threads. *)
From Coq Require Import List Arith Bool Lia Permutation.
From Verif Require Import Base MgrSpec MgrModel MgrProofs MgrMove.
Import ListNotations.

(** ** C42 *)
(** The choice is an idle thread, or a least loaded eligible one, or a new one; [l] are the threads in any order, [base] the
    configured number. *)
Theorem best_good : forall l base, good_choice l (get_best l base).
Proof.
  intros l base. destruct (get_best_cases l base) as [(t&G&I&T)|(N&[(G&_)|(t&G&I&T&_&L)])]; rewrite G; simpl; auto.
  split; auto. right. split; auto. split; [now apply elig_iff|]. intros u U E. apply L; auto. now apply elig_iff.
Qed.
Print Assumptions best_good.
(** If a thread is idle, an idle one is chosen. *)
Theorem best_idle : forall l base u, In u l -> tst u = MIdle -> exists t, get_best l base = Old t /\ In t l /\ tst t = MIdle.
Proof.
  intros l base u U X. destruct (get_best_cases l base) as [H|(N&_)]; auto. destruct (N u U X).
Qed.
Print Assumptions best_idle.
(** A new thread is made only if no thread is idle and the eligible ones are none or fewer than configured. *)
Theorem best_new : forall l base, get_best l base = New ->
  (forall u, In u l -> tst u <> MIdle) /\ forall q, NoDup q -> (forall u, In u q -> In u l /\ eligible u) -> q = [] \/ length q < base.
Proof.
  intros l base G. destruct (get_best_cases l base) as [(t&H&_)|(N&[(_&C)|(t&H&_)])]; try congruence. split; auto.
  intros q D Q. assert (L : length q <= length (filter elig l)).
  { apply NoDup_incl_length; auto. intros u U. apply filter_In. destruct (Q u U) as [A B]. split; auto. now apply elig_iff. }
  destruct C as [C|C]; [left|right; lia]. destruct q; auto. simpl in L. lia.
Qed.
Print Assumptions best_new.

(** Refuted: an idle thread marked exclusive is given the coroutine. *)
Theorem best_exclusive_refuted : exists l base t, get_best l base = Old t /\ texcl t = true.
Proof. exists [mkT 0 MIdle true false false false false []], 1. eexists. split; reflexivity. Qed.
Print Assumptions best_exclusive_refuted.
(** It is never given an exclusive thread that is not idle.  What is missing is the case of idle exclusive threads, in which it
    is false. *)
Theorem best_exclusive_partial : forall l base t, get_best l base = Old t -> texcl t = true -> tst t = MIdle.
Proof.
  intros l base t G X. destruct (get_best_cases l base) as [(u&H&I&T)|(N&[(H&_)|(u&H&I&T&_)])]; rewrite G in H; try discriminate.
  - now injection H as <-.
  - injection H as <-. apply elig_iff in T as [_ T]. congruence.
Qed.
Print Assumptions best_exclusive_partial.

Definition busy_thr (i : nat) (x : bool) (n : nat) : thr := mkT i MBusy x false false false true (repeat (0, true) n).
Example best_ex : get_best [busy_thr 1 false 5; busy_thr 2 true 0; busy_thr 3 false 2; mkT 4 MBlocked false false false false false []; busy_thr 5 false 2] 3
  = Old (busy_thr 3 false 2).
Proof. reflexivity. Qed.
Example best_new_ex : get_best [busy_thr 1 false 5; busy_thr 2 true 0] 2 = New.
Proof. reflexivity. Qed.
Example best_idle_ex : get_best [busy_thr 1 false 0; mkT 2 MIdle false false false false false [(7, false)]] 9
  = Old (mkT 2 MIdle false false false false false [(7, false)]).
Proof. reflexivity. Qed.

(** ** C43 *)
Lemma thr_dec : forall a b : thr, {a = b} + {a <> b}.
Proof. repeat decide equality. Qed.
Lemma list_filter : forall (f : thr -> bool) l w, NoDup l -> NoDup w -> (forall t, In t w <-> In t l /\ f t = true) -> length w = length (filter f l).
Proof.
  intros f l w D W H. apply Nat.le_antisymm; apply NoDup_incl_length; auto using NoDup_filter; intros t I.
  - apply filter_In, H, I.
  - apply H. now apply filter_In in I.
Qed.
(** [w]: the usable threads; [r]: the reclaimable ones.  Only reclaimable threads are stopped, each once, and as many as there
    are, but no more than the usable ones exceed [max]; so the usable ones that remain are at least [max] if they were. *)
Theorem reclaim_selects : forall l max w r, NoDup l -> NoDup w -> (forall t, In t w <-> In t l /\ usable t) ->
  NoDup r -> (forall t, In t r <-> In t l /\ reclaimable t) ->
  NoDup (victims l max) /\ (forall t, In t (victims l max) -> In t l /\ reclaimable t) /\
  length (victims l max) = min (length r) (length w - max) /\
  forall u, NoDup u -> (forall t, In t u <-> In t w /\ ~ In t (victims l max)) -> min max (length w) <= length u.
Proof.
  intros l max w r D DW W DR RR. rewrite victims_eq.
  rewrite <- (list_filter can_sched l w) by (auto; intros t; rewrite W, can_sched_iff; tauto). set (m := length w - max).
  assert (LR : length r = length (filter cand l)) by (apply list_filter; auto; intros t; rewrite RR, cand_iff; tauto).
  assert (DV : NoDup (firstn m (filter cand l))).
  { pose proof (NoDup_filter cand D) as X. clearbody m. revert X. generalize (filter cand l) as q. clear. intros q. revert m.
    induction q as [|a q IH]; intros m X; [destruct m; constructor|].
    destruct m; simpl; [constructor|]. inversion X as [|? ? N X']; subst. constructor; [|now apply IH]. intros Y. apply in_firstn in Y. contradiction. }
  assert (LV : length (firstn m (filter cand l)) = min (length r) m) by (rewrite firstn_length; lia).
  split; auto. split; [|split; auto].
  - intros t I. apply in_firstn, filter_In in I as [I C]. split; auto. now apply cand_iff.
  - intros u DU U. assert (L : length w <= length (firstn m (filter cand l) ++ u)).
    { apply NoDup_incl_length; auto. intros t I.
      destruct (in_dec thr_dec t (firstn m (filter cand l))) as [Y|Y]; apply in_or_app; auto. right. apply U. auto. }
    rewrite app_length in L. lia.
Qed.
Print Assumptions reclaim_selects.
Example reclaim_selects_ex : map tid (victims [new_env 1; busy_thr 2 false 1; new_env 3; mkT 4 MIdle false false false true false []; new_env 5] 3) = [1; 3].
Proof. reflexivity. Qed.

Definition e_new (e : nat) : thr := new_env e.
Lemma e_new_ok : start_ok e_new.
Proof. intros e. repeat split; try discriminate. Qed.

(** Refuted: the thread chosen for a new coroutine is reclaimed before the coroutine is added; the creation fails. *)
Theorem reclaim_create_refuted : exists e0 n ls s, start_ok e0 /\ run (mstep_ok 1 1) (minit e0 n) ls = Some s /\ In (XThrow 0 7) (xh s).
Proof.
  exists e_new, 2, [MBest 0 7; MSel; MStop; MRel; MCheck 0]. eexists. split; [exact e_new_ok|]. split; [vm_compute; reflexivity|]. left. reflexivity.
Qed.
Print Assumptions reclaim_create_refuted.
(** Refuted: the coroutine is added after the thread was found empty; the creation returns and the coroutine is destroyed without
    having run. *)
Theorem reclaim_lost_refuted : exists e0 n ls s, start_ok e0 /\ run (mstep_ok 1 1) (minit e0 n) ls = Some s /\
  In (XMade 0 7) (xh s) /\ In (XLost 0 7) (xh s) /\ forall e, ~ In (XRun e 7) (xh s).
Proof.
  exists e_new, 2, [MBest 0 7; MSel; MCheck 0; MPush 0; MStop; MRel; MLeave 0; MClear 0 7]. eexists. split; [exact e_new_ok|].
  split; [vm_compute; reflexivity|]. split; [right; right; left; reflexivity|]. split; [left; reflexivity|].
  intros e H. cbn in H. intuition discriminate.
Qed.
Print Assumptions reclaim_lost_refuted.
(** Refuted: the thread is reclaimed and deleted; the creation uses it. *)
Theorem reclaim_use_refuted : exists e0 n ls s, start_ok e0 /\ run (mstep_ok 1 1) (minit e0 n) ls = Some s /\ mstep 1 1 s (MCheck 0) = Some MUse.
Proof.
  exists e_new, 2, [MBest 0 7; MSel; MStop; MRel; MLeave 0; MExpire 0]. eexists. split; [exact e_new_ok|]. split; [vm_compute; reflexivity|]. reflexivity.
Qed.
Print Assumptions reclaim_use_refuted.

Lemma mstep_hist : forall base max s l s', mstep_ok base max s l = Some s' -> xh s' = xh s \/ exists x, xh s' = x :: xh s.
Proof.
  intros base max s l s' E. unfold mstep_ok, mstep in E. destruct l;
  repeat (match type of E with context [match ?x with _ => _ end] =>
    lazymatch x with context [match _ with _ => _ end] => fail | _ => idtac end; destruct x; try discriminate E end);
  injection E as <-; simpl; eauto.
Qed.
Lemma mhist_split : forall base max e0 n ls s, run (mstep_ok base max) (minit e0 n) ls = Some s -> forall post x pre, xh s = post ++ x :: pre ->
  exists ls1 l s1 s2, run (mstep_ok base max) (minit e0 n) ls1 = Some s1 /\ mstep_ok base max s1 l = Some s2 /\ xh s1 = pre /\ xh s2 = x :: pre.
Proof.
  intros base max e0 n ls. induction ls as [|l ls IH] using rev_ind; intros s R post x pre E.
  - injection R as <-. now destruct post.
  - rewrite run_app in R. destruct (run (mstep_ok base max) (minit e0 n) ls) as [s0|] eqn:R0; [|discriminate]. simpl in R.
    destruct (mstep_ok base max s0 l) as [s1|] eqn:S1; [|discriminate]. injection R as <-.
    destruct (mstep_hist _ _ _ _ _ S1) as [Y|[y Y]]; rewrite Y in E; [eapply IH; eauto|].
    destruct post as [|z post]; injection E as -> E; [|eapply IH; eauto]. subst pre. exists ls, l, s0, s1. auto.
Qed.

(** Coroutine c has been run, destroyed unrun, or is still with thread e. *)
Definition accounted (s : mst) (post : xhist) (e c : nat) : Prop :=
  In (XRun e c) post \/ In (XLost e c) post \/ In c (map fst (tctx (ev s e))).
Lemma set_st_ctx : forall t x, tctx (set_st t x) = tctx t.
Proof. intros t x. unfold set_st. destruct (tst t); reflexivity. Qed.
Lemma rmc_other : forall c d q, c <> d -> In d (map fst q) -> In d (map fst (rmc c q)).
Proof.
  intros c d q N I. apply in_map_iff in I as ((x&b)&E&I). simpl in E. subst x. apply in_map_iff. exists (d, b). split; auto.
  apply filter_In. split; auto. simpl. apply negb_true_iff, Nat.eqb_neq. auto.
Qed.
Lemma accounted_step : forall base max s l s', MI s -> mstep_ok base max s l = Some s' -> forall e c post, accounted s post e c ->
  exists n, xh s' = n ++ xh s /\ accounted s' (n ++ post) e c.
Proof.
  intros base max s l s' V E e c post A.
  assert (K : forall n, xh s' = n ++ xh s -> (In c (map fst (tctx (ev s e))) -> In (XRun e c) n \/ In (XLost e c) n \/ In c (map fst (tctx (ev s' e)))) ->
    exists n, xh s' = n ++ xh s /\ accounted s' (n ++ post) e c).
  { intros n Hn C. exists n. split; auto. destruct A as [A|[A|A]]; [left; apply in_or_app; auto|right; left; apply in_or_app; auto|].
    destruct (C A) as [X|[X|X]]; [left; apply in_or_app; auto|right; left; apply in_or_app; auto|right; right; auto]. }
  assert (U : forall e1 t, tctx t = tctx (ev s e1) -> In c (map fst (tctx (ev s e))) -> In c (map fst (tctx (upd (ev s) e1 t e)))).
  { intros e1 t T I. unfold upd. destruct (Nat.eqb_spec e e1) as [->|]; [now rewrite T|auto]. }
  unfold mstep_ok, mstep in E. destruct l;
    repeat (match type of E with context [match ?x with _ => _ end] =>
      lazymatch x with context [match _ with _ => _ end] => fail | _ => idtac end; destruct x eqn:?; try discriminate E end);
    injection E as <-; cbn [xh xlog setcrt setev setmon ev] in K |- *;
    try (apply (K []); [reflexivity|intros I; right; right; cbn; auto]; fail);
    try (eapply (K [_]); [reflexivity|intros I; right; right; cbn; auto]; fail);
    try (first [apply (K [])|eapply (K [_])]; [reflexivity|intros I; right; right; cbn; apply U; [apply set_st_ctx|auto]]; fail).
  - eapply (K [_]); [reflexivity|]. intros I. right. right. cbn. unfold upd. destruct (Nat.eqb_spec e (nxt s)) as [->|]; [|auto].
    destruct (m_nil _ V _ (le_n _)) as (X&_). rewrite X in I. destruct I.
  - eapply (K [_]); [reflexivity|]. intros I. right. right. cbn. unfold upd. destruct (Nat.eqb_spec e e0) as [->|]; [|auto].
    rewrite set_st_ctx. cbn. rewrite map_app. apply in_or_app. auto.
  - eapply (K [_]); [reflexivity|]. intros I. right. right. cbn [ev setmon xlog setev]. apply U; [apply set_st_ctx|exact I].
  - eapply (K [_]); [reflexivity|]. intros I. destruct (Nat.eq_dec e0 e) as [->|N].
    + destruct (Nat.eq_dec c0 c) as [->|N]; [left; now left|]. right. right. cbn. rewrite upd_same. cbn. now apply rmc_other.
    + right. right. cbn. rewrite upd_other; auto.
  - eapply (K [_]); [reflexivity|]. intros I. destruct (Nat.eq_dec e0 e) as [->|N].
    + destruct (Nat.eq_dec c0 c) as [->|N]; [right; left; now left|]. right. right. cbn. rewrite upd_same. cbn. now apply rmc_other.
    + right. right. cbn. rewrite upd_other; auto.
Qed.
Lemma accounted_run : forall base max e0 n ls s, start_ok e0 -> run (mstep_ok base max) (minit e0 n) ls = Some s ->
  forall post k c pre, xh s = post ++ XMade k c :: pre -> exists e, chosen k pre = Some (c, e) /\ accounted s post e c.
Proof.
  intros base max e0 n ls. induction ls as [|l ls IH] using rev_ind; intros s S R post k c pre E.
  - injection R as <-. now destruct post.
  - rewrite run_app in R. destruct (run (mstep_ok base max) (minit e0 n) ls) as [s0|] eqn:R0; [|discriminate]. simpl in R.
    destruct (mstep_ok base max s0 l) as [s1|] eqn:S1; [|discriminate]. injection R as <-.
    pose proof (mi_run _ _ _ _ _ _ S R0) as V.
    assert (Old : forall post0, xh s0 = post0 ++ XMade k c :: pre -> exists e, chosen k pre = Some (c, e) /\ accounted s1 post e c).
    { intros post0 E0. destruct (IH _ S eq_refl _ _ _ _ E0) as (e&C&A). exists e. split; auto.
      destruct (accounted_step _ _ _ _ _ V S1 _ _ _ A) as (m&Hm&A'). rewrite Hm, E0, app_assoc in E. apply app_inv_tail in E. now rewrite <- E. }
    destruct (mstep_hist _ _ _ _ _ S1) as [Y|[y Y]].
    + rewrite Y in E. eauto.
    + destruct post as [|z post].
      * rewrite Y in E. injection E as -> E. subst pre. clear Old IH.
        unfold mstep_ok, mstep in S1. destruct l;
          repeat (match type of S1 with context [match ?x with _ => _ end] =>
            lazymatch x with context [match _ with _ => _ end] => fail | _ => idtac end; destruct x eqn:?; try discriminate S1 end);
          injection S1 as <-; cbn in Y; try discriminate; try (apply (f_equal (@length xev)) in Y; simpl in Y; lia).
        injection Y as -> ->. exists e. destruct (m_cho _ V k c e) as (A&_); [right; auto|]. split; auto. right. right. cbn. rewrite upd_same, set_st_ctx. cbn.
        rewrite map_app. apply in_or_app. right. now left.
      * rewrite Y in E. injection E as _ E. eauto.
Qed.

(** Creations are disturbed only by a reclamation in between.  A creation fails only if its thread was told to end after it was
    chosen; a coroutine is destroyed unrun only if its thread was told to end after it was chosen for it; a deleted thread is
    used only by a creation of which the same holds; a coroutine whose creation returned is run, destroyed unrun, or still with
    its thread.  What is missing is that no reclamation comes in between, which is false. *)
Theorem reclaim_create_partial : forall base max e0 n ls s, start_ok e0 -> run (mstep_ok base max) (minit e0 n) ls = Some s ->
  (forall post k c pre, xh s = post ++ XThrow k c :: pre -> exists e, chosen k pre = Some (c, e) /\ stopped_since k e pre = true) /\
  (forall post e c pre, xh s = post ++ XLost e c :: pre -> exists k a b, pre = a ++ XStop e :: b /\ In (XBest k c e) b) /\
  (forall l, mstep base max s l = Some MUse -> exists k c e, chosen k (xh s) = Some (c, e) /\ stopped_since k e (xh s) = true) /\
  (forall post k c pre, xh s = post ++ XMade k c :: pre -> exists e, chosen k pre = Some (c, e) /\ accounted s post e c).
Proof.
  intros base max e0 n ls s S R. split; [|split; [|split; [|now apply (accounted_run base max e0 n ls)]]].
  - intros post k c pre E. destruct (mhist_split _ _ _ _ _ _ R _ _ _ E) as (ls1&l&s1&s2&R1&E1&H1&H2).
    pose proof (mi_run _ _ _ _ _ _ S R1) as V. rewrite <- H1 in *. clear H1.
    assert (X : exists e, crt s1 k = KGot c e /\ (tst (ev s1 e) = MCreated \/ tst (ev s1 e) = MDestroying)).
    { unfold mstep_ok, mstep in E1. destruct l;
      repeat (match type of E1 with context [match ?x with _ => _ end] =>
        lazymatch x with context [match _ with _ => _ end] => fail | _ => idtac end; destruct x eqn:?; try discriminate E1 end);
      injection E1 as <-; simpl in H2; try discriminate; try (apply (f_equal (@length xev)) in H2; simpl in H2; lia);
      injection H2 as <- <-; eauto. }
    destruct X as (e&K&T). exists e. destruct (m_cho _ V k c e) as (A&B&C); [left; auto|]. split; auto. destruct T; [contradiction|auto].
  - intros post e c pre E. destruct (mhist_split _ _ _ _ _ _ R _ _ _ E) as (ls1&l&s1&s2&R1&E1&H1&H2).
    pose proof (mi_run _ _ _ _ _ _ S R1) as V. rewrite <- H1 in *. clear H1.
    assert (X : outp s1 e = true /\ exists b, In (c, b) (tctx (ev s1 e))).
    { unfold mstep_ok, mstep in E1. destruct l;
      repeat (match type of E1 with context [match ?x with _ => _ end] =>
        lazymatch x with context [match _ with _ => _ end] => fail | _ => idtac end; destruct x eqn:?; try discriminate E1 end);
      injection E1 as <-; simpl in H2; try discriminate; try (apply (f_equal (@length xev)) in H2; simpl in H2; lia);
      injection H2 as <- <-.
      match goal with HB : _ && _ && _ = true |- _ => apply andb_true_iff in HB as [HB _]; apply andb_true_iff in HB as [HB1 HB2] end. split; auto.
      apply existsb_exists in HB1 as ((d&b)&I&Q). apply Nat.eqb_eq in Q. simpl in Q. subst d. eauto. }
    destruct X as (O&b&I). destruct (m_ctx _ V _ _ _ I) as (k&_&D). destruct (D (m_sta _ V _ O)) as (a&r&H&J). exists k, a, r. auto.
  - intros l E. pose proof (mi_run _ _ _ _ _ _ S R) as V.
    assert (X : exists k c e, held (crt s k) c e /\ gone s e = true).
    { unfold mstep in E. destruct l;
      repeat (match type of E with context [match ?x with _ => _ end] =>
        lazymatch x with context [match _ with _ => _ end] => fail | _ => idtac end; destruct x eqn:?; try discriminate E end);
      exists k; do 2 eexists; (split; [|eassumption]); unfold held; eauto. }
    destruct X as (k&c&e&K&G). exists k, c, e. destruct (m_cho _ V _ _ _ K) as (A&B&_). split; auto. apply B. apply (m_sta _ V). now apply (m_gone _ V).
Qed.
Print Assumptions reclaim_create_partial.

(** A creation that is not disturbed: the surplus thread is reclaimed after the coroutine has been added elsewhere and run. *)
Example reclaim_create_ex : exists s, run (mstep_ok 1 1) (minit e_new 2)
    [MBest 0 7; MCheck 0; MPush 0; MSel; MStop; MRel; MRun 0 7; MGoIdle 0; MLeave 1; MExpire 1] = Some s /\
  xh s = [XRun 0 7; XStop 1; XMade 0 7; XBest 0 7 0] /\ nrm s = [0].
Proof. eexists. split; [vm_compute; reflexivity|]. split; reflexivity. Qed.

(** ** C44 *)
(** Neither routine moves anything, whatever the threads, the outcomes of the attempts to lock and the other threads' part in the
    counts: each of them takes the schedule lock and then requires that nobody, itself included, holds it. *)
Theorem steal_never : forall lk oth l, steal lk oth l = l.
Proof. intros. unfold steal, steal_own. now rewrite steal_loop_id. Qed.
Print Assumptions steal_never.
Theorem redistribute_never : forall lk oth base nid l, redistribute lk oth base nid l = l.
Proof. intros. unfold redistribute, redistribute_own. now rewrite redist_loop_id. Qed.
Print Assumptions redistribute_never.

(** Refuted: an idle thread, another with a movable coroutine, all locks free, and nothing is stolen. *)
Theorem steal_refuted : exists l i j c, In i l /\ In j l /\ tst i = MIdle /\ texcl i = false /\ tst j = MBusy /\ In (c, true) (tctx j) /\
  forall lk oth, In j (steal lk oth l).
Proof.
  exists [mkT 0 MIdle false false false false false []; mkT 1 MBusy false false false false true [(5, true); (6, true)]].
  do 2 eexists. exists 6. split; [left; reflexivity|]. split; [right; left; reflexivity|]. repeat split; auto.
  - simpl. auto.
  - intros. rewrite steal_never. simpl. auto.
Qed.
Print Assumptions steal_refuted.
(** Refuted: a thread that hangs in a system call keeps its coroutines. *)
Theorem redistribute_refuted : exists l j c, In j l /\ hung j /\ In (c, true) (tctx j) /\ forall lk oth base nid, In j (redistribute lk oth base nid l).
Proof.
  exists [mkT 0 MIdle false false false false false []; mkT 1 MBusy false false false false false [(5, false); (6, true)]].
  eexists. exists 6. split; [right; left; reflexivity|]. split; [split; auto|]. split; [simpl; auto|]. intros. rewrite redistribute_never. simpl. auto.
Qed.
Print Assumptions redistribute_refuted.

(** The moving itself is right, for every way the routine may count in its own lock (the code: 1; if it did not count its own,
    0): no coroutine is lost, made or copied, those that must stay stay, only idle threads that are not exclusive gain, and
    threads that are locked are left alone.  What is missing is that anything is moved. *)
Theorem steal_conserves_partial : forall own lk oth l, NoDup (map tid l) ->
  Forall2 (stealing_ok (fun i => lk i = true /\ own + oth i = 0)) l (steal_own own lk oth l) /\
  Permutation (all_ctx (steal_own own lk oth l)) (all_ctx l).
Proof. exact steal_own_ok. Qed.
Print Assumptions steal_conserves_partial.
Example steal_conserves_ex :
  let l := [mkT 0 MBusy false false false false true [(4, false); (5, true); (6, true)]; mkT 1 MIdle false false false false false []] in
  NoDup (map tid l) /\
  steal_own 0 (fun _ => true) (fun _ => 0) l =
    [mkT 0 MBusy false false false false true [(4, false); (6, true)]; mkT 1 MBusy false false false false false [(5, true)]].
Proof. split; [repeat constructor; simpl; intuition discriminate|reflexivity]. Qed.

(** Redistribution: the same; coroutines leave only threads that hang, which are then marked blocked, and go to threads that
    were idle or eligible, or to new ones. *)
Theorem redistribute_conserves_partial : forall own lk oth base nid l, NoDup (map tid l) -> (forall t, In t l -> tid t < nid) ->
  exists a b, redistribute_own own lk oth base nid l = a ++ b /\
    Forall2 (sharing_ok (fun i => lk i = true /\ own + oth i = 0)) l a /\ Forall (made_ok nid) b /\
    NoDup (map tid (a ++ b)) /\ Permutation (all_ctx (a ++ b)) (all_ctx l).
Proof. exact redistribute_own_ok. Qed.
Print Assumptions redistribute_conserves_partial.
Example redistribute_conserves_ex :
  let l := [mkT 0 MBusy false false false false false [(4, false); (5, true); (6, true)]; mkT 1 MBusy true false false false true [(7, true)]] in
  NoDup (map tid l) /\ (forall t, In t l -> tid t < 2) /\
  redistribute_own 0 (fun _ => true) (fun _ => 0) 1 2 l =
    [mkT 0 MBlocked false false false false false [(4, false)]; mkT 1 MBusy true false false false false [(7, true)];
     mkT 2 MBusy false false false false false [(5, true); (6, true)]].
Proof.
  split; [repeat constructor; simpl; intuition discriminate|]. split; [|reflexivity].
  intros t [<-|[<-|[]]]; simpl; lia.
Qed.

(** The look at the end of redistribution: a thread that did not hang has its mark renewed, so that it is taken as hanging next
    time if it makes no scheduling decision until then. *)
Theorem redistribute_resets_partial : forall own lk oth l l' mv, redist_loop own lk oth l = (l', mv) ->
  Forall2 (fun t u => tswd u = if lk (tid t) && (own + oth (tid t) =? 0) then false else tswd t) l l'.
Proof.
  intros own lk oth l. induction l as [|t l IH]; intros l' mv E; simpl in E; [injection E as <- <-; constructor|].
  destruct (redist_loop own lk oth l) as [r' mv0] eqn:R. specialize (IH r' mv0 eq_refl). unfold can_force in E.
  destruct (lk (tid t)) eqn:K; simpl in E; [|injection E as <- <-; constructor; auto; now rewrite K].
  destruct (own + oth (tid t) =? 0) eqn:C; simpl in E; [|injection E as <- <-; constructor; auto; now rewrite K, C].
  destruct (is_blocked t); injection E as <- <-; constructor; auto; now rewrite K, C.
Qed.
Print Assumptions redistribute_resets_partial.

(** A thread made for a coroutine can be given coroutines and can be reclaimed. *)
Theorem new_env_ok : forall i, eligible (new_env i) /\ reclaimable (new_env i) /\ tid (new_env i) = i.
Proof. intros i. repeat split; simpl; congruence. Qed.
Print Assumptions new_env_ok.
