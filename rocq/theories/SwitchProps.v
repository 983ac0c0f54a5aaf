(** Properties of the scheduling loop: C45, C46, C72, and parts of C35, C54 and C59.

    [wstep] takes every step of the model; [wstep_q] only those executions in which a signal finds the thread in code of the
    user (or in the loop of the idle context with nothing pending); [wstep_c] those without signals. *)
From Coq Require Import List Arith Bool Lia.
From Verif Require Import Base SwitchSpec SwitchModel SwitchProofs.
Import ListNotations.

(** No coroutine has a shared stack; only coroutine 1 has. *)
Definition nosh (c : nat) : bool := false.
Definition sh1 (c : nat) : bool := c =? 1.

(** ** The life of a coroutine on its thread (C35, C59) *)
(** Every event has the past it must have: in particular a coroutine never runs after its end or its destruction, and is
    destroyed only once, after its end, with no handle left, and not while it runs. *)
Theorem turn_order_partial : forall sh ls s, run (wstep_q sh) winit ls = Some s ->
  forall post e pre, whist s = post ++ e :: pre -> event_ok e pre.
Proof. intros sh ls s R. apply (h_ok _ (proj2 (si_hi_run sh ls s R))). Qed.
Print Assumptions turn_order_partial.
(** Two coroutines take turns, one is preempted, ends and is destroyed. *)
Definition life : list wlab :=
  [LCreate 1; LCreate 2; LYield 1; LGo; LTick; LTick; LSignal 2; LYield 1; LGo; LDetach 1; LFinish; LYield 2; LGo; LPost; LYield 2].
Example turn_order_ex : option_map whist (run (wstep_q nosh) winit life) =
  Some [WReap 1; WShrink 1 Own; WRun 2; WSwitch 1 2; WFin 1; WDet 1; WRun 1; WSwitch 2 1; WRun 2; WSig 1; WRun 1; WSwitch 0 1; WNew 2; WNew 1].
Proof. vm_compute. reflexivity. Qed.

(** ** C46: destroyed coroutines are touched *)
(** A detached coroutine ends, the next one starts, yields and is chosen again: schedule_switch destroys the first one and
    then shrinks its stack through pre_ctx, which the code at the start of a coroutine never clears. *)
Theorem switch_freed_refuted : exists ls s l p, run (wstep_c nosh) winit ls = Some s /\ wstep_res nosh s l = Some (WFreed p).
Proof.
  exists [LCreate 1; LYield 1; LGo; LCreate 2; LDetach 1; LFinish; LYield 2; LGo]. eexists. exists (LYield 2), 1.
  split; [vm_compute; reflexivity|]. vm_compute. reflexivity.
Qed.
Print Assumptions switch_freed_refuted.
(** A detached coroutine with a shared stack ends: the idle context destroys it before it saves its stack. *)
Theorem switch_shared_freed_refuted : exists ls s l p, run (wstep_c sh1) winit ls = Some s /\ wstep_res sh1 s l = Some (WFreed p) /\
  info s = Some (p, 2).
Proof.
  exists [LCreate 1; LYield 1; LYield 0; LGo; LDetach 1; LCreate 2; LFinish; LYield 2; LGo; LPost]. eexists. exists (LYield 0), 1.
  split; [vm_compute; reflexivity|]. split; vm_compute; reflexivity.
Qed.
Print Assumptions switch_shared_freed_refuted.
(** These are the only ways without signals: the coroutine touched has ended and has no handle, and either a coroutine that it
    switched to is still on its first turn, or it is the one that a switch with shared stacks is to leave. *)
Theorem switch_freed_partial : forall sh ls s l p, run (wstep_c sh) winit ls = Some s -> coop l = true ->
  wstep_res sh s l = Some (WFreed p) ->
  In (WFin p) (whist s) /\ In (WDet p) (whist s) /\
  ((exists c, c <> 0 /\ first_turn c (whist s) /\ In (WSwitch p c) (whist s)) \/
   (exists t, info s = Some (p, t) /\ own (now s) = 0 /\ sh p || sh t = true)).
Proof.
  intros sh ls s l p R C W. destruct (ci_run sh ls s R) as (A&B&D). exact (wstep_c_CI sh s l (WFreed p) A B D C W).
Qed.
Print Assumptions switch_freed_partial.
(** Hence nothing destroyed is touched as long as every coroutine has been continued at least once before a coroutine that
    switched to it ends detached, and shared stacks are not used; for instance here, where coroutine 2 has had two turns. *)
Example switch_freed_ex : exists s, run (wstep_c nosh) winit
    [LCreate 1; LCreate 2; LYield 2; LGo; LYield 1; LGo; LYield 2; LGo; LPost; LYield 1; LGo; LPost; LDetach 1; LFinish; LYield 2; LGo; LPost; LYield 2] = Some s /\
  freed s 1 = true /\ turns 2 (whist s) = 3.
Proof. eexists. split; [vm_compute; reflexivity|]. split; vm_compute; reflexivity. Qed.

(** ** C54: a stack is shrunk only while its contents are where the saved stack pointer says *)
Theorem switch_shrink : forall sh ls s, sh 0 = false -> run (wstep_c sh) winit ls = Some s ->
  forall p l, In (WShrink p l) (whist s) -> l = (if sh p then OnShared else Own).
Proof. intros sh ls s Z R p l I. exact (p_hist _ _ (pi_run sh ls s Z R) _ I). Qed.
Print Assumptions switch_shrink.
Example switch_shrink_ex : option_map (fun s => filter (fun e => match e with WShrink _ _ => true | _ => false end) (whist s))
    (run (wstep_c sh1) winit [LCreate 1; LYield 1; LYield 0; LGo; LWait; LYield 0; LUnwait 1; LWake; LGo; LPost; LYield 0; LGo; LPost;
                              LYield 1; LYield 0; LGo; LPost]) =
  Some [WShrink 0 Own; WShrink 0 Own; WShrink 0 Own; WShrink 1 OnShared].
Proof. vm_compute. reflexivity. Qed.

(** ** C45: preemption stops for good once a coroutine has ended *)
(** The guard of real_entry (co_ctx.cpp 75) is never released, so after the first end of a coroutine on the thread every
    signal leaves the thread where it is, whatever else happens. *)
Theorem forced_never : forall sh ls s n s', run (wstep_q sh) winit ls = Some s -> (exists c, In (WFin c) (whist s)) ->
  wstep sh s (LSignal n) = Some s' -> now s' = now s /\ curr s' = curr s.
Proof.
  intros sh ls s n s' R (c&F) E. destruct (ki_run sh ls s R) as [_ K]. destruct (shg_le s K) as [_ L].
  assert (G : 1 <= fins (whist s)).
  { unfold fins. clear - F. induction (whist s) as [|e h IH]; [destruct F|]. destruct F as [->|F]; simpl; [lia|].
    destruct (is_fin e); simpl; [lia|auto]. }
  unfold wstep, wstep_res, signal in E. destruct (pend s); [|discriminate]. simpl in E.
  destruct (Nat.eqb_spec (cnt s) 0) as [Z|Z]; [lia|]. simpl in E. destruct (n =? 0); [|discriminate]. injection E as <-. auto.
Qed.
Print Assumptions forced_never.
(** So a coroutine that loops keeps the thread: coroutine 1 has ended, 2 loops, 3 could run, the monitor has sent its signal,
    and no sequence of periods and signals takes the thread away from 2. *)
Definition idle_lab (l : wlab) : bool := match l with LTick | LSignal _ => true | _ => false end.
Theorem forced_refuted : exists ls s, run (wstep_q nosh) winit ls = Some s /\ own (now s) = 2 /\ at_ (now s) = PUser /\
  pend s = true /\ In 3 (queue s) /\ can s 3 = true /\ gds s 2 = 0 /\
  forall ls' s', forallb idle_lab ls' = true -> run (wstep nosh) s ls' = Some s' -> now s' = now s.
Proof.
  exists [LCreate 1; LCreate 2; LCreate 3; LYield 1; LGo; LFinish; LYield 2; LGo; LTick; LTick]. eexists.
  split; [vm_compute; reflexivity|]. repeat (split; [vm_compute; auto; fail|]).
  intros ls'. match goal with |- forall s', _ -> run _ ?x _ = _ -> _ => set (s0 := x) end.
  assert (G : forall ls s s', forallb idle_lab ls = true -> 1 <= cnt s -> run (wstep nosh) s ls = Some s' -> now s' = now s).
  { clear. induction ls as [|l ls IH]; intros s s' A C R; simpl in R; [injection R as <-; auto|].
    simpl in A. apply andb_true_iff in A as [A1 A2]. destruct (wstep nosh s l) as [s1|] eqn:W; [|discriminate].
    assert (X : now s1 = now s /\ cnt s1 = cnt s).
    { unfold wstep in W. destruct l; try discriminate; simpl in W.
      - destruct (busy s && _ && _); injection W as <-; auto.
      - unfold signal in W. destruct (pend s); [|discriminate]. simpl in W. destruct (Nat.eqb_spec (cnt s) 0); [lia|]. simpl in W.
        destruct (n =? 0); [|discriminate]. injection W as <-. auto. }
    destruct X as [X1 X2]. rewrite <- X1. apply IH; auto. lia. }
  intros s' A R. apply (G ls' s0 s'); auto.
Qed.
Print Assumptions forced_refuted.
(** Who yields in time is left alone: if a scheduling decision was made on the thread (by a yield, or by a forced switch) and
    the monitor has not looked since, its next look asks for no switch. *)
Theorem unforced_partial : forall sh s n l s1 ls s2 s3, (l = LYield n /\ info s = None) \/ (l = LSignal n /\ cnt s = 0) ->
  wstep sh s l = Some s1 -> run (wstep sh) s1 ls = Some s2 -> ~ In LTick ls -> wstep sh s2 LTick = Some s3 -> pend s3 = pend s2.
Proof.
  intros sh s n l s1 ls s2 s3 L E R N T.
  assert (A : sflag s1 = true).
  { unfold wstep, wstep_res in E. destruct L as [[-> I]|[-> C]].
    - assert (Y : match yield sh s n with Some (WOk s') => Some s' | _ => None end = Some s1)
        by (destruct (at_ (now s)); try discriminate; exact E).
      clear E. unfold yield in Y. rewrite I in Y.
      assert (I' : info (reap (if own (now s) =? 0 then set_busy false s else s)) = None) by (destruct (own (now s) =? 0); exact I).
      rewrite I' in Y. set (x := reap _) in *. destruct (negb (pick x n)); [discriminate|]. destruct (n =? 0) eqn:Z.
      + injection Y as <-. reflexivity.
      + unfold finish_prepare, prepare in Y. destruct (freed (chosen n x) (curr x)); [discriminate|].
        unfold tail in Y.
        repeat match type of Y with context [if ?b then _ else _] => destruct b; try discriminate
               | context [match pre ?a ?c with _ => _ end] => destruct (pre a c); try discriminate end;
        injection Y as <-; unfold chosen; destruct (n =? 0); reflexivity.
    - unfold signal, prepare in E. rewrite C in E. cbn [Nat.eqb negb] in E.
      repeat match type of E with context [if ?b then _ else _] => destruct b; try discriminate end;
      injection E as <-; unfold chosen; destruct (n =? 0); reflexivity. }
  assert (B : sflag s2 = true).
  { clear E T L. revert s1 A R. induction ls as [|m ls IH]; intros s1 A R; cbn [run] in R; [now injection R as <-|].
    destruct (wstep sh s1 m) as [s1'|] eqn:E; [|discriminate]. apply (IH (fun H => N (or_intror H)) s1'); [|exact R].
    assert (M : m <> LTick) by (intros ->; apply N; now left). clear IH R N.
    unfold wstep, wstep_res in E. destruct m; try congruence;
    unfold yield, signal, finish_prepare, prepare, switch, tail in E;
    repeat match type of E with context [match ?b with _ => _ end] =>
             lazymatch b with context [match _ with _ => _ end] => fail | _ => destruct b eqn:?; try discriminate E end end;
    injection E as <-; try exact A; try reflexivity; cbn; try exact A. }
  unfold wstep, wstep_res in T. rewrite B in T. rewrite andb_false_r in T. simpl in T. injection T as <-. reflexivity.
Qed.
Print Assumptions unforced_partial.
(** 1 runs; the monitor looks; 1 yields and gets the thread back; the next look asks for nothing, the one after it does. *)
Example unforced_ex : option_map pend (run (wstep nosh) winit [LCreate 1; LCreate 2; LYield 1; LGo; LTick; LYield 1; LTick]) = Some false /\
  option_map pend (run (wstep nosh) winit [LCreate 1; LCreate 2; LYield 1; LGo; LTick; LYield 1; LTick; LTick]) = Some true.
Proof. split; vm_compute; reflexivity. Qed.

(** What holds: as long as no coroutine has ended here, no guard is held and no shared stacks are used, two periods of the
    monitor without a yield force a switch to whatever the scheduler chooses, and the coroutine interrupted keeps its place. *)
Theorem forced_partial : forall sh ls s n, run (wstep_q sh) winit ls = Some s -> inuser s = true ->
  (forall c, sh c = false) -> (forall c, ~ In (WFin c) (whist s)) -> (forall c, gds s c = 0) ->
  2 <= length (queue s) -> pick s n = true -> n <> 0 -> n <> curr s ->
  exists s', run (wstep_q sh) s [LTick; LTick; LSignal n] = Some s' /\ own (now s') = n /\ curr s' = n /\
             regs s' (own (now s)) = now s.
Proof.
  intros sh ls s n R U NS NF NG L P N0 NC. destruct (ki_run sh ls s R) as [S K]. pose proof K as [(M&M1&M2) Hb].
  pose proof S as [B C F1 F2]. unfold inuser in U. destruct (at_ (now s)) eqn:A; try discriminate.
  apply negb_true_iff, Nat.eqb_neq in U. unfold ctl in C. rewrite A in C. destruct C as [[C1 C2]|[C1 _]]; [|contradiction].
  assert (Z1 : fins (whist s) = 0).
  { unfold fins. clear - NF. induction (whist s) as [|e h IH]; auto. simpl.
    assert (is_fin e = false) by (destruct e; auto; exfalso; apply (NF c); now left). rewrite H. apply IH.
    intros c I. apply (NF c). now right. }
  assert (Z2 : tot (gds s) M = 0) by (clear - NG; induction M; simpl; auto; rewrite NG; auto).
  assert (Z3 : shg s = 0).
  { unfold shg. rewrite A. destruct (own (now s) =? 0); auto. destruct (at_ (regs s 0)) eqn:R0; auto.
    exfalso.
    assert (G : NI s).
    { refine (run_inv (wstep_q sh) NI winit ni_init _ ls R). intros a l b X Y. unfold wstep_q in Y. destruct (quiet a l); [|discriminate].
      now apply (ni_step sh a l). }
    destruct G as (_&G&_). specialize (G 0). now rewrite R0 in G. }
  assert (Cn : cnt s = 0) by lia. assert (Bz : busy s = true) by (apply Hb; congruence).
  assert (L2 : (1 <? length (queue s)) = true) by (apply Nat.ltb_lt; lia).
  set (s2 := set_pend true (set_sflag false s)).
  assert (T : exists s1, wstep_q sh s LTick = Some s1 /\ wstep_q sh s1 LTick = Some (set_sflag false (set_pend true s1)) /\
              set_sflag false (set_pend true s1) = s2).
  { unfold wstep_q, wstep, wstep_res, quiet. eexists. split; [reflexivity|]. unfold s2.
    destruct (busy s && negb (sflag s) && (1 <? length (queue s))); simpl; rewrite Bz, L2; simpl; auto. }
  destruct T as (s1&T1&T2&T3). cbn [run]. rewrite T1, T2, T3. 
  assert (Fc : freed s (curr s) = false).
  { destruct (freed s (curr s)) eqn:V; auto. destruct (sb_cur _ _ B) as [Q|Q]; [congruence|]. now apply (sb_fr _ _ B (curr s)) in V. }
  assert (Q : quiet s2 (LSignal n) = true) by (simpl; rewrite A, C1, C2, Nat.eqb_refl; reflexivity).
  assert (W : wstep_res sh s2 (LSignal n) = Some (WOk (load n (log (WSig (own (now s)))
            (set_regs (upd (regs s) (curr s) (now s)) (chosen n (set_pend false s2))))))).
  { unfold wstep_res, signal. simpl (pend s2). change (cnt s2) with (cnt s). rewrite Cn. cbn [negb Nat.eqb].
    change (at_ (now s2)) with (at_ (now s)). rewrite A. change (pick s2 n) with (pick s n). rewrite P. cbn [sigpoint andb negb].
    change (curr s2) with (curr s). change (freed s2) with (freed s). rewrite Fc.
    rewrite ni_prepare by auto. destruct (Nat.eqb_spec (curr s) n) as [V|_]; [congruence|].
    unfold chosen. destruct (n =? 0); reflexivity. }
  unfold wstep_q. rewrite Q. unfold wstep. rewrite W. eexists. split; [reflexivity|].
  unfold load. cbn [regs now curr log set_now set_whist set_regs own].
  assert (D : curr (chosen n (set_pend false s2)) = n) by (unfold chosen; destruct (n =? 0); reflexivity).
  rewrite upd_other by congruence. assert (O : own (regs s n) = n) by apply (sb_own _ _ B).
  split; [|split].
  - destruct (at_ (regs s n)); exact O.
  - exact D.
  - simpl. rewrite C1. apply upd_same.
Qed.
Print Assumptions forced_partial.
Example forced_ex : exists s, run (wstep_q nosh) winit [LCreate 1; LCreate 2; LYield 1; LGo; LTick; LTick; LSignal 2] = Some s /\
  own (now s) = 2 /\ regs s 1 = mkK 1 PUser.
Proof. eexists. split; [vm_compute; reflexivity|]. split; vm_compute; reflexivity. Qed.

(** ** C72: a forced switch at the wrong moment loses a coroutine *)
(** Between unlock_schedule and switch_to in switch_normal_ctx__ (co_env.cpp 306-307) curr_ctx__ names the coroutine to be
    switched to while the old one still runs.  A signal there saves the registers of the old one as those of the new one:
    coroutine 2, which can run and was about to, never runs again, whatever happens. *)
Theorem lost_refuted : exists ls s, run (wstep nosh) winit ls = Some s /\ In 2 (queue s) /\ can s 2 = true /\ freed s 2 = false /\
  (forall c, ~ In (WFin c) (whist s)) /\ In (WSig 1) (whist s) /\
  forall ls' s', run (wstep nosh) s ls' = Some s' -> own (now s') <> 2.
Proof.
  exists [LCreate 1; LCreate 2; LCreate 3; LYield 1; LGo; LTick; LTick; LYield 2; LSignal 3]. eexists.
  split; [vm_compute; reflexivity|]. split; [vm_compute; auto|]. split; [vm_compute; reflexivity|]. split; [vm_compute; reflexivity|].
  split; [intros c; vm_compute; intuition discriminate|]. split; [vm_compute; auto|].
  intros ls' s' R. match type of R with run _ ?x _ = _ => assert (N : nowhere 2 x) end.
  { split; [vm_compute; discriminate|]. intros [|[|[|[|c]]]]; try (vm_compute; discriminate). }
  refine (proj1 (run_inv (wstep nosh) (nowhere 2) _ N _ ls' R)). intros; eapply nowhere_step; eauto.
Qed.
Print Assumptions lost_refuted.
(** The same in the sleep of prepare_to_switch (co_env.cpp 257-263): the idle context is lost, which would have to run the
    switches with shared stacks and to notice the end of the env. *)
Theorem lost_idle_refuted : exists ls s, run (wstep nosh) winit ls = Some s /\ (forall c, ~ In (WFin c) (whist s)) /\
  forall ls' s', run (wstep nosh) s ls' = Some s' -> own (now s') <> 0.
Proof.
  exists [LCreate 1; LCreate 2; LYield 1; LGo; LTick; LTick; LWait; LYield 2; LGo; LWait; LYield 0; LUnwait 1; LSignal 1]. eexists.
  split; [vm_compute; reflexivity|]. split; [intros c; vm_compute; intuition discriminate|].
  intros ls' s' R. match type of R with run _ ?x _ = _ => assert (N : nowhere 0 x) end.
  { split; [vm_compute; discriminate|]. intros [|[|[|c]]]; vm_compute; discriminate. }
  refine (proj1 (run_inv (wstep nosh) (nowhere 0) _ N _ ls' R)). intros; eapply nowhere_step; eauto.
Qed.
Print Assumptions lost_idle_refuted.
(** What holds: as long as signals find the thread in code of the user, every context's saved registers are its own, and who
    runs is who curr_ctx__ names, or the idle context on the way to it. *)
Theorem lost_partial : forall sh ls s, run (wstep_q sh) winit ls = Some s ->
  (forall c, own (regs s c) = c) /\
  (at_ (now s) = PUser -> own (now s) = curr s \/ (own (now s) = 0 /\ exists f, info s = Some (f, curr s))).
Proof.
  intros sh ls s R. destruct (si_run sh ls s R) as [B C _ _]. split; [apply (sb_own _ _ B)|]. intros A. unfold ctl, settled in C.
  rewrite A in C. destruct C as [[C _]|(C&f&D&_)]; eauto.
Qed.
Print Assumptions lost_partial.
Example lost_ex : option_map (fun s => (own (now s), regs s 1, regs s 2)) (run (wstep_q nosh) winit life) =
  Some (2, mkK 1 PPost, mkK 2 PPost).
Proof. vm_compute. reflexivity. Qed.
