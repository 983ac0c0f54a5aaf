(** C91: the report of a fatal signal and the internal locks. *)
From Coq Require Import List Arith Bool Lia Relations.
From Verif Require Import Base LockSpec LockModel LockProofs LockProps CrashLockModel.
Import ListNotations.

(** ** The invariants of C79-C81 *)
Lemma info_bal : forall es ts n h, bal h (crash_prog es ts n).
Proof.
  intros es ts n h. unfold crash_prog, seq at 1. 
  assert (X : sb h (set_clean_up es n)).
  { apply sb_wl, sb_seq; apply sb_each; intros; [apply sb_stop_schedule|apply sb_mark]. }
  specialize (X (Do Halt Ret) I). revert X. generalize (set_clean_up es n (Do Halt Ret)). intros k X.
  unfold manager_info, seq at 1. unfold do_ at 1. cbn [bal app].
  apply (sb_seq (TQ :: TDur :: TQ :: h) (wl Mgr (each env_info es)) (wl TQ (each (fun t0 => wl (Tm t0) skip) ts))).
  - apply sb_wl, sb_each. intros e _. apply sb_env_info.
  - apply sb_wl, sb_each. intros x _. apply sb_mark.
  - unfold seq, do_. cbn [bal]. split; [now left|]. rewrite remlk_hd. split; [now left|]. rewrite remlk_hd. split; [now left|]. rewrite remlk_hd. exact X.
Qed.
Lemma crash_last : forall es ts n, last (crash_prog es ts n).
Proof.
  assert (W : forall l p k, (forall k, last k -> last (p k)) -> last k -> last (wl l p k)) by (intros l p k H K; simpl; apply H; simpl; exact K).
  assert (E : forall (A : Type) (f : A -> piece) xs k, (forall x k, last k -> last (f x k)) -> last k -> last (each f xs k)).
  { intros A f xs. induction xs as [|x xs IH]; intros k H K; simpl; auto. unfold seq. auto. }
  intros es ts n. unfold crash_prog, manager_info, set_clean_up, seq, do_. cbn [last]. apply W.
  { intros k K. apply E; auto. }
  apply W. { intros k K. apply E; auto. }
  cbn [last]. apply W; [|exact I]. intros k K. apply E; [intros e q Q; simpl; exact Q|]. apply E; [intros e q Q; simpl; exact Q|exact K].
Qed.
Lemma crash_keeps : forall s l s', TI s -> CI s -> BI s -> xstep s l = Some s' -> TI s' /\ CI s' /\ BI s'.
Proof.
  intros s l s' T C B S. destruct l as [l|a es ts n]; cbn [xstep] in S.
  - destruct (BI_step s l s' (conj C B) S). split; [eapply TI_step; eauto|auto].
  - destruct (aeqb (cur s (th a)) a && _) eqn:X; [|discriminate]. injection S as <-. apply andb_prop in X as [X _]. apply aeqb_eq in X.
    split; [exact T|]. split; [exact C|]. apply BI_own with s a; auto.
    + intros b N. now rewrite pr_other.
    + destruct (proj1 B a) as (h&H1&H2). exists h. split; [rewrite pr_same; apply info_bal|exact H2].
    + intros t E. rewrite pr_same. apply crash_last.
Qed.
Lemma crash_reach : forall ls s, run xstep linit ls = Some s -> TI s /\ CI s /\ BI s.
Proof.
  intros ls s R. eapply (run_inv xstep (fun s => TI s /\ CI s /\ BI s)); [| |exact R].
  - split; [|split]; [apply (TI_reach []); reflexivity|apply (CI_reach []); reflexivity|apply (BI_reach []); reflexivity].
  - intros a l b (X&Y&Z) S. eapply crash_keeps; eauto.
Qed.

(** ** C91 *)
Local Definition after (ls : list xlbl) : lst := match run xstep linit ls with Some s => s | None => linit end.
Local Definition runs (ls : list xlbl) : bool := match run xstep linit ls with Some _ => true | None => false end.
Local Lemma after_run : forall ls, runs ls = true -> run xstep linit ls = Some (after ls).
Proof. intros ls H. unfold runs, after in *. destruct (run xstep linit ls); [reflexivity|discriminate]. Qed.
Local Definition wantsb (s : lst) (a : agent) (l : lock) : bool := match pr s a with Do (Acq x) _ => leqb x l | _ => false end.
Local Lemma twaits_b : forall s t l b, wantsb s (cur s t) l && has b (lk s l) && negb (th b =? t) = true -> twaits s t (th b).
Proof.
  intros s t l b H. apply andb_prop in H as [H H3]. apply andb_prop in H as [H1 H2]. exists l, b. split; [|split; [now apply has_in|split; [reflexivity|]]].
  - unfold wantsb in H1. destruct (pr s (cur s t)) as [|o k| | |] eqn:E; try discriminate. destruct o; try discriminate. exists k. left. rewrite E.
    unfold leqb in H1. destruct (lock_eq l0 l); [now subst|discriminate].
  - intros E. rewrite E, Nat.eqb_refl in H3. discriminate.
Qed.
Local Lemma has_b : forall s a l, has a (lk s l) = true -> In a (lk s l).
Proof. intros s a l. now apply has_in. Qed.
Local Lemma unblocked_b : forall s t, match pr s (cur s t) with Do (Acq _) _ | Do (All _) _ => false | _ => true end = true -> ~ blocked s t.
Proof. intros s t E (u&l&b&(k&[W|(ls&W&_)])&_); rewrite W in E; discriminate. Qed.
Local Definition st (a : agent) (n : nat) : list llbl := repeat (LStep a) n.
(** Thread t gets environment t with idle coroutine c and starts coroutine c+1. *)
Local Definition env (t c : nat) : list llbl :=
  LCall (AC t 0) (KEnv c) :: st (AC t 0) 11 ++ [LCall (AC t 0) (KCreate (S c) None t)] ++ st (AC t 0) 21 ++
  [LCall (AC t 0) (KYield [] SwGo)] ++ st (AC t 0) 11 ++ [LYield (AC t 0) (AC t 1)].
(** A coroutine changes its priority and is inside handle_priority_changed (co_env.cpp 489-500); the monitor, with the manager's
    lock, waits for the queue of that environment; then the process is interrupted, on the coroutine's thread. *)
Local Definition w_crash : list xlbl :=
  map XL (env 0 0 ++ [LCall (AC 0 1) (KSetPrio 1 (Some 0))] ++ st (AC 0 1) 3 ++ [LCall (AC 9 0) (KMonitor [(0, true)] None)] ++ st (AC 9 0) 4) ++
  [XCrash (AC 0 1) [0] [] 0] ++ map XL (st (AC 0 1) 1).
(** Refuted: the report waits for the manager's lock, its holder for a lock the interrupted thread keeps; neither ever goes on,
    short of a second signal. *)
Theorem report_deadlock_refuted : exists ls s, (forall a k, In (XL (LCall a k)) ls -> plain k) /\ run xstep linit ls = Some s /\ dead s 0 9 [].
Proof.
  assert (R : run xstep linit w_crash = Some (after w_crash)) by (apply after_run; vm_compute; reflexivity).
  exists w_crash, (after w_crash). split.
  { intros a k J. assert (F : Forall (fun l => match l with XL (LCall _ k) => plain k | _ => True end) w_crash) by (vm_compute; repeat constructor).
    rewrite Forall_forall in F. exact (F _ J). }
  split; [exact R|]. destruct (crash_reach _ _ R) as (T&C&B). apply dead_from; auto.
  - apply (twaits_b _ 0 Mgr (AC 9 0)). vm_compute. reflexivity.
  - apply (twaits_b _ 9 (Normal 0) (AC 0 1)). vm_compute. reflexivity.
  - assert (M : exists a, In (th a) [0; 9] /\ In a (lk (after w_crash) Mgr)) by (exists (AC 9 0); split; [simpl; auto|]; apply has_b; vm_compute; reflexivity).
    intros v [-> | ->]; right; left; (split; [vm_compute; reflexivity|exact M]).
Qed.
Print Assumptions report_deadlock_refuted.

(** What remains: as long as no timer is started or stopped and there is no preemption, fatal signals on threads that hold no
    internal lock lead to no circle; the thread that reports, like every other, waits at most for a thread that is working. *)
Definition xcalm (l : xlbl) : Prop := match l with XL l => calm l | XCrash _ _ _ _ => True end.
(** Signals come only to activities that hold no internal lock. *)
Definition unburdened (ls : list xlbl) : Prop :=
  forall l1 a es ts n l2 s, ls = l1 ++ XCrash a es ts n :: l2 -> run xstep linit l1 = Some s -> forall l, ~ In a (lk s l).
Definition AC_only (s : lst) : Prop := forall t u, cur s t <> AH u.
Lemma AC_step : forall s l s', calm l -> AC_only s -> lstep s l = Some s' -> AC_only s'.
Proof.
  intros s l s' Cl A S. destruct l; simpl in S; [| | |destruct Cl].
  - destruct a as [t i|]; [|discriminate]. destruct (pr s (AC t i)); try discriminate. destruct (_ && _ && _); [|discriminate]. injection S as <-. exact A.
  - unfold step_of in S. destruct (aeqb _ a); [|discriminate]. destruct (pr s a) as [|o k|y k1 k2|e k1 k2|c k1 k2]; try discriminate.
    + destruct (do_op s a o) as [s1|] eqn:D; [|discriminate]. injection S as <-. intros t u. simpl. rewrite (do_op_cur _ _ _ _ D). apply A.
    + destruct (avail s a y); injection S as <-; exact A.
    + injection S as <-. exact A.
    + injection S as <-. exact A.
  - destruct (pr s a) as [|o k| | |]; try discriminate. destruct o; try discriminate. destruct b as [t i|]; [|discriminate].
    destruct (_ && _); [|discriminate]. injection S as <-. intros v u. simpl. unfold upd. destruct (v =? t); [discriminate|apply A].
Qed.
Lemma crash_good : forall es ts n, good (mkK [] [] [] (map OE es) []) [] (crash_prog es ts n).
Proof.
  intros es ts n. apply (st_seq (mkK [] [] [] (map OE es) []) [] (manager_info es ts) (set_clean_up es n)).
  - exact (code_good 0 (KInfo es ts) I).
  - exact (code_good 0 (KCleanUp es n) I).
  - apply sub_refl.
  - intros K2 _. reflexivity.
Qed.
Lemma LI_crash : forall s a es ts n s', LI s -> AC_only s -> (forall l, ~ In a (lk s l)) -> xstep s (XCrash a es ts n) = Some s' -> LI s'.
Proof.
  intros s a es ts n s' L A H S. cbn [xstep] in S. destruct (aeqb (cur s (th a)) a && _) eqn:X; [|discriminate]. injection S as <-.
  apply andb_prop in X as [X P]. apply aeqb_eq in X. rewrite forallb_forall in P. split; [apply L|]. intros b. destruct (agent_eq b a) as [->|N].
  - exists (mkK [] [] [] (map OE es) []), []. destruct (proj2 L a) as (K&h&Ia). assert (Hn : h = []).
    { destruct h as [|l h]; auto. exfalso. apply (H l). apply (held_in _ _ _ _ _ Ia). now left. }
    subst h. constructor.
    + rewrite pr_same. apply crash_good.
    + exact (i_cnt _ _ _ _ Ia).
    + congruence.
    + constructor; simpl; try tauto. intros o J. apply in_map_iff in J as (e&<-&J). specialize (P e J). unfold is_pub in P.
      split; [now destruct (acc s (OE e))|]. discriminate.
    + intros t E. exfalso. apply (A (th a) t). now rewrite X.
  - destruct (proj2 L b) as (Kb&hb&Ib). exists Kb, hb. apply frame with s a; auto. now rewrite pr_other.
Qed.
Theorem report_order_partial : forall ls s, Forall xcalm ls -> unburdened ls -> run xstep linit ls = Some s ->
  ~ circle (twaits s) /\ waits_end (twaits s) (blocked s) /\
  (forall t, blocked s t -> exists u, clos_trans nat (twaits s) t u /\ ~ blocked s u /\ busy s u).
Proof.
  intros ls s F U R. pose proof (crash_reach _ _ R) as (_&C&_). assert (L : LI s).
  { assert (G : forall ls s, Forall xcalm ls -> unburdened ls -> run xstep linit ls = Some s -> LI s /\ AC_only s).
    { clear. induction ls as [|l ls IH] using rev_ind; intros s F U R.
      - injection R as <-. split; [apply LI_init|]. intros t u. discriminate.
      - apply Forall_app in F as [F1 F2]. inversion F2; subst. rewrite run_app in R. destruct (run xstep linit ls) as [s1|] eqn:R1; [|discriminate].
        destruct (IH s1) as [L A]; auto.
        { intros l1 a es ts n l2 s0 E R0. apply (U l1 a es ts n (l2 ++ [l]) s0); auto. rewrite E, <- app_assoc. reflexivity. }
        cbn [run] in R. destruct (xstep s1 l) as [s2|] eqn:S; [|discriminate]. injection R as <-. destruct l as [l|a es ts n].
        + split; [eapply LI_step; eauto|eapply AC_step; eauto].
        + split; [eapply LI_crash; eauto|].
          cbn [xstep] in S. destruct (_ && _); [|discriminate]. injection S as <-. exact A. }
    eapply G; eauto. }
  assert (X : forall t, blocked s t -> exists u, clos_trans nat (twaits s) t u /\ ~ blocked s u /\ busy s u).
  { intros t (u&l&b&W&J&E&N). subst u. eapply (chain_ends s L C 24); eauto. lia. }
  split; [|split; auto].
  - intros (ts&NE&H). eapply no_circle; eauto.
  - intros t B. destruct (X t B) as (u&Y&Z&_). eauto.
Qed.
Print Assumptions report_order_partial.
(** The same scene with the signal on another thread of the program: the report waits for the monitor, the monitor for the
    coroutine, and the coroutine is working. *)
Local Definition x_early : list llbl :=
  (env 0 0 ++ env 1 10 ++ [LCall (AC 0 1) (KSetPrio 1 (Some 0))] ++ st (AC 0 1) 4 ++ [LCall (AC 9 0) (KMonitor [(0, true)] None)] ++ st (AC 9 0) 4).
Local Definition x_crash : list xlbl := map XL x_early ++ XCrash (AC 1 1) [0; 1] [] 0 :: map XL (st (AC 1 1) 1).
Local Lemma after_eq : forall ls s, run xstep linit ls = Some s -> after ls = s.
Proof. intros ls s R. unfold after. now rewrite R. Qed.
Local Lemma only_crash : forall xs a es ts n ys l1 a' es' ts' n' l2,
  map XL xs ++ XCrash a es ts n :: map XL ys = l1 ++ XCrash a' es' ts' n' :: l2 -> l1 = map XL xs /\ a' = a.
Proof.
  induction xs as [|x xs IH]; intros a es ts n ys l1 a' es' ts' n' l2 E; destruct l1 as [|y l1]; simpl in E.
  - injection E as -> _ _ _ _. auto.
  - injection E as _ E. exfalso. assert (J : In (XCrash a' es' ts' n') (map XL ys)) by (rewrite E; apply in_elt). apply in_map_iff in J as (z&Z&_). discriminate.
  - discriminate.
  - injection E as <- E. destruct (IH _ _ _ _ _ _ _ _ _ _ _ E) as [-> ->]. auto.
Qed.
Example report_order_example : Forall xcalm x_crash /\ unburdened x_crash /\ exists s, run xstep linit x_crash = Some s /\ twaits s 1 9 /\ twaits s 9 0 /\ ~ blocked s 0.
Proof.
  split; [vm_compute; repeat constructor|]. split; [|exists (after x_crash); split; [apply after_run; vm_compute; reflexivity|split; [|split]]].
  - intros l1 a es ts n l2 s E R l J. apply only_crash in E as [-> ->]. 
    destruct (crash_reach _ _ R) as (_&_&B). destruct (proj1 B (AC 1 1)) as (h&H). apply (hb_in _ _ _ l H) in J.
    assert (P : pr s (AC 1 1) = Ret) by (rewrite <- (after_eq _ _ R); vm_compute; reflexivity).
    destruct H as [H _]. rewrite P in H. cbn [bal] in H. subst h. destruct J.
  - apply (twaits_b _ 1 Mgr (AC 9 0)). vm_compute. reflexivity.
  - apply (twaits_b _ 9 (Normal 0) (AC 0 1)). vm_compute. reflexivity.
  - apply unblocked_b. vm_compute. reflexivity.
Qed.
