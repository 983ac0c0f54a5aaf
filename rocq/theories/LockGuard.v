(** Preemption guards in the model of the internal locks (C80). *)
From Coq Require Import List Arith Bool Lia.
From Verif Require Import Base LockSpec LockModel.
Import ListNotations.

(** How many guards the rest of a program leaves that it is inside of. *)
Fixpoint open_guards (p : prog) : nat :=
  match p with
  | Ret => 0
  | Do Inc k => pred (open_guards k)
  | Do Dec k => S (open_guards k)
  | Do _ k => open_guards k
  | Try _ k1 k2 | IfFree _ k1 k2 | Test _ k1 k2 => Nat.max (open_guards k1) (open_guards k2)
  end.
Definition light (p : piece) : Prop := forall k, open_guards (p k) <= open_guards k.

Lemma li_skip : light skip.
Proof. intros k. cbn. auto. Qed.
Lemma li_seq : forall p q, light p -> light q -> light (p ;; q).
Proof. intros p q P Q k. unfold seq. etransitivity; [apply P|apply Q]. Qed.
Lemma li_op : forall o, o <> Dec -> light (do_ o).
Proof. intros o N k. unfold do_. destruct o; cbn; try lia. now destruct N. Qed.
Lemma li_wl : forall l p, light p -> light (wl l p).
Proof. intros l p P. unfold wl. apply li_seq; [now apply li_op|]. apply li_seq; [auto|now apply li_op]. Qed.
Lemma li_guarded : forall p, light p -> light (guarded p).
Proof. intros p P k. unfold guarded, seq, do_. cbn. specialize (P (Do Dec k)). cbn in P. lia. Qed.
Lemma li_each : forall A (f : A -> piece) xs, (forall x, light (f x)) -> light (each f xs).
Proof. intros A f xs F. induction xs as [|x r IH]; [apply li_skip|]. apply li_seq; auto. Qed.
Lemma li_opt : forall A (x : option A) f, (forall y, light (f y)) -> light (opt x f).
Proof. intros A [y|] f F; [apply F|apply li_skip]. Qed.
Lemma li_when : forall b p, light p -> light (when b p).
Proof. intros [|] p P; [auto|apply li_skip]. Qed.
Lemma li_test : forall c p q, light p -> light q -> light (fun k => Test c (p k) (q k)).
Proof. intros c p q P Q k. cbn. specialize (P k). specialize (Q k). lia. Qed.

(** Structural decomposition of the programs. *)
Ltac li := repeat match goal with
  | |- forall _, _ => intro
  | |- light skip => apply li_skip
  | |- light (guarded _) => apply li_guarded
  | |- light (wl _ _) => apply li_wl
  | |- light (each _ _) => apply li_each
  | |- light (opt _ _) => apply li_opt
  | |- light (when _ _) => apply li_when
  | |- light (do_ _) => apply li_op; discriminate
  | |- light (_ ;; _) => apply li_seq
  end.
Lemma li_priority : forall c, light (priority c). Proof. intros; unfold priority; li. Qed.
Lemma li_update_min : forall e, light (update_min e). Proof. intros; unfold update_min; li. Qed.
Lemma li_set_state : forall e, light (set_state e). Proof. intros; unfold set_state; li. Qed.
Lemma li_wake_up : forall e, light (wake_up e). Proof. intros; unfold wake_up; li. Qed.
Lemma li_workload : forall e, light (workload e). Proof. intros; unfold workload; li. Qed.
Lemma li_look : forall e, light (look e). Proof. intros; unfold look; li. Qed.
Lemma li_all_ctx : forall e, light (all_ctx e). Proof. intros; unfold all_ctx; li. Qed.
Lemma li_go : forall e, light (go e). Proof. intros; unfold go; li. Qed.
Lemma li_enter : forall w, light (enter_wait w). Proof. intros; unfold enter_wait; li. Qed.
Ltac lb := match goal with
  | |- light (priority _) => apply li_priority
  | |- light (update_min _) => apply li_update_min
  | |- light (set_state _) => apply li_set_state
  | |- light (wake_up _) => apply li_wake_up
  | |- light (workload _) => apply li_workload
  | |- light (look _) => apply li_look
  | |- light (all_ctx _) => apply li_all_ctx
  | |- light (go _) => apply li_go
  | |- light (enter_wait _) => apply li_enter
  end.
Ltac lis := li; try lb.
Lemma li_handle : forall e c, light (handle_changed e c). Proof. intros; unfold handle_changed; lis. Qed.
Lemma li_set_priority : forall c e, light (set_priority c e).
Proof. intros; unfold set_priority. apply li_wl, li_opt. intros. apply li_wl, li_handle. Qed.
Lemma li_stop : forall e, light (stop_schedule e). Proof. intros; unfold stop_schedule; apply li_seq; lb. Qed.
Lemma li_rounds : forall e n, light (rounds e n).
Proof. intros e n. induction n; cbn [rounds]; [apply li_skip|]. apply li_seq; [lb|]. apply li_seq; [li|]. apply li_seq; [li|]. apply li_seq; [li|auto]. Qed.
Lemma li_sleep_if : forall e n, light (sleep_if_need e n).
Proof. intros. unfold sleep_if_need. apply li_guarded, li_wl, li_seq; [apply li_rounds|lb]. Qed.
Lemma li_remove : forall e c, light (remove_ctx e c).
Proof. intros. unfold remove_ctx. apply li_seq; [li|]. apply li_seq; [apply li_wl; lb|li]. Qed.
Lemma li_prepare : forall e x, light (prepare e x).
Proof.
  intros e x. destruct x; cbn [prepare].
  - apply li_seq; lb.
  - apply li_seq; lb.
  - apply li_seq; [apply li_when; lb|]. apply li_seq; [li|]. apply li_seq; [apply li_sleep_if|li].
  - apply li_skip.
Qed.
Lemma li_switch : forall e rem x, light (schedule_switch e rem x).
Proof.
  intros. unfold schedule_switch. apply li_wl, li_seq; [lb|]. apply li_seq; [apply li_each; intros; apply li_remove|].
  apply li_seq; [apply li_prepare|]. destruct x; lis.
Qed.
Lemma li_create_idle : forall c, light (create_idle c).
Proof. intros. unfold create_idle. apply li_seq; [li|apply li_set_priority]. Qed.
Lemma li_create_env : forall e c, light (create_env e c).
Proof.
  intros. unfold create_env. apply li_seq; [apply li_create_idle|]. apply li_seq; [li|]. apply li_seq; [lb|]. li.
Qed.
Lemma li_get_best : forall es new, light (get_best es new).
Proof. intros. unfold get_best. apply li_wl, li_seq; [apply li_each; intros; lb|apply li_opt; intros; apply li_create_env]. Qed.
Lemma li_move_here : forall e c, light (move_here e c).
Proof.
  intros. unfold move_here. apply li_seq; [apply li_wl, li_seq; [lb|li]|]. apply li_seq; [lb|]. apply li_seq; [lb|]. apply li_seq; lb.
Qed.
Lemma li_create_ctx : forall c b d, light (create_ctx c b d).
Proof.
  intros. unfold create_ctx. apply li_seq; [li|]. apply li_seq; [apply li_set_priority|]. apply li_seq; [li|].
  apply li_seq; [apply li_opt; intros; apply li_get_best|apply li_move_here].
Qed.
Lemma li_wake : forall w, light (wake w).
Proof.
  intros [[[w e] l] i]. unfold wake, leave_wait. apply li_seq; [li|]. apply li_when, li_seq; [apply li_when, li_seq; lb|lb].
Qed.
Lemma li_timer_queue : forall t cmp, light (timer_queue t cmp). Proof. intros; unfold timer_queue; li. Qed.
Lemma li_env_info : forall e, light (env_info e). Proof. intros; unfold env_info; li. Qed.
Ltac lc := first [lb | match goal with
  | |- light (set_priority _ _) => apply li_set_priority
  | |- light (schedule_switch _ _ _) => apply li_switch
  | |- light (sleep_if_need _ _) => apply li_sleep_if
  | |- light (create_env _ _) => apply li_create_env
  | |- light (create_ctx _ _ _) => apply li_create_ctx
  | |- light (create_idle _) => apply li_create_idle
  | |- light (wake _) => apply li_wake
  | |- light (timer_queue _ _) => apply li_timer_queue
  | |- light (env_info _) => apply li_env_info
  | |- light (stop_schedule _) => apply li_stop
  | |- light (remove_ctx _ _) => apply li_remove
  | |- light (get_best _ _) => apply li_get_best
  end].
Ltac lall := li; try lc.
Lemma code_light : forall t k, light (code t k).
Proof.
  intros t k. destruct k; cbn [code].
  - unfold create_env_here. lall.
  - lc.
  - lc.
  - lc.
  - lc.
  - unfold wait_ctx. do 5 (apply li_seq; [lall|]). apply li_seq; [|lc].
    intros k. cbn. apply Nat.max_lub; [cbn; auto|]. revert k. change (light (enter_wait w ;; wl (EvFin c) skip ;; do_ (Rel (Sched t)) ;; do_ (Rel (Fin c)) ;; schedule_switch t rem x)). lall.
  - unfold finish. lall.
  - lc.
  - lc.
  - lc.
  - unfold monitor_round, force_schedule, destroy_redundant. apply li_seq; [li|]. apply li_seq; [|li]. apply li_wl, li_seq; [lall|].
    destruct second as [[[[a b] c] d]|]; [|li]. apply li_seq; [|apply li_seq; [|lall]].
    + unfold redistribute. apply li_wl, li_each. intros e k. cbn. apply Nat.max_lub; [apply Nat.max_lub|]; cbn; auto.
    + unfold steal. apply li_wl, li_each. intros e k. cbn. apply Nat.max_lub; [apply Nat.max_lub|]; cbn; auto.
  - unfold clean_round. apply li_wl. destruct tell as [[es n]|]; lall.
  - unfold set_clean_up. lall.
  - unfold end_env. lall.
  - unfold manager_info. lall.
  - unfold timer_round. apply li_wl, li_seq; [li|]. destruct fire as [[[[c b] d] cmp]|]; lall.
  - unfold timer_run. lall.
  - lc.
  - unfold sleep_until. lall.
  - unfold wait_ctx_for. do 5 (apply li_seq; [lall|]). apply li_seq; [|apply li_seq; lall].
    intros k. cbn. apply Nat.max_lub; [cbn; auto|]. revert k. change (light (enter_wait w ;; wl (EvFin c) skip ;; wl (Tm t0) skip ;; timer_queue t0 cmp ;; do_ (Rel (Sched t)) ;; do_ (Rel (Fin c)) ;; schedule_switch t rem x)). lall.
  - unfold cv_wait_until. lall.
Qed.

(** The guards that the activities of a thread are inside of. *)
Definition total (s : lst) (L : list agent) : nat := list_sum (map (fun a => open_guards (pr s a)) L).
Definition GI (s : lst) : Prop := forall e L, NoDup L -> (forall a, In a L -> th a = e) -> total s L <= grd s e.
Lemma GI_init : GI linit.
Proof.
  intros e L _ _. unfold total. induction L; cbn; auto.
Qed.
Lemma total_same : forall s s' L, (forall a, In a L -> pr s' a = pr s a) -> total s' L = total s L.
Proof. intros s s' L E. unfold total. f_equal. apply map_ext_in. intros a I. now rewrite E. Qed.
Lemma total_cons : forall s a L, total s (a :: L) = open_guards (pr s a) + total s L.
Proof. reflexivity. Qed.
Lemma total_in : forall s s' a L, NoDup L -> In a L -> (forall b, b <> a -> pr s' b = pr s b) ->
  total s' L + open_guards (pr s a) = total s L + open_guards (pr s' a).
Proof.
  intros s s' a L N I E. induction L as [|x L IH]; [destruct I|]. inversion N; subst. rewrite !total_cons. destruct (agent_eq x a) as [->|X].
  - rewrite (total_same s s' L); [lia|]. intros b Ib. apply E. congruence.
  - destruct I as [->|I]; [contradiction|]. specialize (IH H2 I). rewrite (E x X). lia.
Qed.
(** Activity a makes a step: what it opens or leaves is counted. *)
Lemma GI_one : forall s s' a, GI s -> (forall b, b <> a -> pr s' b = pr s b) -> (forall e, e <> th a -> grd s' e = grd s e) ->
  open_guards (pr s' a) + grd s (th a) <= open_guards (pr s a) + grd s' (th a) ->
  grd s (th a) <= open_guards (pr s a) + grd s' (th a) -> GI s'.
Proof.
  intros s s' a G P Q D D' e L N T. destruct (Nat.eq_dec e (th a)) as [->|X].
  - destruct (in_dec agent_eq a L) as [I|I].
    + pose proof (total_in s s' a L N I P). pose proof (G _ L N T). lia.
    + assert (N' : NoDup (a :: L)) by (constructor; auto). assert (T' : forall b, In b (a :: L) -> th b = th a) by (intros b [->|Ib]; auto).
      pose proof (G _ _ N' T') as X. rewrite total_cons in X. rewrite (total_same s s' L); [lia|]. intros b Ib. apply P. congruence.
  - rewrite Q by auto. rewrite (total_same s s' L); [now apply G|]. intros b Ib. apply P. intros ->. apply X. symmetry. auto.
Qed.
Lemma pr_same : forall s a p, pr (with_pr s a p) a = p.
Proof. intros. cbn. destruct (agent_eq a a); congruence. Qed.
Lemma pr_other : forall s a p b, b <> a -> pr (with_pr s a p) b = pr s b.
Proof. intros. cbn. destruct (agent_eq b a); congruence. Qed.
Lemma take_all_pr : forall ls s a, pr (take_all s a ls) = pr s /\ grd (take_all s a ls) = grd s.
Proof. induction ls as [|l r IH]; intros s a; cbn [take_all]; auto. destruct (IH (take s a l) a) as [-> ->]. auto. Qed.
Lemma do_op_eff : forall s a o s1, do_op s a o = Some s1 -> pr s1 = pr s /\
  (forall e, e <> th a -> grd s1 e = grd s e) /\
  grd s1 (th a) = match o with Inc => S (grd s (th a)) | Dec => pred (grd s (th a)) | _ => grd s (th a) end.
Proof.
  intros s a o s1 E. destruct o; cbn [do_op] in E;
    repeat match type of E with context [if ?b then _ else _] => destruct b; try discriminate | context [match ?x with _ => _ end] => destruct x; try discriminate end;
    try discriminate; injection E as <-; try (repeat split; auto; fail).
  - destruct (take_all_pr ls s a) as [-> ->]. auto.
  - cbn. split; auto. split; [intros; now apply upd_other|apply upd_same].
  - cbn. split; auto. split; [intros; now apply upd_other|apply upd_same].
Qed.
Lemma GI_pr : forall s s' a p, GI s -> pr s' = pr s -> grd s' = grd s -> open_guards p <= open_guards (pr s a) -> GI (with_pr s' a p).
Proof.
  intros s s' a p G P Q O. apply (GI_one s _ a); auto.
  - intros b N. rewrite pr_other, P; auto.
  - intros e _. cbn. now rewrite Q.
  - rewrite pr_same. cbn. rewrite Q. lia.
  - cbn. rewrite Q. lia.
Qed.
Lemma GI_grd : forall s s', GI s -> pr s' = pr s -> grd s' = grd s -> GI s'.
Proof. intros s s' G P Q e L N T. rewrite Q. rewrite (total_same s s' L); [now apply G|]. intros; now rewrite P. Qed.
Lemma GI_step : forall s l s', GI s -> lstep s l = Some s' -> GI s'.
Proof.
  intros s l s' G E. destruct l; cbn [lstep] in E.
  - destruct a as [t c|t]; [|discriminate]. destruct (pr s (AC t c)) eqn:P; try discriminate.
    destruct (_ && _ && _); [|discriminate]. injection E as <-. apply (GI_pr s); auto.
    rewrite P. cbn [open_guards]. etransitivity; [apply code_light|]. cbn. auto.
  - unfold step_of in E. destruct (aeqb (cur s (th a)) a); [|discriminate]. destruct (pr s a) eqn:P; try discriminate.
    + destruct (do_op s a o) as [s1|] eqn:D; [|discriminate]. injection E as <-. destruct (do_op_eff _ _ _ _ D) as (E1&E2&E3).
      apply (GI_one s _ a); auto.
      * intros b N. rewrite pr_other, E1; auto.
      * rewrite pr_same. cbn [with_pr grd]. rewrite E3, P. pose proof (G (th a) [a]) as X. rewrite total_cons in X.
        assert (N1 : NoDup [a]) by (repeat constructor; tauto). specialize (X N1). rewrite P in X.
        assert (T1 : forall b, In b [a] -> th b = th a) by (intros b [->|[]]; auto). specialize (X T1). cbn [total map list_sum] in X.
        destruct o; cbn [open_guards] in *; lia.
      * cbn [with_pr grd]. rewrite E3, P. destruct o; cbn [open_guards]; lia.
    + destruct (avail s a l); injection E as <-; apply (GI_pr s); auto; rewrite P; cbn; lia.
    + injection E as <-. apply (GI_pr s); auto. rewrite P. cbn. destruct (count s e =? 0); lia.
    + injection E as <-. apply (GI_pr s); auto. rewrite P. cbn. destruct (fin s c); lia.
  - destruct (pr s a) eqn:P; try discriminate. destruct o; try discriminate. destruct b; try discriminate.
    destruct (_ && _); [|discriminate]. injection E as <-. apply (GI_grd (with_pr s a p)); auto. apply (GI_pr s); auto. rewrite P. cbn. auto.
  - destruct (cur s t); [|discriminate]. destruct (_ && _ && _); [|discriminate]. injection E as <-.
    apply (GI_pr s); auto. etransitivity; [|apply Nat.le_0_l]. etransitivity; [apply li_prepare|]. cbn. auto.
Qed.
Lemma GI_reach : forall ls s, run lstep linit ls = Some s -> GI s.
Proof. intros ls s R. eapply (run_inv lstep); [apply GI_init|exact GI_step|exact R]. Qed.
