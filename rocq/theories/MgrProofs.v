(** Proofs about the placement of coroutines (MgrModel.v). *)
From Coq Require Import List Arith Bool Lia.
From Verif Require Import Base MgrSpec MgrModel.
Import ListNotations.

Lemma is_idle_iff : forall t, is_idle t = true <-> tst t = MIdle.
Proof. intros t. unfold is_idle. destruct (tst t); split; congruence. Qed.
Lemma can_sched_iff : forall t, can_sched t = true <-> usable t.
Proof.
  intros t. unfold can_sched, usable. destruct (tst t), (tself t); simpl; split; try congruence; try (intros (A&B&C); congruence); repeat split; congruence.
Qed.

Definition elig (t : thr) : bool := can_sched t && negb (texcl t).
Lemma elig_iff : forall t, elig t = true <-> eligible t.
Proof. intros t. unfold elig, eligible. rewrite andb_true_iff, can_sched_iff, negb_true_iff. tauto. Qed.

Lemma best_loop_idle : forall l b m n t, best_loop l b m n = inl t -> In t l /\ tst t = MIdle.
Proof.
  induction l as [|u l IH]; intros b m n t E; simpl in E; [discriminate|].
  destruct (is_idle u) eqn:I. { injection E as <-. split; [now left|now apply is_idle_iff]. }
  destruct (negb (can_sched u)); [|destruct (texcl u); [|destruct (match m with None => true | Some w => workload u <? w end)]];
  apply IH in E; intuition.
Qed.
Lemma best_loop_spec : forall l b m n b' n', best_loop l b m n = inr (b', n') ->
  match b, m with Some t, Some w => workload t = w | None, None => True | _, _ => False end ->
  (forall u, In u l -> tst u <> MIdle) /\ n' = n + length (filter elig l) /\
  match b' with
  | None => b = None /\ forall u, In u l -> elig u = false
  | Some t => (b = Some t \/ (In t l /\ elig t = true)) /\ (forall u, In u l -> elig u = true -> workload t <= workload u) /\
              match b with Some t0 => workload t <= workload t0 | None => True end
  end.
Proof.
  induction l as [|u l IH]; intros b m n b' n' E A; simpl in E.
  - injection E as <- <-. simpl. split; [tauto|]. split; [lia|]. destruct b; simpl; intuition.
  - destruct (is_idle u) eqn:I; [discriminate|]. assert (NI : tst u <> MIdle) by (intros X; apply is_idle_iff in X; congruence).
    simpl filter. assert (EU : elig u = can_sched u && negb (texcl u)) by reflexivity.
    destruct (can_sched u) eqn:CS; simpl in E, EU.
    + destruct (texcl u) eqn:X; simpl in EU; rewrite EU.
      * destruct (IH _ _ _ _ _ E A) as (B&C&D). split; [intros v [<-|V]; auto|]. split; auto. destruct b'.
        -- destruct D as (D1&D2&D3). split; [intuition|]. split; auto. intros v [<-|V]; auto. congruence.
        -- destruct D as (D1&D2). split; auto. intros v [<-|V]; auto.
      * destruct (match m with None => true | Some w => workload u <? w end) eqn:W.
        -- destruct (IH _ _ _ _ _ E eq_refl) as (B&C&D). split; [intros v [<-|V]; auto|]. split; [simpl; lia|].
           destruct b' as [t|]; [|destruct D; discriminate]. destruct D as (D1&D2&D3). split; [destruct D1 as [D1|D1]; [injection D1 as <-|]; intuition|].
           split; [intros v [<-|V]; auto|]. destruct b as [t0|]; auto. destruct m; [|tauto]. apply Nat.ltb_lt in W. lia.
        -- destruct (IH _ _ _ _ _ E A) as (B&C&D). split; [intros v [<-|V]; auto|]. split; [simpl; lia|].
           destruct m as [w|]; [|discriminate]. apply Nat.ltb_ge in W. destruct b as [t0|]; [|tauto].
           destruct b' as [t|]; [|destruct D; discriminate]. destruct D as (D1&D2&D3). split; [intuition|]. split; [intros v [<-|V]; auto; lia|auto].
    + rewrite EU. destruct (IH _ _ _ _ _ E A) as (B&C&D). split; [intros v [<-|V]; auto|]. split; auto. destruct b'.
      * destruct D as (D1&D2&D3). split; [intuition|]. split; auto. intros v [<-|V]; auto. congruence.
      * destruct D as (D1&D2). split; auto. intros v [<-|V]; auto.
Qed.

(** What get_best does, in all cases. *)
Lemma get_best_cases : forall l base,
  (exists t, get_best l base = Old t /\ In t l /\ tst t = MIdle) \/
  ((forall u, In u l -> tst u <> MIdle) /\
   ((get_best l base = New /\ (length (filter elig l) = 0 \/ length (filter elig l) < base)) \/
    exists t, get_best l base = Old t /\ In t l /\ elig t = true /\ base <= length (filter elig l) /\
              forall u, In u l -> elig u = true -> workload t <= workload u)).
Proof.
  intros l base. unfold get_best. destruct l as [|u l].
  - right. split; [simpl; tauto|]. left. split; auto.
  - destruct (best_loop (u :: l) None None 0) as [t|[b n]] eqn:E.
    + left. exists t. split; auto. eapply best_loop_idle; eauto.
    + right. destruct (best_loop_spec _ _ _ _ _ _ E I) as (A&B&C). split; auto. destruct b as [t|].
      * destruct C as (C1&C2&_). destruct C1 as [C1|[C1 C3]]; [discriminate|]. destruct (n <? base) eqn:L.
        -- left. apply Nat.ltb_lt in L. split; auto. right. lia.
        -- apply Nat.ltb_ge in L. right. exists t. split; auto. split; auto. split; auto. split; [lia|auto].
      * left. split; auto. left. destruct C as [_ C]. clear -C. induction (u :: l) as [|v r IH]; auto. simpl. rewrite (C v (or_introl eq_refl)).
        apply IH. intros w W. apply C. now right.
Qed.

(** ** Reclamation *)
Definition cand (t : thr) : bool := is_idle t && can_auto t && match tctx t with [] => true | _ => false end.
Lemma redundant_spec : forall l n idle, redundant l n idle = (n + length (filter can_sched l), idle ++ filter cand l).
Proof.
  induction l as [|t l IH]; intros n idle; simpl; [now rewrite Nat.add_0_r, app_nil_r|]. rewrite IH. unfold cand at 2. f_equal.
  - destruct (can_sched t); simpl; lia.
  - destruct (is_idle t && can_auto t && _); auto. now rewrite <- app_assoc.
Qed.
Lemma victims_eq : forall l max, victims l max = firstn (length (filter can_sched l) - max) (filter cand l).
Proof.
  intros l max. unfold victims. rewrite redundant_spec. simpl. destruct (Nat.ltb_spec max (length (filter can_sched l))) as [L|L]; auto.
  replace (length (filter can_sched l) - max) with 0 by lia. reflexivity.
Qed.
Lemma cand_iff : forall t, cand t = true <-> reclaimable t.
Proof.
  intros t. unfold cand, reclaimable, can_auto. rewrite !andb_true_iff, is_idle_iff, negb_true_iff, !orb_false_iff.
  destruct (tctx t); split; intros H; decompose [and] H; repeat split; auto; discriminate.
Qed.
Lemma cand_sched : forall t, cand t = true -> can_sched t = true.
Proof. intros t H. apply cand_iff in H as (A&B&C&D&E). unfold can_sched. now rewrite A, E. Qed.
Lemma in_firstn : forall A n (l : list A) x, In x (firstn n l) -> In x l.
Proof. intros A n l x H. rewrite <- (firstn_skipn n l). apply in_or_app. auto. Qed.

(** ** Moving *)
Lemma can_force_no : forall o, can_force 1 o = false.
Proof. reflexivity. Qed.
Lemma redist_loop_id : forall lk oth l, redist_loop 1 lk oth l = (l, []).
Proof. intros lk oth l. induction l as [|t l IH]; simpl; auto. rewrite IH. destruct (lk (tid t)); reflexivity. Qed.
Lemma steal_loop_id : forall lk oth idle b r, steal_loop 1 lk oth idle b r = b ++ r.
Proof. intros lk oth idle. induction idle as [|e q IH]; intros b r; simpl; auto. destruct (lk e); simpl; apply IH. Qed.

(** ** Creation against reclamation *)
Lemma setst_tid : forall t x, tid (set_st t x) = tid t.
Proof. intros t x. unfold set_st. now destruct (tst t). Qed.
Lemma setst_ctx : forall t x, tctx (set_st t x) = tctx t.
Proof. intros t x. unfold set_st. now destruct (tst t). Qed.
Lemma setst_self : forall t x, tself (set_st t x) = tself t.
Proof. intros t x. unfold set_st. now destruct (tst t). Qed.
Lemma setst_st : forall t x, tst (set_st t x) = x \/ (tst t = MDestroying /\ tst (set_st t x) = MDestroying).
Proof. intros t x. unfold set_st. destruct (tst t) eqn:E; auto. Qed.

(** A choice of thread e for coroutine c, made before e was told to end if it was. *)
Definition owed (s : mst) (c e : nat) : Prop := exists k, In (XBest k c e) (xh s) /\
  (tst (ev s e) = MDestroying -> exists a b, xh s = a ++ XStop e :: b /\ In (XBest k c e) b).
Definition held (p : cpc) (c e : nat) : Prop := p = KGot c e \/ p = KChk c e.

Record MI (s : mst) : Prop := {
  m_tid : forall e, tid (ev s e) = e;
  m_cre : forall e, tst (ev s e) = MCreated -> tself (ev s e) = true;
  m_sta : forall e, outp s e = true -> tst (ev s e) = MDestroying;
  m_gone : forall e, gone s e = true -> outp s e = true;
  m_cho : forall k c e, held (crt s k) c e -> chosen k (xh s) = Some (c, e) /\
    (tst (ev s e) = MDestroying -> stopped_since k e (xh s) = true) /\ tst (ev s e) <> MCreated;
  m_own : forall k c e, held (crt s k) c e -> owed s c e;
  m_ctx : forall e c b, In (c, b) (tctx (ev s e)) -> owed s c e;
  m_dst : forall e, tst (ev s e) = MDestroying -> exists a b, xh s = a ++ XStop e :: b;
  m_nil : forall e, nxt s <= e -> tctx (ev s e) = [] /\ forall k c, ~ held (crt s k) c e;
  m_new : forall e, nxt s <= e -> tst (ev s e) <> MDestroying;
  m_nrm : forall e, In e (nrm s) -> e < nxt s;
  m_mon : forall r e, mon s = Some r -> In e r -> e < nxt s
}.

Lemma owed_grow : forall s s' n c e, owed s c e -> xh s' = n ++ xh s ->
  (tst (ev s' e) = MDestroying -> tst (ev s e) = MDestroying) -> owed s' c e.
Proof.
  intros s s' n c e (k&A&B) E D. exists k. rewrite E. split; [apply in_or_app; auto|]. intros X. destruct (B (D X)) as (a&b&Y&Z).
  exists (n ++ a), b. rewrite Y, app_assoc. auto.
Qed.
Lemma owed_stop : forall s s' e c d, owed s c d -> xh s' = XStop e :: xh s ->
  (d <> e -> tst (ev s' d) = MDestroying -> tst (ev s d) = MDestroying) -> owed s' c d.
Proof.
  intros s s' e c d O E D. destruct (Nat.eq_dec d e) as [->|N].
  - destruct O as (k&A&B). exists k. rewrite E. split; [now right|]. intros _. exists [], (xh s). auto.
  - apply (owed_grow s s' [XStop e] c d O E). auto.
Qed.
Lemma in_rmc : forall c l x, In x (rmc c l) -> In x l.
Proof. intros c l x H. apply filter_In in H. tauto. Qed.

Lemma mi_init : forall e0 n, start_ok e0 -> MI (minit e0 n).
Proof.
  intros e0 n S. split; simpl; try discriminate; try (intros; now apply S); try (intros k c e [X|X]; discriminate).
  - intros e c b X. destruct (S e) as (_&_&_&Y). rewrite Y in X. contradiction.
  - intros e X. destruct (S e) as (_&Y&_&_). contradiction.
  - intros e _. destruct (S e) as (_&_&_&Y). split; auto. intros k c [X|X]; discriminate.
  - intros e X. apply in_seq in X. lia.
Qed.

Ltac ms := cbn [ev nrm nxt mon crt outp gone xh setev setcrt xlog setmon] in *.

(** Steps that change neither envs nor calls. *)
Lemma mi_step : forall base max s l s', MI s -> mstep_ok base max s l = Some s' -> MI s'.
Proof.
  intros base max s l s' V E. unfold mstep_ok in E. destruct l; unfold mstep in E.
  - (* MBest *)
    destruct (crt s k) eqn:K; try discriminate. destruct (mon s) eqn:M; [discriminate|].
    destruct (get_best_cases (map (ev s) (nrm s)) base) as [(t&G&I&T)|(N&[(G&_)|(t&G&I&T&_)])]; rewrite G in E; injection E as <-.
    all: try (apply in_map_iff in I as (e&<-&I); rewrite (m_tid _ V) in *).
    1,3: assert (OKE : tst (ev s e) <> MCreated /\ tst (ev s e) <> MDestroying)
           by (try (apply elig_iff in T as ((T1&T2&T3)&_)); split; intros X; try congruence; apply (m_cre _ V) in X; congruence);
         destruct OKE as [O1 O2];
         (assert (OG : forall c' e', owed s c' e' -> owed (xlog (XBest k c e) (setcrt s k (KGot c e))) c' e')
            by (intros c' e' O; eapply (owed_grow s _ [XBest k c e]); [exact O|reflexivity|auto]));
         split; ms; try apply V.
    + intros k0 c0 e1 [X|X]; (destruct (Nat.eq_dec k0 k) as [->|NK]; [rewrite upd_same in X|rewrite upd_other in X by auto]).
      1: injection X as <- <-; simpl; rewrite Nat.eqb_refl; split; auto; split; auto; congruence.
      2: discriminate.
      all: destruct (m_cho _ V k0 c0 e1) as (A1&A2&A3); [unfold held; auto|]; simpl; rewrite (proj2 (Nat.eqb_neq k0 k) NK); auto.
    + intros k0 c0 e1 X. destruct (Nat.eq_dec k0 k) as [->|NK].
      * rewrite upd_same in X. destruct X as [X|X]; [|discriminate]. injection X as <- <-. exists k. ms. split; [now left|]. congruence.
      * rewrite upd_other in X by auto. apply OG. eapply m_own; eauto.
    + intros e1 c0 b X. apply OG. eapply m_ctx; eauto.
    + intros e1 X. destruct (m_dst _ V _ X) as (a&b&->). exists (XBest k c e :: a), b. reflexivity.
    + intros e1 L. destruct (m_nil _ V e1 L) as [A B]. split; auto. intros k0 c0 X. destruct (Nat.eq_dec k0 k) as [->|NK].
      * rewrite upd_same in X. destruct X as [X|X]; [|discriminate]. injection X as _ <-. pose proof (m_nrm _ V _ I). lia.
      * rewrite upd_other in X by auto. eapply B; eauto.
    + intros k0 c0 e1 [X|X]; (destruct (Nat.eq_dec k0 k) as [->|NK]; [rewrite upd_same in X|rewrite upd_other in X by auto]).
      1: injection X as <- <-; simpl; rewrite Nat.eqb_refl; split; auto; split; auto; congruence.
      2: discriminate.
      all: destruct (m_cho _ V k0 c0 e1) as (A1&A2&A3); [unfold held; auto|]; simpl; rewrite (proj2 (Nat.eqb_neq k0 k) NK); auto.
    + intros k0 c0 e1 X. destruct (Nat.eq_dec k0 k) as [->|NK].
      * rewrite upd_same in X. destruct X as [X|X]; [|discriminate]. injection X as <- <-. exists k. ms. split; [now left|]. congruence.
      * rewrite upd_other in X by auto. apply OG. eapply m_own; eauto.
    + intros e1 c0 b X. apply OG. eapply m_ctx; eauto.
    + intros e1 X. destruct (m_dst _ V _ X) as (a&b&->). exists (XBest k c e :: a), b. reflexivity.
    + intros e1 L. destruct (m_nil _ V e1 L) as [A B]. split; auto. intros k0 c0 X. destruct (Nat.eq_dec k0 k) as [->|NK].
      * rewrite upd_same in X. destruct X as [X|X]; [|discriminate]. injection X as _ <-. pose proof (m_nrm _ V _ I). lia.
      * rewrite upd_other in X by auto. eapply B; eauto.
    + (* a new env *)
      set (i := nxt s) in *. destruct (m_nil _ V i (le_n _)) as [NC NH]. pose proof (m_new _ V i (le_n _)) as ND.
      assert (NO : outp s i = false). { destruct (outp s i) eqn:X; auto. apply (m_sta _ V) in X. congruence. }
      set (s1 := mkM _ _ _ _ _ _ _ _).
      assert (DS : forall e, tst (ev s1 e) = MDestroying -> tst (ev s e) = MDestroying).
      { intros e. unfold s1. ms. destruct (Nat.eq_dec e i) as [->|NE]; [rewrite upd_same; discriminate|now rewrite upd_other]. }
      assert (OG : forall c' e', owed s c' e' -> owed s1 c' e') by (intros c' e' O; apply (owed_grow s s1 [XBest k c i]); [exact O|reflexivity|auto]).
      split.
      * intros e. unfold s1. ms. destruct (Nat.eq_dec e i) as [->|NE]; [now rewrite upd_same|rewrite upd_other by auto; apply V].
      * intros e. unfold s1. ms. destruct (Nat.eq_dec e i) as [->|NE]; [rewrite upd_same; discriminate|rewrite upd_other by auto; apply V].
      * intros e. unfold s1. ms. destruct (Nat.eq_dec e i) as [->|NE]; [congruence|rewrite upd_other by auto; apply V].
      * apply V.
      * intros k0 c0 e1 X. unfold s1 in *. ms. destruct (Nat.eq_dec k0 k) as [->|NK].
        -- rewrite upd_same in X. destruct X as [X|X]; [|discriminate]. injection X as <- <-. simpl. rewrite Nat.eqb_refl, upd_same. split; auto. split; discriminate.
        -- rewrite upd_other in X by auto. assert (e1 <> i) by (intros ->; eapply NH; eauto). rewrite upd_other by auto.
           simpl. rewrite (proj2 (Nat.eqb_neq k0 k) NK). eapply m_cho; eauto.
      * intros k0 c0 e1 X. destruct (Nat.eq_dec k0 k) as [->|NK].
        -- unfold s1 in X. ms. rewrite upd_same in X. destruct X as [X|X]; [|discriminate]. injection X as <- <-. exists k. split; [now left|].
           intros X. apply DS in X. congruence.
        -- unfold s1 in X. ms. rewrite upd_other in X by auto. apply OG. eapply m_own; eauto.
      * intros e1 c0 b X. apply OG. unfold s1 in X. ms. destruct (Nat.eq_dec e1 i) as [->|NE]; [rewrite upd_same in X; destruct X|].
        rewrite upd_other in X by auto. eapply m_ctx; eauto.
      * intros e1 X. apply DS in X. destruct (m_dst _ V _ X) as (a&b&Y). unfold s1. ms. rewrite Y. exists (XBest k c i :: a), b. reflexivity.
      * intros e1 L. unfold s1 in L. cbn [nxt] in L. destruct (m_nil _ V e1) as [A B]; [lia|]. unfold s1. ms. rewrite upd_other by lia. split; auto.
        intros k0 c0 X. destruct (Nat.eq_dec k0 k) as [->|NK].
        -- rewrite upd_same in X. destruct X as [X|X]; [|discriminate]. injection X as _ <-. lia.
        -- rewrite upd_other in X by auto. eapply B; eauto.
      * intros e1 L X. unfold s1 in L. cbn [nxt] in L. apply DS in X. revert X. apply (m_new _ V). lia.
      * intros e1 [<-|X]; [unfold s1; ms; lia|]. pose proof (m_nrm _ V _ X). unfold s1. ms. lia.
      * intros r e1 X. unfold s1 in X. ms. congruence.
  - (* MCheck *)
    destruct (crt s k) as [|c e|] eqn:K; try discriminate. destruct (gone s e); [discriminate|].
    assert (HK : held (crt s k) c e) by (left; auto).
    assert (Y : s' = xlog (XThrow k c) (setcrt s k KNone) \/ s' = setcrt s k (KChk c e)).
    { destruct (tst (ev s e)); injection E as <-; auto. }
    clear E. destruct Y as [-> | ->].
    + assert (OG : forall c' e', owed s c' e' -> owed (xlog (XThrow k c) (setcrt s k KNone)) c' e')
        by (intros c' e' O; eapply (owed_grow s _ [XThrow k c]); [exact O|reflexivity|auto]).
      split; ms; try apply V.
      * intros k0 c0 e1 X. destruct (Nat.eq_dec k0 k) as [->|NK]; [rewrite upd_same in X; destruct X; discriminate|]. rewrite upd_other in X by auto.
        simpl. eapply m_cho; eauto.
      * intros k0 c0 e1 X. destruct (Nat.eq_dec k0 k) as [->|NK]; [rewrite upd_same in X; destruct X; discriminate|]. rewrite upd_other in X by auto.
        apply OG. eapply m_own; eauto.
      * intros e1 c0 b X. apply OG. eapply m_ctx; eauto.
      * intros e1 X. destruct (m_dst _ V _ X) as (a&b&->). exists (XThrow k c :: a), b. reflexivity.
      * intros e1 L. destruct (m_nil _ V e1 L) as [A B]. split; auto. intros k0 c0 X. destruct (Nat.eq_dec k0 k) as [->|NK]; [rewrite upd_same in X; destruct X; discriminate|].
        rewrite upd_other in X by auto. eapply B; eauto.
    + split; ms; try apply V.
      * intros k0 c0 e1 X. destruct (Nat.eq_dec k0 k) as [->|NK]; [|rewrite upd_other in X by auto; eapply m_cho; eauto].
        rewrite upd_same in X. destruct X as [X|X]; [discriminate|]. injection X as <- <-. eapply m_cho; eauto.
      * intros k0 c0 e1 X. destruct (Nat.eq_dec k0 k) as [->|NK]; [|rewrite upd_other in X by auto; exact (m_own _ V _ _ _ X)].
        rewrite upd_same in X. destruct X as [X|X]; [discriminate|]. injection X as <- <-. exact (m_own _ V _ _ _ HK).
      * intros e1 L. destruct (m_nil _ V e1 L) as [A B]. split; auto. intros k0 c0 X. destruct (Nat.eq_dec k0 k) as [->|NK]; [|rewrite upd_other in X by auto; eapply B; eauto].
        rewrite upd_same in X. destruct X as [X|X]; [discriminate|]. injection X as <- <-. eapply B; eauto.
  - (* MPush *)
    destruct (crt s k) as [| |c e] eqn:K; try discriminate. destruct (gone s e) eqn:GE; [discriminate|]. injection E as <-.
    assert (HK : held (crt s k) c e) by (right; auto). destruct (m_cho _ V _ _ _ HK) as (_&_&NCR).
    set (t' := set_st _ _). assert (T1 : tst t' = MDestroying -> tst (ev s e) = MDestroying).
    { unfold t', set_st, set_ctx. simpl. destruct (tst (ev s e)); simpl; congruence. }
    assert (T2 : tst (ev s e) = MDestroying -> tst t' = MDestroying). { intros X. unfold t', set_st, set_ctx. simpl. now rewrite X. }
    assert (T3 : tst t' <> MCreated). { unfold t', set_st, set_ctx. simpl. destruct (tst (ev s e)) eqn:X; simpl; congruence. }
    assert (T4 : tctx t' = tctx (ev s e) ++ [(c, true)]) by (unfold t'; now rewrite setst_ctx).
    assert (T5 : tid t' = e). { unfold t'. rewrite setst_tid. apply V. }
    set (s1 := xlog _ _).
    assert (DS : forall e1, tst (ev s1 e1) = MDestroying <-> tst (ev s e1) = MDestroying).
    { intros e1. unfold s1. ms. destruct (Nat.eq_dec e1 e) as [->|NE]; [rewrite upd_same; tauto|now rewrite upd_other]. }
    assert (OG : forall c' e', owed s c' e' -> owed s1 c' e') by (intros c' e' O; apply (owed_grow s s1 [XMade k c]); [exact O|reflexivity|apply DS]).
    assert (NK0 : forall k0 c0 e1, held (crt s1 k0) c0 e1 -> held (crt s k0) c0 e1).
    { intros k0 c0 e1. unfold s1. ms. destruct (Nat.eq_dec k0 k) as [->|NK]; [rewrite upd_same; intros [X|X]; discriminate|now rewrite upd_other]. }
    split; try apply V.
    + intros e1. unfold s1. ms. unfold upd. destruct (Nat.eqb_spec e1 e) as [->|NE]; auto. apply V.
    + intros e1. unfold s1. ms. unfold upd. destruct (Nat.eqb_spec e1 e) as [->|NE]; [congruence|apply V].
    + intros e1 X. apply DS. apply V. exact X.
    + intros k0 c0 e1 X. apply NK0 in X. destruct (m_cho _ V _ _ _ X) as (A&B&C). split; [exact A|]. split; [intros Y; apply DS in Y; now apply B|].
      unfold s1. ms. unfold upd. destruct (Nat.eqb_spec e1 e) as [->|NE]; auto.
    + intros k0 c0 e1 X. apply OG. eapply m_own; eauto.
    + intros e1 c0 b X. apply OG. unfold s1 in X. ms. unfold upd in X. destruct (Nat.eqb_spec e1 e) as [->|NE]; [|eapply m_ctx; eauto].
      rewrite T4 in X. apply in_app_or in X as [X|[X|[]]]; [eapply m_ctx; eauto|]. injection X as <- <-. eapply m_own; eauto.
    + intros e1 X. apply DS in X. destruct (m_dst _ V _ X) as (a&b&Y). unfold s1. ms. rewrite Y. exists (XMade k c :: a), b. reflexivity.
    + intros e1 L. destruct (m_nil _ V e1 L) as [A B]. split.
      * unfold s1. ms. unfold upd. destruct (Nat.eqb_spec e1 e) as [->|NE]; auto. destruct (B _ _ HK).
      * intros k0 c0 X. eapply B; eauto.
    + intros e1 L X. apply DS in X. revert X. now apply (m_new _ V).
  - (* MSel *)
    destruct (mon s) eqn:M; [discriminate|]. injection E as <-. split; ms; try apply V. intros r e X I. injection X as <-.
    rewrite victims_eq in I. apply in_map_iff in I as (t&<-&I). apply in_firstn, filter_In in I as [I _]. apply in_map_iff in I as (e&<-&I).
    rewrite (m_tid _ V). now apply (m_nrm _ V).
  - (* MStop *)
    destruct (mon s) as [[|e r]|] eqn:M; try discriminate. injection E as <-.
    set (s1 := xlog _ _). assert (NCR : tst (set_st (ev s e) MDestroying) = MDestroying) by (unfold set_st; destruct (tst (ev s e)) eqn:X; auto).
    assert (DS : forall e1, e1 <> e -> tst (ev s1 e1) = MDestroying -> tst (ev s e1) = MDestroying).
    { intros e1 NE. unfold s1. ms. now rewrite upd_other. }
    assert (OG : forall c' e', owed s c' e' -> owed s1 c' e') by (intros c' e' O; apply (owed_stop s s1 e); [exact O|reflexivity|auto]).
    split; try apply V.
    + intros e1. unfold s1. ms. unfold upd. destruct (Nat.eqb_spec e1 e) as [->|NE]; [rewrite setst_tid|]; apply V.
    + intros e1. unfold s1. ms. unfold upd. destruct (Nat.eqb_spec e1 e) as [->|NE]; [congruence|apply V].
    + intros e1 X. unfold s1. ms. unfold upd. destruct (Nat.eqb_spec e1 e) as [->|NE]; [auto|now apply V].
    + intros k0 c0 e1 X. destruct (m_cho _ V _ _ _ X) as (A&B&C). split; [exact A|]. unfold s1. ms. unfold upd. simpl.
      destruct (Nat.eqb_spec e1 e) as [->|NE]; simpl; auto. split; auto. congruence.
    + intros k0 c0 e1 X. apply OG. eapply m_own; eauto.
    + intros e1 c0 b X. apply OG. unfold s1 in X. ms. unfold upd in X. destruct (Nat.eqb_spec e1 e) as [->|NE]; [rewrite setst_ctx in X|]; eapply m_ctx; eauto.
    + intros e1 X. destruct (Nat.eq_dec e1 e) as [->|NE]; [exists [], (xh s); reflexivity|]. apply DS in X; auto. destruct (m_dst _ V _ X) as (a&b&Y).
      unfold s1. ms. rewrite Y. exists (XStop e :: a), b. reflexivity.
    + intros e1 L. destruct (m_nil _ V e1 L) as [A B]. split; auto. unfold s1. ms. unfold upd. destruct (Nat.eqb_spec e1 e) as [->|NE]; [rewrite setst_ctx|]; auto.
    + intros e1 L X. pose proof (m_mon _ V _ e M (or_introl eq_refl)) as LE. assert (NE : e1 <> e) by (unfold s1 in L; ms; lia). apply DS in X; auto. revert X.
      now apply (m_new _ V).
    + intros r0 e1 X I. unfold s1 in X. ms. injection X as <-. eapply (m_mon _ V); eauto. now right.
  - (* MRel *)
    destruct (mon s) as [[|]|]; try discriminate. injection E as <-. split; ms; try apply V. discriminate.
  - (* MRun *)
    destruct (existsb _ _ && _); [|discriminate]. injection E as <-. set (s1 := xlog _ _).
    assert (DS : forall e1, tst (ev s1 e1) = tst (ev s e1) /\ tself (ev s1 e1) = tself (ev s e1) /\ tid (ev s1 e1) = tid (ev s e1)).
    { intros e1. unfold s1. ms. unfold upd. destruct (Nat.eqb_spec e1 e) as [->|NE]; auto. }
    assert (OG : forall c' e', owed s c' e' -> owed s1 c' e') by (intros c' e' O; apply (owed_grow s s1 [XRun e c]); [exact O|reflexivity|]; now rewrite (proj1 (DS e'))).
    split; try apply V; intros e1; try (destruct (DS e1) as (->&->&->); apply V); try (rewrite (proj1 (DS e1)); apply V).
    + destruct (DS e1) as (_&_&->). apply V.
    + destruct (DS e1) as (->&->&_). apply V.
    + intros c0 e2 X. destruct (DS e2) as (->&_). apply (m_cho _ V _ _ _ X).
    + intros c0 e2 X. apply OG. eapply m_own; eauto.
    + intros c0 b X. apply OG. unfold s1 in X. ms. unfold upd in X. destruct (Nat.eqb_spec e1 e) as [->|NE]; [apply in_rmc in X|]; eapply m_ctx; eauto.
    + rewrite (proj1 (DS e1)). intros X. destruct (m_dst _ V _ X) as (a&b&Y). unfold s1. ms. rewrite Y. exists (XRun e c :: a), b. reflexivity.
    + intros L. destruct (m_nil _ V e1 L) as [A B]. split; auto. unfold s1. ms. unfold upd. destruct (Nat.eqb_spec e1 e) as [->|NE]; auto. simpl. now rewrite A.
  - (* MGoIdle *)
    destruct (tst (ev s e)) eqn:T; try discriminate. injection E as <-. set (s1 := setev _ _ _).
    assert (ST : tst (set_st (ev s e) MIdle) = MIdle) by (unfold set_st; now rewrite T).
    assert (DS : forall e1, tst (ev s1 e1) = MDestroying <-> tst (ev s e1) = MDestroying).
    { intros e1. unfold s1. ms. unfold upd. destruct (Nat.eqb_spec e1 e) as [->|NE]; [|tauto]. rewrite ST, T. split; discriminate. }
    assert (OG : forall c' e', owed s c' e' -> owed s1 c' e') by (intros c' e' O; apply (owed_grow s s1 []); [exact O|reflexivity|apply DS]).
    split; try apply V.
    + intros e1. unfold s1. ms. unfold upd. destruct (Nat.eqb_spec e1 e) as [->|NE]; [rewrite setst_tid|]; apply V.
    + intros e1. unfold s1. ms. unfold upd. destruct (Nat.eqb_spec e1 e) as [->|NE]; [congruence|apply V].
    + intros e1 X. apply DS. now apply V.
    + intros k0 c0 e1 X. destruct (m_cho _ V _ _ _ X) as (A&B&C). split; [exact A|]. rewrite DS. split; [exact B|]. unfold s1. ms. unfold upd.
      destruct (Nat.eqb_spec e1 e) as [->|NE]; auto. congruence.
    + intros k0 c0 e1 X. apply OG. eapply m_own; eauto.
    + intros e1 c0 b X. apply OG. unfold s1 in X. ms. unfold upd in X. destruct (Nat.eqb_spec e1 e) as [->|NE]; [rewrite setst_ctx in X|]; eapply m_ctx; eauto.
    + intros e1 X. apply DS in X. apply (m_dst _ V _ X).
    + intros e1 L. destruct (m_nil _ V e1 L) as [A B]. split; auto. unfold s1. ms. unfold upd. destruct (Nat.eqb_spec e1 e) as [->|NE]; [rewrite setst_ctx|]; auto.
    + intros e1 L X. apply DS in X. revert X. now apply (m_new _ V).
  - (* MLeave *)
    destruct (tst (ev s e)) eqn:T; try discriminate. destruct (outp s e); [discriminate|]. injection E as <-. split; ms; try apply V.
    + intros e1 X. destruct (Nat.eq_dec e1 e) as [Q|Q]; [now rewrite Q|]. rewrite upd_other in X by auto. now apply V.
    + intros e1 X. destruct (Nat.eq_dec e1 e) as [Q|Q]; [rewrite Q; apply upd_same|]. rewrite upd_other by auto. now apply V.
  - (* MClear *)
    destruct (existsb _ _ && _ && _); [|discriminate]. injection E as <-. set (s1 := xlog _ _).
    assert (DS : forall e1, tst (ev s1 e1) = tst (ev s e1) /\ tself (ev s1 e1) = tself (ev s e1) /\ tid (ev s1 e1) = tid (ev s e1)).
    { intros e1. unfold s1. ms. unfold upd. destruct (Nat.eqb_spec e1 e) as [->|NE]; auto. }
    assert (OG : forall c' e', owed s c' e' -> owed s1 c' e') by (intros c' e' O; apply (owed_grow s s1 [XLost e c]); [exact O|reflexivity|]; now rewrite (proj1 (DS e'))).
    split; try apply V; intros e1; try (destruct (DS e1) as (->&->&->); apply V); try (rewrite (proj1 (DS e1)); apply V).
    + destruct (DS e1) as (_&_&->). apply V.
    + destruct (DS e1) as (->&->&_). apply V.
    + intros c0 e2 X. destruct (DS e2) as (->&_). apply (m_cho _ V _ _ _ X).
    + intros c0 e2 X. apply OG. eapply m_own; eauto.
    + intros c0 b X. apply OG. unfold s1 in X. ms. unfold upd in X. destruct (Nat.eqb_spec e1 e) as [->|NE]; [apply in_rmc in X|]; eapply m_ctx; eauto.
    + rewrite (proj1 (DS e1)). intros X. destruct (m_dst _ V _ X) as (a&b&Y). unfold s1. ms. rewrite Y. exists (XLost e c :: a), b. reflexivity.
    + intros L. destruct (m_nil _ V e1 L) as [A B]. split; auto. unfold s1. ms. unfold upd. destruct (Nat.eqb_spec e1 e) as [->|NE]; auto. simpl. now rewrite A.
  - (* MExpire *)
    destruct (mon s) eqn:M; [discriminate|]. destruct (outp s e && negb (gone s e)) eqn:G; [|discriminate]. apply andb_true_iff in G as [G _]. injection E as <-.
    split; ms; try apply V; try discriminate.
    + intros e1 X. destruct (Nat.eq_dec e1 e) as [Q|Q]; [now rewrite Q|]. rewrite upd_other in X by auto. now apply V.
    + intros e1 X. apply in_remove in X. now apply V.
Qed.
Lemma mi_run : forall base max e0 n ls s, start_ok e0 -> run (mstep_ok base max) (minit e0 n) ls = Some s -> MI s.
Proof.
  intros base max e0 n ls s S R. refine (run_inv (mstep_ok base max) MI (minit e0 n) _ _ ls R); [now apply mi_init|].
  intros. eapply mi_step; eauto.
Qed.
