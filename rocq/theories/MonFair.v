(** Fair executions of an object with one mutex and condition variables: who is not waiting is served. *)
From Coq Require Import List Arith Bool Lia.
From Verif Require Import Base LinSpec LinLemmas Monitor MonitorProofs FairSpec.
Import ListNotations.

(** The steps a coroutine makes itself; a call is the client's choice. *)
Definition mwho {Op : Type} (l : mlbl Op) : option nat :=
  match l with MCall _ _ => None | MRun t _ => Some t | MLeave t => Some t end.

Section F.
  Variables (D Op Res Aux Loc : Type).
  Variable op_eqb : Op -> Op -> bool.
  Variable res_eqb : Res -> Res -> bool.
  Hypothesis op_refl : forall o, op_eqb o o = true.
  Hypothesis res_refl : forall r, res_eqb r r = true.
  Variable entry : Op -> Loc.
  Variable body : tid -> Loc -> bool -> D -> outcome D Res Aux Loc.
  Variable d0 : D.
  Notation mst := (mst D Op Res Aux Loc).
  Notation step := (mstep entry body).
  Notation init := (minit Op Res Aux Loc d0).
  Variables (st : nat -> mst) (lb : nat -> option (mlbl Op)).
  Hypothesis EX : execution _ _ step init st lb.
  Hypothesis WFair : weakly_fair _ _ step (@mwho Op) st lb.

  (** A call of [t] returns after moment [n]. *)
  Definition returns_after (t : tid) (o : Op) (n : nat) : Prop :=
    exists m r, n <= m /\ mhist (st (S m)) = ERet t o r :: mhist (st m).

  Lemma exec_run : forall n, exists ls, run step init ls = Some (st n).
  Proof.
    induction n as [|n (ls&IH)]; [exists []; simpl; now rewrite (proj1 EX)|]. pose proof (proj2 EX n) as H.
    destruct (lb n) as [l|]; [|exists ls; now rewrite H]. exists (ls ++ [l]). rewrite run_app, IH. simpl. now rewrite H.
  Qed.
  Lemma exec_wf : forall n, WF op_eqb res_eqb (st n).
  Proof.
    intros n. destruct (exec_run n) as (ls&R). revert R. apply (run_inv step (fun s => WF op_eqb res_eqb s)); [apply wf_init|].
    intros s l s' W H. eapply wf_step; eauto.
  Qed.

  Definition busy (x : tst Op Res Loc) : Prop :=
    match x with TReady _ _ | TWoken _ _ _ | TDone _ _ => True | TOut | TWait _ _ _ => False end.
  Lemma busy_nw : forall x, busy x -> forall c o l, x <> TWait c o l.
  Proof. intros x B c o l ->. exact B. Qed.
  Lemma busy_able : forall s t, busy (ths s t) -> able _ _ step (@mwho Op) s t.
  Proof.
    intros s t B. destruct (ths s t) eqn:E; try destruct B.
    - exists (MRun t true). simpl. rewrite E. eauto.
    - exists (MRun t true). simpl. rewrite E. eauto.
    - exists (MLeave t). simpl. rewrite E. eauto.
  Qed.
  Lemma stay1 : forall s l s' t, WF op_eqb res_eqb s -> step s l = Some s' -> busy (ths s t) -> mwho l <> Some t -> ths s' t = ths s t.
  Proof.
    intros s [u o|u b|u] s' t W H B N.
    - destruct (call_ths entry body _ _ _ H) as (_&K). apply K. intros ->. simpl in H. destruct (ths s u); discriminate || destruct B.
    - apply run_post with (1 := W) in H. destruct H as (o&l&_&H).
      assert (P : forall y, thr_post s s' u y -> ths s' t = ths s t).
      { intros y P. refine (P (fun v z => v = t -> z = ths s t) _ _ _ t eq_refl).
        - intros v z Hz E. rewrite (Hz E). destruct (ths s t); try reflexivity; destruct B.
        - intros v Hv ->. reflexivity.
        - intros E. simpl in N. congruence. }
      destruct (body u l b (dat s)); destruct H as (_&_&K&_); eauto.
    - destruct (leave_ths entry body _ _ H) as (_&K). apply K. simpl in N. congruence.
  Qed.
  (** Who is not waiting makes a step, and until then stays as it is. *)
  Lemma fires : forall n t, busy (ths (st n) t) ->
    exists m, n <= m /\ moves _ (@mwho Op) lb t m /\ forall k, n <= k <= m -> ths (st k) t = ths (st n) t.
  Proof.
    intros n t B. destruct (WFair t n) as (m&L&M).
    assert (G : forall j, (exists m, n <= m /\ m < n + j /\ moves _ (@mwho Op) lb t m /\ forall k, n <= k <= m -> ths (st k) t = ths (st n) t) \/
      forall k, n <= k <= n + j -> ths (st k) t = ths (st n) t).
    { induction j as [|j [(m1&A1&A2&A3)|IH]]; [right; intros k Hk; replace k with n by lia; reflexivity|left; exists m1; split; [lia|split; [lia|auto]]|].
      assert (Dec : moves _ (@mwho Op) lb t (n + j) \/ ~ moves _ (@mwho Op) lb t (n + j)).
      { unfold moves. destruct (lb (n + j)) as [l|]; [|right; intros (l&E&_); discriminate].
        assert (X : mwho l = Some t \/ mwho l <> Some t) by (destruct (mwho l) as [u|]; [destruct (Nat.eq_dec u t) as [->|N]; [now left|right; intros E; injection E as E; auto]|right; discriminate]).
        destruct X as [X|X]; [left; eauto|right; intros (l'&E&W); injection E as <-; auto]. }
      destruct Dec as [Mv|NM]; [left; exists (n + j); split; [lia|split; [lia|auto]]|]. right. intros k Hk.
      destruct (le_lt_dec k (n + j)) as [Q|Q]; [apply IH; lia|]. replace k with (S (n + j)) by lia.
      pose proof (proj2 EX (n + j)) as H. destruct (lb (n + j)) as [l|] eqn:E; [|rewrite H; apply IH; lia].
      rewrite <- (IH (n + j)) by lia. apply (stay1 _ l _ _ (exec_wf _) H).
      - rewrite IH by lia. exact B.
      - intros W. apply NM. exists l. auto. }
    destruct (G (S (m - n))) as [(m1&A1&A2&A3&A4)|K]; [exists m1; auto|].
    exists m. split; auto. split; [|intros k Hk; apply K; lia].
    destruct M as [M|M]; auto. exfalso. apply M, busy_able. rewrite K by lia. exact B.
  Qed.
  Lemma leaves : forall n t o r, ths (st n) t = TDone o r -> exists m, n <= m /\ mhist (st (S m)) = ERet t o r :: mhist (st m).
  Proof.
    intros n t o r E. destruct (fires n t) as (m&L&(l&Lb&W)&K); [rewrite E; exact I|]. exists m. split; auto.
    specialize (K m ltac:(lia)). rewrite E in K. pose proof (proj2 EX m) as H. rewrite Lb in H.
    destruct l as [u p|u b|u]; simpl in W; [discriminate| |]; injection W as ->; simpl in H; rewrite K in H; [discriminate|]. injection H as <-. reflexivity.
  Qed.
  Lemma run_fires : forall n t o l, ths (st n) t = TReady o l \/ (exists c, ths (st n) t = TWoken c o l) ->
    exists m b, n <= m /\ lb m = Some (MRun t b) /\ step (st m) (MRun t b) = Some (st (S m)) /\ ths (st m) t = ths (st n) t.
  Proof.
    intros n t o l E. destruct (fires n t) as (m&L&(x&Lb&W)&K); [destruct E as [E|(c&E)]; rewrite E; exact I|]. specialize (K m ltac:(lia)).
    pose proof (proj2 EX m) as H. rewrite Lb in H.
    destruct x as [u p|u b|u]; simpl in W; [discriminate| |]; injection W as ->; [exists m, b; repeat split; auto|].
    exfalso. simpl in H. rewrite K in H. destruct E as [E|(c&E)]; rewrite E in H; discriminate.
  Qed.

  (** The operation a coroutine is in, and where. *)
  Definition inside (x : tst Op Res Loc) (o : Op) : Prop :=
    match x with TOut => False | TReady p _ | TWait _ p _ | TWoken _ p _ | TDone p _ => p = o end.
  Definition at_loc (x : tst Op Res Loc) (l : Loc) : Prop :=
    match x with TReady _ k | TWoken _ _ k => k = l | _ => False end.
  (** [t] does not wait, and its next segment does not wait either. *)
  Definition free (mu : Loc -> nat) (s : mst) (t : tid) : Prop :=
    (forall c o l, ths s t <> TWait c o l) /\
    forall l b, at_loc (ths s t) l -> match body t l b (dat s) with ORet _ _ _ _ => True | OWait _ _ _ _ _ => False | OAgain _ _ _ l' => mu l' < mu l end.

  (** As long as it has not returned, the call goes on. *)
  Definition not_left (t n k : nat) : Prop := forall j, n <= j < k -> lb j <> Some (MLeave t).
  Lemma stays_inside : forall n t o, inside (ths (st n) t) o -> forall m, n <= m ->
    (inside (ths (st m) t) o /\ not_left t n m) \/ exists k r, (n <= k < m /\ lb k = Some (MLeave t)) /\ mhist (st (S k)) = ERet t o r :: mhist (st k).
  Proof.
    intros n t o Hin m L. induction L as [|m L [(IH&NL)|(k&r&A&B)]]; [left; split; [auto|intros j J; lia]| |right; exists k, r; split; [split; [lia|apply A]|auto]].
    assert (NL' : lb m <> Some (MLeave t) -> not_left t n (S m)) by (intros Q j J; destruct (Nat.eq_dec j m) as [->|]; [auto|apply NL; lia]).
    pose proof (proj2 EX m) as H. destruct (lb m) as [l|] eqn:Lm; [|rewrite H; left; split; [auto|apply NL'; discriminate]].
    destruct l as [u p|u b|u].
    - left. split; [|apply NL'; discriminate]. destruct (call_ths entry body _ _ _ H) as (_&K). rewrite K; auto. intros ->. simpl in H. destruct (ths (st m) u); discriminate || destruct IH.
    - left. split; [|apply NL'; discriminate]. apply run_post with (1 := exec_wf m) in H. destruct H as (p&l&Eu&H).
      assert (P : forall y, thr_post (st m) (st (S m)) u y -> (u = t -> inside y o) -> inside (ths (st (S m)) t) o).
      { intros y P Hy. refine (P (fun v z => v = t -> inside z o) _ _ _ t eq_refl).
        - intros v z Hz E. specialize (Hz E). now destruct z.
        - intros v Hv ->. exact IH.
        - exact Hy. }
      assert (Hp : u = t -> p = o) by (intros ->; destruct Eu as [Eu|(c&Eu)]; rewrite Eu in IH; exact IH).
      destruct (body u l b (dat (st m))); destruct H as (_&_&K&_); apply (P _ K); intros E; exact (Hp E).
    - destruct (Nat.eq_dec u t) as [->|N]; [|left; split; [destruct (leave_ths entry body _ _ H) as (_&K); rewrite K; auto|apply NL'; intros Q; injection Q as Q; auto]].
      right. apply leave_post in H. destruct H as (p&r&E&_&_&_&H&_). rewrite E in IH. simpl in IH. subst p. exists m, r. repeat split; auto.
  Qed.
  Theorem free_returns : forall mu n t o, inside (ths (st n) t) o -> (forall k, n <= k -> not_left t n k -> inside (ths (st k) t) o -> free mu (st k) t) -> returns_after t o n.
  Proof.
    intros mu n t o Hin F.
    assert (DoneCase : forall k, n <= k -> (exists r, ths (st k) t = TDone o r) -> returns_after t o n).
    { intros k Lk (r&E). destruct (leaves k t o r E) as (m&L&H). exists m, r. split; [lia|exact H]. }
    assert (G : forall j k l, n <= k -> mu l <= j -> (ths (st k) t = TReady o l \/ exists c, ths (st k) t = TWoken c o l) -> returns_after t o n).
    { induction j as [j IH] using lt_wf_ind. intros k l Lk Lm E. destruct (run_fires k t o l E) as (m&b&L&Lb&H&Em).
      assert (E' : ths (st m) t = TReady o l \/ exists c, ths (st m) t = TWoken c o l) by (rewrite Em; exact E).
      pose proof (run_self entry body _ _ _ H E') as R.
      destruct (stays_inside n t o Hin m) as [(Im&NL)|(k'&r'&A'&B')]; [lia| |exists k', r'; split; [lia|auto]].
      destruct (F m ltac:(lia) NL Im) as (_&F2).
      specialize (F2 l b ltac:(destruct E' as [E'|(c&E')]; rewrite E'; reflexivity)).
      destruct (body t l b (dat (st m))) as [d xs sg r|d xs sg c l'|d xs sg l'].
      - apply (DoneCase (S m)); [lia|eauto].
      - destruct F2.
      - apply (IH (mu l')) with (k := S m) (l := l'); [lia|lia|lia|auto]. }
    destruct (ths (st n) t) eqn:E; simpl in Hin; try (destruct Hin; fail); try subst o0.
    - apply (G (mu l) n l); auto.
    - exfalso. destruct (F n) as (F1&_); [lia|intros i J; lia|rewrite E; reflexivity|]. apply (F1 c o l E).
    - apply (G (mu l) n l); eauto.
    - apply (DoneCase n); eauto.
  Qed.
  Lemma called : forall n t o, lb n = Some (MCall t o) -> inside (ths (st (S n)) t) o.
  Proof. intros n t o E. pose proof (proj2 EX n) as H. rewrite E in H. apply call_ths in H. destruct H as (H&_). rewrite H. reflexivity. Qed.
  Lemma hist_grows : forall n m, n <= m -> exists newer, mhist (st m) = newer ++ mhist (st n).
  Proof.
    intros n m L. induction L as [|m L (nw&IH)]; [exists []; reflexivity|]. pose proof (proj2 EX m) as H. destruct (lb m) as [l|]; [|exists nw; now rewrite H].
    apply step_hist with (1 := exec_wf m) in H. destruct H as (nw'&E&_). exists (nw' ++ nw). now rewrite E, IH, app_assoc.
  Qed.
  (** A call returns if from some moment on its coroutine is free whenever it is still inside. *)
  Theorem call_served : forall mu n t o K, lb n = Some (MCall t o) ->
    (forall k, K <= k -> n < k -> not_left t (S n) k -> inside (ths (st k) t) o -> free mu (st k) t) ->
    exists m r, n < m /\ mhist (st (S m)) = ERet t o r :: mhist (st m).
  Proof.
    intros mu n t o K C F. destruct (stays_inside (S n) t o (called n t o C) (max (S n) K)) as [(X&NL)|(k&r&A&B)]; [lia| |exists k, r; split; [lia|auto]].
    destruct (free_returns mu (max (S n) K) t o X) as (m&r&A&B).
    { intros k Lk NL'. apply F; [lia|lia|]. intros j J. destruct (le_lt_dec (max (S n) K) j); [apply NL'; lia|apply NL; lia]. }
    exists m, r. split; [lia|auto].
  Qed.
End F.

(** Executions that make a list of steps and then stop, as witnesses. *)
Section Finite.
  Variables (state label : Type) (step : state -> label -> option state) (init last : state) (ls : list label).
  Hypothesis R : run step init ls = Some last.
  Definition fst_ (n : nat) : state := match run step init (firstn n ls) with Some s => s | None => init end.
  Definition flb (n : nat) : option label := nth_error ls n.
  Lemma fin_snoc : forall (l : list label) i x, nth_error l i = Some x -> firstn (S i) l = firstn i l ++ [x].
  Proof. induction l as [|y l IH]; intros [|i] x E; simpl in *; try discriminate; [now injection E as ->|]. f_equal. now apply IH. Qed.
  Lemma fin_exec : execution _ _ step init fst_ flb.
  Proof.
    split; [reflexivity|]. intros n. unfold fst_, flb. destruct (nth_error ls n) as [x|] eqn:E.
    - rewrite (fin_snoc _ _ _ E), run_app. pose proof R as R'. rewrite <- (firstn_skipn (S n) ls), (fin_snoc _ _ _ E), run_app, run_app in R'.
      destruct (run step init (firstn n ls)) as [s|]; [|discriminate]. simpl in *. now destruct (step s x).
    - apply nth_error_None in E. now rewrite !firstn_all2 by lia.
  Qed.
  Lemma fin_last : forall n, length ls <= n -> fst_ n = last.
  Proof. intros n L. unfold fst_. now rewrite firstn_all2, R by lia. Qed.
  Lemma fin_fair : forall who, (forall t, ~ able _ _ step who last t) -> strongly_fair _ _ step who fst_ flb.
  Proof. intros who N t n. exists (max n (length ls)). split; [lia|]. right. intros k L. rewrite fin_last by lia. apply N. Qed.
End Finite.
Lemma strong_weak : forall state label (step : state -> label -> option state) who st lb,
  strongly_fair _ _ step who st lb -> weakly_fair _ _ step who st lb.
Proof. intros state label step who st lb F t n. destruct (F t n) as (m&L&[M|M]); exists m; split; auto. Qed.
Lemma out_unable : forall D Op Res Aux Loc entry (body : tid -> Loc -> bool -> D -> outcome D Res Aux Loc) (s : mst D Op Res Aux Loc) t,
  ths s t = TOut \/ (exists c o l, ths s t = TWait c o l) -> ~ able _ _ (mstep entry body) (@mwho Op) s t.
Proof.
  intros D Op Res Aux Loc entry body s t E (l&s'&W&H).
  destruct l as [u o|u b|u]; simpl in W; [discriminate| |]; injection W as ->; simpl in H; destruct E as [E|(c&o&l&E)]; rewrite E in H; discriminate.
Qed.

(** Tools for witnesses that go on for ever. *)
Section M.
  Variables (D Op Res Aux Loc : Type).
  Variable op_eqb : Op -> Op -> bool.
  Variable res_eqb : Res -> Res -> bool.
  Hypothesis op_refl : forall o, op_eqb o o = true.
  Hypothesis res_refl : forall r, res_eqb r r = true.
  Variable entry : Op -> Loc.
  Variable body : tid -> Loc -> bool -> D -> outcome D Res Aux Loc.
  Variable d0 : D.
  Notation mst := (mst D Op Res Aux Loc).
  Notation step := (mstep entry body).
  Notation init := (minit Op Res Aux Loc d0).

  (** States that differ only in the representation of their functions. *)
  Definition meq (a b : mst) : Prop :=
    dat a = dat b /\ mhist a = mhist b /\ (forall t, ths a t = ths b t) /\ (forall c, qs a c = qs b c) /\ forall c, wk a c = wk b c.
  Lemma meq_sym : forall a b, meq a b -> meq b a.
  Proof. intros a b (A1&A2&A3&A4&A5). repeat split; auto. Qed.
  Lemma meq_trans : forall a b c, meq a b -> meq b c -> meq a c.
  Proof. intros a b c (A1&A2&A3&A4&A5) (B1&B2&B3&B4&B5). split; [congruence|]. split; [congruence|]. split; [intros; now rewrite A3|]. split; intros; [now rewrite A4|now rewrite A5]. Qed.
  Lemma upd_eq : forall A (f g : nat -> A) i x, (forall t, f t = g t) -> forall t, upd f i x t = upd g i x t.
  Proof. intros A f g i x F t. unfold upd. destruct (t =? i); auto. Qed.
  Lemma meq_notify1 : forall a b c, meq a b -> meq (notify1 a c) (notify1 b c).
  Proof.
    intros a b c (A1&A2&A3&A4&A5). unfold notify1. rewrite <- (A4 c). destruct (qs a c) as [|t r]; [repeat split; auto|].
    split; [exact A1|]. split; [exact A2|]. cbn [ths qs wk]. rewrite A3, A5. split; [|split]; now apply upd_eq.
  Qed.
  Lemma meq_notify_n : forall n a b c, meq a b -> meq (notify_n n a c) (notify_n n b c).
  Proof. induction n as [|n IH]; intros a b c H; simpl; auto. apply IH, meq_notify1, H. Qed.
  Lemma meq_notifies : forall sg a b, meq a b -> meq (fold_left (@notify D Op Res Aux Loc) sg a) (fold_left (@notify D Op Res Aux Loc) sg b).
  Proof.
    induction sg as [|g sg IH]; intros a b H; simpl; auto. apply IH. destruct g as [c|c]; simpl; [now apply meq_notify1|].
    destruct H as (A1&A2&A3&A4&A5). rewrite A4. apply meq_notify_n. repeat split; auto.
  Qed.
  Lemma meq_mk : forall d h th th' q q' w w', (forall t, th t = th' t) -> (forall c, q c = q' c) -> (forall c, w c = w' c) -> meq (mkM d th q w h) (mkM d th' q' w' h).
  Proof. intros. repeat split; auto. Qed.
  Lemma meq_body : forall a b t o l x, meq a b -> meq (run_body body a t o l x) (run_body body b t o l x).
  Proof.
    intros a b t o l x (A1&A2&A3&A4&A5). unfold run_body. rewrite A1, A2. destruct (body t l x (dat b)) as [d xs sg r|d xs sg c l'|d xs sg l'].
    - apply meq_notifies, meq_mk; auto using upd_eq.
    - assert (M : meq (fold_left (@notify D Op Res Aux Loc) sg (mkM d (upd (ths a) t (TReady o l')) (qs a) (wk a) (log_aux t xs (mhist b))))
                      (fold_left (@notify D Op Res Aux Loc) sg (mkM d (upd (ths b) t (TReady o l')) (qs b) (wk b) (log_aux t xs (mhist b))))) by (apply meq_notifies, meq_mk; auto using upd_eq).
      destruct M as (M1&M2&M3&M4&M5). cbn [dat ths qs wk mhist]. rewrite M1, M2, M4. apply meq_mk; auto using upd_eq.
    - apply meq_notifies, meq_mk; auto using upd_eq.
  Qed.
  Lemma meq_step : forall a b l a', meq a b -> step a l = Some a' -> exists b', step b l = Some b' /\ meq a' b'.
  Proof.
    intros a b l a' (A1&A2&A3&A4&A5) H. destruct l as [t o|t x|t]; simpl in *; rewrite <- A3; destruct (ths a t) as [|o' l'|c' o' l'|c' o' l'|o' r']; try discriminate; injection H as <-;
      (eexists; split; [reflexivity|]).
    - rewrite A1, A2. apply meq_mk; auto using upd_eq.
    - apply meq_body. repeat split; auto.
    - apply meq_body. rewrite A1, A2, A5. apply meq_mk; auto using upd_eq.
    - rewrite A1, A2. apply meq_mk; auto using upd_eq.
  Qed.
  Lemma meq_run : forall ls a b a', meq a b -> run step a ls = Some a' -> exists b', run step b ls = Some b' /\ meq a' b'.
  Proof.
    induction ls as [|l ls IH]; intros a b a' E H; simpl in *; [injection H as <-; eauto|]. destruct (step a l) as [a1|] eqn:S1; [|discriminate].
    destruct (meq_step _ _ _ _ E S1) as (b1&S'&E'). rewrite S'. eauto.
  Qed.

  Variables (st : nat -> mst) (lb : nat -> option (mlbl Op)).
  Hypothesis EX : execution _ _ step init st lb.
  (** Only a return step returns. *)
  Lemma ret_label : forall m t o r, mhist (st (S m)) = ERet t o r :: mhist (st m) -> lb m = Some (MLeave t).
  Proof.
    intros m t o r E. pose proof (proj2 EX m) as H. assert (N : forall A (x : A) l, x :: l <> l) by (intros A x l Q; apply (f_equal (@length A)) in Q; simpl in Q; lia).
    destruct (lb m) as [l|]; [|rewrite H in E; symmetry in E; now apply N in E].
    pose proof (exec_wf _ _ _ _ _ _ _ op_refl res_refl _ _ _ st lb EX m) as W. destruct l as [u p|u b|u].
    - apply call_post in H. destruct H as (_&_&_&_&H&_). rewrite H in E. discriminate.
    - apply run_post with (1 := W) in H. destruct H as (p&l&_&H).
      destruct (body u l b (dat (st m))) as [d xs sg r'|d xs sg c l'|d xs sg l']; destruct H as (_&H&_); rewrite H in E; [discriminate| |];
        rewrite log_aux_app in E; destruct (rev (map (fun x => EAux u x) xs)) as [|e es] eqn:R; simpl in E; try (symmetry in E; now apply N in E);
        assert (J : In e (rev (map (fun x => @EAux Op Res Aux u x) xs))) by (rewrite R; now left); rewrite <- in_rev in J; apply in_map_iff in J; destruct J as (x&J&_); congruence.
    - apply leave_post in H. destruct H as (p&r'&_&_&_&_&H&_). rewrite H in E. injection E as -> -> ->. reflexivity.
  Qed.
  (** Who never calls is never inside. *)
  Lemma never_out : forall t, (forall n o, lb n <> Some (MCall t o)) -> forall n, ths (st n) t = TOut.
  Proof.
    intros t N. induction n as [|n IH]; [rewrite (proj1 EX); reflexivity|]. pose proof (proj2 EX n) as H. destruct (lb n) as [l|] eqn:E; [|now rewrite H].
    pose proof (exec_wf _ _ _ _ _ _ _ op_refl res_refl _ _ _ st lb EX n) as W. destruct l as [u p|u b|u].
    - assert (u <> t) by (intros ->; now apply (N n p)). destruct (call_ths entry body _ _ _ H) as (_&K). rewrite K; auto.
    - pose proof H as H0. apply run_post with (1 := W) in H. destruct H as (p&l&Eu&H).
      assert (Nu : u <> t) by (intros ->; destruct Eu as [Eu|(c&Eu)]; congruence).
      assert (P : forall y, thr_post (st n) (st (S n)) u y -> ths (st (S n)) t = TOut).
      { intros y P. refine (P (fun v z => v = t -> z = TOut) _ _ _ t eq_refl); [intros v z Hz Q; now rewrite (Hz Q)|intros v _ ->; exact IH|congruence]. }
      destruct (body u l b (dat (st n))); destruct H as (_&_&K&_); eauto.
    - destruct (leave_ths entry body _ _ H) as (_&K). rewrite K; auto. intros <-. simpl in H. rewrite IH in H. discriminate.
  Qed.
End M.
