(** Invariants of [LockModel]. *)
From Coq Require Import List Arith Bool Lia Relations.
From Verif Require Import Base LockModel.
Import ListNotations.

(** ** Every lock is held by one thread at a time, in every execution. *)
Definition TI (s : lst) : Prop := forall l x y, In x (lk s l) -> In y (lk s l) -> th x = th y.

Lemma avail_spec : forall s a l, TI s -> avail s a l = true <-> (forall b, In b (lk s l) -> th b = th a).
Proof.
  intros s a l T. unfold avail. pose proof (T l) as Tl. destruct (lk s l) as [|b r] eqn:E; split; intros H; try tauto.
  - intros x [].
  - intros x I. apply Nat.eqb_eq in H. rewrite <- H. apply Tl; simpl; auto.
  - apply Nat.eqb_eq. apply H. simpl; auto.
Qed.
Lemma take_lk : forall s a l y, lk (take s a l) y = if lock_eq y l then a :: lk s l else lk s y.
Proof. reflexivity. Qed.
Lemma TI_take : forall s a l, TI s -> avail s a l = true -> TI (take s a l).
Proof.
  intros s a l T A y b c. rewrite take_lk. pose proof (proj1 (avail_spec s a l T) A) as P.
  destruct (lock_eq y l) as [->|N]; [|apply T]. simpl. intros [<-|B] [<-|C]; auto; [symmetry; auto|now apply T with l].
Qed.
Lemma avail_take : forall s a l l', TI s -> avail s a l = true -> avail s a l' = true -> avail (take s a l) a l' = true.
Proof.
  intros s a l l' T A A'. apply avail_spec; [now apply TI_take|]. intros b. rewrite take_lk.
  destruct (lock_eq l' l) as [->|N].
  - intros [<-|B]; auto. now apply (proj1 (avail_spec s a l T)).
  - now apply (proj1 (avail_spec s a l' T)).
Qed.
Lemma TI_take_all : forall ls s a, TI s -> forallb (avail s a) ls = true -> TI (take_all s a ls).
Proof.
  induction ls as [|l ls IH]; intros s a T A; simpl in *; auto. apply andb_prop in A as [A B].
  apply IH; [now apply TI_take|]. apply forallb_forall. intros x I. rewrite forallb_forall in B. apply avail_take; auto.
Qed.
Lemma rem1_in : forall a b xs, In b (rem1 a xs) -> In b xs.
Proof. induction xs as [|x xs IH]; simpl; auto. destruct (agent_eq x a); simpl; intuition. Qed.
Lemma TI_same : forall s s', lk s' = lk s -> TI s -> TI s'.
Proof. unfold TI. intros s s' -> H. exact H. Qed.
Lemma take_all_frame : forall ls s a, grd (take_all s a ls) = grd s /\ pr (take_all s a ls) = pr s /\ cur (take_all s a ls) = cur s /\
  fin (take_all s a ls) = fin s /\ acc (take_all s a ls) = acc s /\ use (take_all s a ls) = use s /\ sig (take_all s a ls) = sig s.
Proof. induction ls as [|l ls IH]; intros; simpl; [intuition|]. destruct (IH (take s a l) a) as (A&B&C&D&E&F&G). intuition. Qed.

Lemma TI_do : forall s a o s', TI s -> do_op s a o = Some s' -> TI s'.
Proof.
  intros s a o s' T S. destruct o; simpl in S; try (injection S as <-; exact T); try discriminate.
  - destruct (avail s a l) eqn:A; [|discriminate]. injection S as <-. now apply TI_take.
  - destruct (forallb (avail s a) ls) eqn:A; [|discriminate]. injection S as <-. now apply TI_take_all.
  - destruct (has a (lk s l)); [|discriminate]. injection S as <-. intros y b c. simpl.
    destruct (lock_eq y l) as [->|N]; [|apply T]. intros B C. apply T with l; eauto using rem1_in.
  - destruct (acc s o); try discriminate. injection S as <-. exact T.
  - destruct (acc s o); try discriminate. destruct (aeqb a0 a); [|discriminate]. injection S as <-. exact T.
  - destruct (acc s (OC c)); try discriminate. destruct (use s c); [|discriminate]. injection S as <-. exact T.
Qed.
Lemma TI_step : forall s l s', TI s -> lstep s l = Some s' -> TI s'.
Proof.
  intros s l s' T S. destruct l; simpl in S.
  - destruct a; [|discriminate]. destruct (pr s (AC t k0)); try discriminate.
    destruct (_ && _ && _); [|discriminate]. injection S as <-. exact T.
  - unfold step_of in S. destruct (aeqb _ a); [|discriminate]. destruct (pr s a); try discriminate.
    + destruct (do_op s a o) as [s1|] eqn:E; [|discriminate]. injection S as <-. exact (TI_do _ _ _ _ T E).
    + destruct (avail s a l) eqn:A; injection S as <-; [exact (TI_take _ _ _ T A)|exact T].
    + injection S as <-. exact T.
    + injection S as <-. exact T.
  - destruct (pr s a) as [|o k| | |]; try discriminate. destruct o; try discriminate. destruct b; [|discriminate].
    destruct (_ && _); [|discriminate]. injection S as <-. exact T.
  - destruct (cur s t); [|discriminate]. destruct (sig s t && _ && _) eqn:A; [|discriminate]. injection S as <-.
    apply andb_prop in A as [_ A]. exact (TI_take _ _ _ T A).
Qed.
Lemma TI_reach : forall ls s, run lstep linit ls = Some s -> TI s.
Proof. intros ls s R. eapply (run_inv lstep); [|exact TI_step|exact R]. intros l x y []. Qed.

(** ** The order of the locks. *)
Definition rank (l : lock) : nat :=
  match l with
  | TQ | TDur => 0 | Tm _ => 1 | EvTick | EvTask _ => 2 | Mgr => 3 | Fin _ => 4 | EvFin _ => 5 | Sched _ => 6 | Wait _ => 7
  | Prio _ => 8 | EvPrio _ => 9 | Normal _ => 10 | MinP _ => 11
  end.
Definition is_tm (l : lock) : Prop := match l with Tm _ => True | _ => False end.
Definition ordered (h : list lock) (l : lock) : Prop :=
  (forall x, In x h -> rank x < rank l) \/ (is_tm l /\ In TQ h /\ forall x, In x h -> rank x <= rank l).
Definition obj_of (l : lock) : option obj :=
  match l with
  | EvTask e | Sched e | Normal e | MinP e => Some (OE e)
  | EvFin c | EvPrio c | Fin c | Wait c | Prio c => Some (OC c)
  | _ => None
  end.
(** What an activity knows: finished coroutines; coroutines found unfinished under their lock; objects only it can reach;
    objects everybody can reach; coroutines its call is about. *)
Record know := mkK { kf : list nat; kn : list nat; km : list obj; kp : list obj; ku : list nat }.
Definition usable (K : know) (l : lock) : Prop :=
  (forall o, obj_of l = Some o -> In o (km K) \/ In o (kp K)) /\ (forall c, l = EvFin c -> In c (kf K) \/ In c (kn K)).
Definition okacq (K : know) (h : list lock) (l : lock) : Prop :=
  In l h \/ (usable K l /\ (ordered h l \/ (exists o, obj_of l = Some o /\ In o (km K)) \/ (exists c, l = EvFin c /\ In c (kn K)))).
Fixpoint remlk (l : lock) (xs : list lock) : list lock :=
  match xs with [] => [] | x :: r => if lock_eq x l then r else x :: remlk l r end.
Definition addf (c : nat) (K : know) := mkK (c :: kf K) (kn K) (km K) (kp K) (ku K).
Definition addn (c : nat) (K : know) := mkK (kf K) (c :: kn K) (km K) (kp K) (ku K).
Definition addm (o : obj) (K : know) := mkK (kf K) (kn K) (o :: km K) (kp K) (ku K).
Definition publ (o : obj) (K : know) := mkK (kf K) (kn K) (remove obj_eq o (km K)) (o :: kp K) (ku K).
Definition unlk (l : lock) (K : know) :=
  mkK (kf K) (match l with Fin c => remove Nat.eq_dec c (kn K) | _ => kn K end) (km K) (kp K) (ku K).

Fixpoint good (K : know) (h : list lock) (q : prog) : Prop :=
  match q with
  | Ret => h = []
  | Do o k =>
      match o with
      | Acq l => okacq K h l /\ good K (l :: h) k
      | All ls => (forall l, In l ls -> usable K l /\ ordered h l) /\ good K (ls ++ h) k
      | Rel l => In l h /\ (forall c, l = Fin c -> ~ In (EvFin c) h) /\ good (unlk l K) (remlk l h) k
      | Inc | Dec | Send _ => good K h k
      | Park => h = [] /\ good K h k
      | New o => ~ In o (km K) -> ~ In o (kp K) -> good (addm o K) h k
      | Pub o => In o (km K) /\ (forall c, o = OC c -> In c (ku K)) /\ good (publ o K) h k
      | Retire c => ~ In c (ku K) -> good (addm (OC c) K) h k
      | SetFin c => In (Fin c) h /\ ~ In c (kn K) /\ good (addf c K) h k
      | Yield => h = [] /\ good K h k
      | Leave => h = [] /\ k = Ret
      | Halt => h = []
      end
  | Try l k1 k2 => usable K l /\ good K (l :: h) k1 /\ good K h k2
  | IfFree e k1 k2 => (~ In (Sched e) h -> good K h k1) /\ good K h k2
  | Test c k1 k2 => In (Fin c) h /\ good (addf c K) h k1 /\ good (addn c K) h k2
  end.

Record facts (s : lst) (a : agent) (K : know) (h : list lock) : Prop := mkF {
  f_f : forall c, In c (kf K) -> fin s c = true;
  f_n : forall c, In c (kn K) -> fin s c = false /\ In (Fin c) h;
  f_m : forall o, In o (km K) -> acc s o = AMine a;
  f_p : forall o, In o (kp K) -> acc s o = APub /\ forall c, o = OC c -> In a (use s c);
  f_u : forall c, In c (ku K) -> In a (use s c);
  f_h : forall l o, In l h -> obj_of l = Some o -> acc s o = AMine a \/ (acc s o = APub /\ forall c, o = OC c -> In a (use s c));
  f_e : forall c, In (EvFin c) h -> fin s c = true \/ In (Fin c) h }.
Record AI (s : lst) (a : agent) (K : know) (h : list lock) : Prop := mkAI {
  i_good : good K h (pr s a);
  i_cnt : forall l, count_occ agent_eq (lk s l) a = count_occ lock_eq h l;
  i_cur : h <> [] -> cur s (th a) = a;
  i_fac : facts s a K h;
  i_ah : forall t, a = AH t -> pr s a = Ret }.
Definition LI (s : lst) : Prop := TI s /\ forall a, exists K h, AI s a K h.

Definition K0 : know := mkK [] [] [] [] [].
Lemma facts0 : forall s a, facts s a K0 [].
Proof. intros s a. constructor; simpl; intuition. Qed.
Lemma LI_init : LI linit.
Proof.
  split; [intros l x y []|]. intros a. exists K0, []. constructor; auto; try reflexivity; try apply facts0.
  congruence.
Qed.

Lemma held_in : forall s a K h l, AI s a K h -> In l h <-> In a (lk s l).
Proof. intros s a K h l A. rewrite (count_occ_In lock_eq), (count_occ_In agent_eq). now rewrite (i_cnt _ _ _ _ A). Qed.
(** Whoever holds a lock is alone. *)
Lemma alone : forall s a b l, LI s -> In a (lk s l) -> In b (lk s l) -> a = b.
Proof.
  intros s a b l (T&I) A B. destruct (I a) as (K&h&Ia), (I b) as (K'&h'&Ib).
  apply (held_in _ _ _ _ _ Ia) in A as A'. apply (held_in _ _ _ _ _ Ib) in B as B'.
  rewrite <- (i_cur _ _ _ _ Ia), <- (i_cur _ _ _ _ Ib); [|intros ->; destruct B'|intros ->; destruct A'].
  f_equal. now apply T with l.
Qed.

Lemma count_remlk : forall l y xs, In l xs -> count_occ lock_eq (remlk l xs) y = if lock_eq y l then pred (count_occ lock_eq xs y) else count_occ lock_eq xs y.
Proof.
  induction xs as [|x xs IH]; intros I; [destruct I|]. simpl. destruct (lock_eq x l) as [E|N].
  - subst x. destruct (lock_eq l y), (lock_eq y l); try congruence; auto.
  - destruct I as [E|I]; [congruence|]. simpl. rewrite IH by auto. destruct (lock_eq x y), (lock_eq y l); congruence.
Qed.
Lemma count_rem1 : forall a b xs, count_occ agent_eq (rem1 a xs) b = if agent_eq b a then pred (count_occ agent_eq xs b) else count_occ agent_eq xs b.
Proof.
  induction xs as [|x xs IH]; simpl; [destruct (agent_eq b a); auto|]. destruct (agent_eq x a) as [E|N].
  - subst x. destruct (agent_eq a b), (agent_eq b a); try congruence; auto.
  - simpl. rewrite IH. destruct (agent_eq x b), (agent_eq b a); congruence.
Qed.
Lemma remlk_in : forall l y xs, In y (remlk l xs) -> In y xs.
Proof. induction xs as [|x xs IH]; simpl; auto. destruct (lock_eq x l); simpl; intuition. Qed.
Lemma remlk_keep : forall l y xs, In y xs -> y <> l -> In y (remlk l xs).
Proof. induction xs as [|x xs IH]; simpl; auto. intros [E|I] N; destruct (lock_eq x l); simpl; auto; congruence. Qed.
Lemma has_in : forall a xs, has a xs = true <-> In a xs.
Proof.
  intros a xs. unfold has. rewrite existsb_exists. unfold aeqb. split.
  - intros (x&I&E). destruct (agent_eq a x); [now subst|discriminate].
  - intros I. exists a. split; auto. destruct (agent_eq a a); congruence.
Qed.
Lemma aeqb_eq : forall a b, aeqb a b = true <-> a = b.
Proof. intros a b. unfold aeqb. destruct (agent_eq a b); split; congruence. Qed.

(** What a step of one activity leaves for the others. *)
Lemma frame : forall s s' a b K h, LI s -> AI s b K h -> b <> a ->
  pr s' b = pr s b ->
  (forall l, count_occ agent_eq (lk s' l) b = count_occ agent_eq (lk s l) b) ->
  (cur s (th b) = b -> h <> [] -> cur s' (th b) = b) ->
  (forall c, fin s c = true -> fin s' c = true) ->
  (forall c, fin s' c = fin s c \/ In a (lk s (Fin c))) ->
  (forall o, acc s o = AMine b -> acc s' o = AMine b) ->
  (forall o, acc s o = APub -> acc s' o = APub \/ exists c, o = OC c /\ ~ In b (use s c)) ->
  (forall c, In b (use s c) -> In b (use s' c)) -> AI s' b K h.
Proof.
  intros s s' a b K h L I N P C Cu F1 F2 A1 A2 U. pose proof I as [G Cn Cr Fc Ah]. constructor.
  - now rewrite P.
  - intros l. now rewrite C.
  - intros Hn. apply Cu; auto.
  - destruct Fc as [ff fn fm fp fu fh fe]. constructor.
    + auto.
    + intros c X. destruct (fn c X) as [X1 X2]. split; auto. destruct (F2 c) as [Y|Y]; [now rewrite Y|].
      exfalso. apply N. eapply alone; eauto. now apply (held_in _ _ _ _ _ I).
    + auto.
    + intros o X. destruct (fp o X) as [X1 X2]. split; [|intros; auto]. destruct (A2 o X1) as [Y|(c&Y1&Y2)]; auto. exfalso; auto.
    + auto.
    + intros l o X Y. destruct (fh l o X Y) as [Z|[Z1 Z2]]; [left; auto|right]. split; [|intros; auto].
      destruct (A2 o Z1) as [W|(c&W1&W2)]; auto. exfalso; auto.
    + intros c X. destruct (fe c X); auto.
  - intros t E. rewrite P. eauto.
Qed.
Lemma count_take_other : forall s a b l y, b <> a -> count_occ agent_eq (lk (take s a l) y) b = count_occ agent_eq (lk s y) b.
Proof. intros s a b l y N. rewrite take_lk. destruct (lock_eq y l) as [->|M]; auto. simpl. destruct (agent_eq a b); congruence. Qed.
Lemma count_take_all_other : forall ls s a b y, b <> a -> count_occ agent_eq (lk (take_all s a ls) y) b = count_occ agent_eq (lk s y) b.
Proof. induction ls as [|l ls IH]; intros s a b y N; simpl; auto. rewrite IH by auto. now apply count_take_other. Qed.
Lemma count_take_all_same : forall ls s a y, count_occ agent_eq (lk (take_all s a ls) y) a = count_occ lock_eq ls y + count_occ agent_eq (lk s y) a.
Proof.
  induction ls as [|l ls IH]; intros s a y; simpl; auto. rewrite IH, take_lk.
  destruct (lock_eq y l), (lock_eq l y); try congruence; subst; simpl; auto. destruct (agent_eq a a); [lia|congruence].
Qed.
Lemma count_app_lk : forall (xs ys : list lock) y, count_occ lock_eq (xs ++ ys) y = count_occ lock_eq xs y + count_occ lock_eq ys y.
Proof. intros. apply count_occ_app. Qed.

(** The facts after taking locks. *)
Lemma facts_take : forall s a K h l, facts s a K h -> (In l h \/ usable K l) -> facts (take s a l) a K (l :: h).
Proof.
  intros s a K h l [ff fn fm fp fu fh fe] U. constructor; simpl; auto.
  - intros c X. destruct (fn c X); auto.
  - intros y o [<-|I] O; [|eauto]. destruct U as [U|[U _]]; [eauto|]. destruct (U o O) as [X|X]; auto.
  - intros c [E|I]; [subst l|].
    + destruct U as [U|[_ U]]; [destruct (fe c U); auto|]. destruct (U c eq_refl) as [X|X]; auto. right; right. now apply fn.
    + destruct (fe c I); auto.
Qed.
Lemma facts_take_all : forall ls s a K h, facts s a K h -> (forall l, In l ls -> usable K l) -> facts (take_all s a ls) a K (ls ++ h).
Proof.
  intros ls s a K h [ff fn fm fp fu fh fe] U. destruct (take_all_frame ls s a) as (_&_&_&E1&E2&E3&_). constructor; rewrite ?E1, ?E2, ?E3; auto.
  - intros c X. destruct (fn c X). split; auto. apply in_or_app; auto.
  - intros y o I O. apply in_app_or in I as [I|I]; [|eauto]. destruct (U y I) as [X _]. destruct (X o O); auto.
  - intros c I. apply in_app_or in I as [I|I].
    + destruct (U _ I) as [_ X]. destruct (X c eq_refl) as [Y|Y]; auto. right. apply in_or_app. right. now apply fn.
    + destruct (fe c I); auto. right. apply in_or_app; auto.
Qed.
Lemma facts_same : forall s s' a K h, fin s' = fin s -> acc s' = acc s -> use s' = use s -> facts s a K h -> facts s' a K h.
Proof. intros s s' a K h E1 E2 E3 [ff fn fm fp fu fh fe]. constructor; rewrite ?E1, ?E2, ?E3; auto. Qed.
Lemma pr_same : forall s a k, pr (with_pr s a k) a = k.
Proof. intros. simpl. destruct (agent_eq a a); congruence. Qed.
Lemma pr_other : forall s a b k, b <> a -> pr (with_pr s a k) b = pr s b.
Proof. intros. simpl. destruct (agent_eq b a); congruence. Qed.

(** An activity is only held up by others if the order of the locks allows it. *)
Definition wants (s : lst) (a : agent) (l : lock) : Prop :=
  exists k, pr s a = Do (Acq l) k \/ exists ls, pr s a = Do (All ls) k /\ In l ls.
Lemma wants_ordered : forall s a K h l b, LI s -> AI s a K h -> wants s a l -> In b (lk s l) -> th b <> th a -> ordered h l.
Proof.
  intros s a K h l b L I W B N. destruct W as (k&[E|(ls&E&Il)]).
  2:{ pose proof (i_good _ _ _ _ I) as G. rewrite E in G. now apply G. }
  pose proof (i_good _ _ _ _ I) as G. rewrite E in G. destruct G as [[G|(U&G)] _].
  - exfalso. apply N. f_equal. eapply alone; eauto. now apply (held_in _ _ _ _ _ I).
  - destruct G as [G|[(o&O&M)|(c&->&M)]]; auto; exfalso.
    + destruct L as (T&L). destruct (L b) as (K'&h'&Ib). pose proof (f_m _ _ _ _ (i_fac _ _ _ _ I) o M) as X.
      apply (held_in _ _ _ _ _ Ib) in B. destruct (f_h _ _ _ _ (i_fac _ _ _ _ Ib) l o B O) as [Y|[Y _]]; [|congruence].
      rewrite X in Y. injection Y as <-. congruence.
    + destruct (f_n _ _ _ _ (i_fac _ _ _ _ I) c M) as [X1 X2]. destruct (proj2 L b) as (K'&h'&Ib).
      apply (held_in _ _ _ _ _ Ib) in B as B'. destruct (f_e _ _ _ _ (i_fac _ _ _ _ Ib) c B') as [Y|Y]; [congruence|].
      apply N. f_equal. eapply alone with (l := Fin c); eauto; [now apply (held_in _ _ _ _ _ Ib)|now apply (held_in _ _ _ _ _ I)].
Qed.

(** ** Steps. *)
Lemma step_AI_self : forall s a s1 o k K h, LI s -> AI s a K h -> cur s (th a) = a -> pr s a = Do o k -> do_op s a o = Some s1 ->
  exists K' h', AI (with_pr s1 a k) a K' h'.
Proof.
  intros s a s1 o k K h L I Cu E S. pose proof L as (T&_). pose proof I as [G Cn Cr Fc Ah]. rewrite E in G.
  assert (AHk : forall t, a = AH t -> k = Ret) by (intros t X; specialize (Ah t X); congruence).
  destruct o; simpl in S.
  - destruct (avail s a l) eqn:A; [|discriminate]. injection S as <-. destruct G as [G1 G2]. exists K, (l :: h). constructor.
    + now rewrite pr_same.
    + intros y. change (lk (with_pr (take s a l) a k)) with (lk (take s a l)). rewrite take_lk. simpl.
      destruct (lock_eq y l), (lock_eq l y); try congruence; subst; simpl; rewrite ?Cn; auto. destruct (agent_eq a a); congruence.
    + auto.
    + apply facts_same with (take s a l); auto. apply facts_take; auto. destruct G1 as [G1|[G1 _]]; auto.
    + intros t X. rewrite pr_same. eauto.
  - destruct (forallb (avail s a) ls) eqn:A; [|discriminate]. injection S as <-. destruct G as [G1 G2]. exists K, (ls ++ h).
    destruct (take_all_frame ls s a) as (_&_&E3&_). constructor.
    + now rewrite pr_same.
    + intros y. change (lk (with_pr (take_all s a ls) a k)) with (lk (take_all s a ls)). rewrite count_take_all_same, count_app_lk. now rewrite Cn.
    + intros _. simpl. now rewrite E3.
    + apply facts_same with (take_all s a ls); auto. apply facts_take_all; auto. intros l X. now apply G1.
    + intros t X. rewrite pr_same. eauto.
  - destruct (has a (lk s l)) eqn:A; [|discriminate]. injection S as <-. destruct G as (G1&G2&G3). exists (unlk l K), (remlk l h). constructor.
    + now rewrite pr_same.
    + intros y. simpl. rewrite count_remlk by auto. destruct (lock_eq y l) as [->|N]; [|now rewrite Cn].
      rewrite count_rem1, Cn. destruct (agent_eq a a); congruence.
    + auto.
    + destruct Fc as [ff fn fm fp fu fh fe]. constructor; simpl; auto.
      * intros c X. assert (Y : In c (kn K)) by (destruct l; auto; apply in_remove in X; tauto).
        destruct (fn c Y) as [Y1 Y2]. split; auto. apply remlk_keep; auto. intros <-. apply in_remove in X. tauto.
      * intros y ob I1 O. apply (fh y ob); auto. eapply remlk_in; eauto.
      * intros c X. destruct (fe c) as [Y|Y]; [eauto using remlk_in|auto|]. right. apply remlk_keep; auto.
        intros <-. apply (G2 c eq_refl). eauto using remlk_in.
    + intros t X. rewrite pr_same. eauto.
  - injection S as <-. exists K, h. constructor; auto.
    + now rewrite pr_same.
    + apply facts_same with s; auto.
    + intros t X. rewrite pr_same. eauto.
  - injection S as <-. exists K, h. constructor; auto.
    + now rewrite pr_same.
    + apply facts_same with s; auto.
    + intros t X. rewrite pr_same. eauto.
  - destruct (acc s o) eqn:A; try discriminate. injection S as <-. exists (addm o K), h. constructor; auto.
    + rewrite pr_same. apply G; intros X; [apply (f_m _ _ _ _ Fc) in X|apply (f_p _ _ _ _ Fc) in X]; [congruence|]. destruct X; congruence.
    + destruct Fc as [ff fn fm fp fu fh fe]. constructor; simpl; auto.
      * intros x [<-|X]; destruct (obj_eq _ _); auto; congruence.
      * intros x X. destruct (fp x X) as [Y1 Y2]. split; auto. destruct (obj_eq x o); [congruence|auto].
      * intros l x X O. destruct (obj_eq x o) as [->|N]; auto. eapply fh; eauto.
    + intros t X. rewrite pr_same. eauto.
  - destruct (acc s o) eqn:A; try discriminate. destruct (aeqb a0 a) eqn:B; [|discriminate]. injection S as <-. apply aeqb_eq in B. subst a0.
    destruct G as (G1&G2&G3). exists (publ o K), h. constructor; auto.
    + now rewrite pr_same.
    + destruct Fc as [ff fn fm fp fu fh fe]. constructor; simpl; auto.
      * intros x X. apply in_remove in X as [X1 X2]. destruct (obj_eq x o); [congruence|auto].
      * intros x [<-|X].
        -- destruct (obj_eq o o); [|congruence]. split; [reflexivity|]. intros c ->. apply fu. now apply G2.
        -- destruct (fp x X) as [Y1 Y2]. split; auto. destruct (obj_eq x o); auto.
      * intros l x X O. destruct (obj_eq x o) as [->|N]; [|eapply fh; eauto]. right. split; [reflexivity|]. intros c ->. apply fu. now apply G2.
    + intros t X. rewrite pr_same. eauto.
  - destruct (acc s (OC c)) eqn:A; try discriminate. destruct (use s c) eqn:B; [|discriminate]. injection S as <-.
    assert (NU : ~ In c (ku K)) by (intros X; apply (f_u _ _ _ _ Fc) in X; rewrite B in X; destruct X).
    exists (addm (OC c) K), h. constructor; auto.
    + rewrite pr_same. now apply G.
    + destruct Fc as [ff fn fm fp fu fh fe]. constructor; simpl; auto.
      * intros x [<-|X]; destruct (obj_eq _ _); auto; congruence.
      * intros x X. destruct (fp x X) as [Y1 Y2]. split; auto. destruct (obj_eq x (OC c)) as [->|N]; auto.
        specialize (Y2 c eq_refl). rewrite B in Y2. destruct Y2.
      * intros l x X O. destruct (obj_eq x (OC c)) as [->|N]; auto. eapply fh; eauto.
    + intros t X. rewrite pr_same. eauto.
  - injection S as <-. destruct G as (G1&G2&G3). exists (addf c K), h. constructor; auto.
    + now rewrite pr_same.
    + destruct Fc as [ff fn fm fp fu fh fe]. constructor; simpl; auto.
      * intros x [<-|X]; [apply upd_same|]. unfold upd. destruct (x =? c); auto.
      * intros x X. destruct (fn x X). split; auto. rewrite upd_other; auto. intros ->. auto.
      * intros x X. destruct (fe x X); auto. left. unfold upd. destruct (x =? c); auto.
    + intros t X. rewrite pr_same. eauto.
  - injection S as <-. exists K, h. constructor; auto.
    + now rewrite pr_same.
    + apply facts_same with s; auto.
    + intros t X. rewrite pr_same. eauto.
  - injection S as <-. exists K, h. constructor; auto.
    + rewrite pr_same; apply G.
    + apply facts_same with s; auto.
    + intros t X. rewrite pr_same. eauto.
  - discriminate.
  - injection S as <-. destruct G as (->&->). exists K0, []. constructor; auto.
    + now rewrite pr_same.
    + constructor; simpl; intuition.
    + intros t X. now rewrite pr_same.
  - discriminate.
Qed.
Lemma step_AI_other : forall s a s1 o k K h b Kb hb, LI s -> AI s a K h -> pr s a = Do o k -> do_op s a o = Some s1 ->
  b <> a -> AI s b Kb hb -> AI (with_pr s1 a k) b Kb hb.
Proof.
  intros s a s1 o k K h b Kb hb L I E S N Ib. pose proof I as [G Cn Cr Fc Ah]. rewrite E in G.
  apply frame with s a; auto.
  - rewrite pr_other by auto. destruct o; simpl in S; try (injection S as <-; reflexivity); try discriminate.
    + destruct (avail s a l); [|discriminate]. injection S as <-; (reflexivity || exact X).
    + destruct (forallb _ ls); [|discriminate]. injection S as <-. destruct (take_all_frame ls s a) as (_&EQ&_); rewrite EQ; (reflexivity || exact X).
    + destruct (has a (lk s l)); [|discriminate]. injection S as <-; (reflexivity || exact X).
    + destruct (acc s o); try discriminate. injection S as <-; (reflexivity || exact X).
    + destruct (acc s o); try discriminate. destruct (aeqb a0 a); [|discriminate]. injection S as <-; (reflexivity || exact X).
    + destruct (acc s (OC c)); try discriminate. destruct (use s c); [|discriminate]. injection S as <-; (reflexivity || exact X).
  - intros y. destruct o; simpl in S; try (injection S as <-; reflexivity); try discriminate.
    + destruct (avail s a l); [|discriminate]. injection S as <-. now apply (count_take_other s a b l y).
    + destruct (forallb _ ls); [|discriminate]. injection S as <-. now apply (count_take_all_other ls s a b y).
    + destruct (has a (lk s l)); [|discriminate]. injection S as <-. simpl. destruct (lock_eq y l) as [->|M]; auto. rewrite count_rem1.
      destruct (agent_eq b a); congruence.
    + destruct (acc s o); try discriminate. injection S as <-; (reflexivity || exact X).
    + destruct (acc s o); try discriminate. destruct (aeqb a0 a); [|discriminate]. injection S as <-; (reflexivity || exact X).
    + destruct (acc s (OC c)); try discriminate. destruct (use s c); [|discriminate]. injection S as <-; (reflexivity || exact X).
  - intros X _. change (cur (with_pr s1 a k)) with (cur s1).
    destruct o; simpl in S; try (injection S as <-; exact X); try discriminate.
    + destruct (avail s a l); [|discriminate]. injection S as <-; (reflexivity || exact X).
    + destruct (forallb _ ls); [|discriminate]. injection S as <-. destruct (take_all_frame ls s a) as (_&_&EQ&_); rewrite EQ; (reflexivity || exact X).
    + destruct (has a (lk s l)); [|discriminate]. injection S as <-; (reflexivity || exact X).
    + destruct (acc s o); try discriminate. injection S as <-; (reflexivity || exact X).
    + destruct (acc s o); try discriminate. destruct (aeqb a0 a); [|discriminate]. injection S as <-; (reflexivity || exact X).
    + destruct (acc s (OC c)); try discriminate. destruct (use s c); [|discriminate]. injection S as <-; (reflexivity || exact X).
  - intros c X. change (fin (with_pr s1 a k) c) with (fin s1 c). destruct o; simpl in S; try (injection S as <-; exact X); try discriminate.
    + destruct (avail s a l); [|discriminate]. injection S as <-; (reflexivity || exact X).
    + destruct (forallb _ ls); [|discriminate]. injection S as <-. destruct (take_all_frame ls s a) as (_&_&_&EQ&_); rewrite EQ; (reflexivity || exact X).
    + destruct (has a (lk s l)); [|discriminate]. injection S as <-; (reflexivity || exact X).
    + destruct (acc s o); try discriminate. injection S as <-; (reflexivity || exact X).
    + destruct (acc s o); try discriminate. destruct (aeqb a0 a); [|discriminate]. injection S as <-; (reflexivity || exact X).
    + destruct (acc s (OC c0)); try discriminate. destruct (use s c0); [|discriminate]. injection S as <-; (reflexivity || exact X).
    + injection S as <-. simpl. unfold upd. destruct (c =? c0); auto.
  - intros c. change (fin (with_pr s1 a k) c) with (fin s1 c). destruct o; simpl in S; try (injection S as <-; left; reflexivity); try discriminate.
    + destruct (avail s a l); [|discriminate]. injection S as <-. now left.
    + destruct (forallb _ ls); [|discriminate]. injection S as <-. left. destruct (take_all_frame ls s a) as (_&_&_&EQ&_); rewrite EQ; (reflexivity || exact X).
    + destruct (has a (lk s l)); [|discriminate]. injection S as <-. now left.
    + destruct (acc s o); try discriminate. injection S as <-. now left.
    + destruct (acc s o); try discriminate. destruct (aeqb a0 a); [|discriminate]. injection S as <-. now left.
    + destruct (acc s (OC c0)); try discriminate. destruct (use s c0); [|discriminate]. injection S as <-. now left.
    + injection S as <-. simpl. unfold upd. destruct (c =? c0) eqn:Ec; auto. apply Nat.eqb_eq in Ec. subst c0. right.
      apply (held_in _ _ _ _ _ I). now destruct G.
  - intros o' X. change (acc (with_pr s1 a k) o') with (acc s1 o'). destruct o; simpl in S; try (injection S as <-; exact X); try discriminate.
    + destruct (avail s a l); [|discriminate]. injection S as <-; (reflexivity || exact X).
    + destruct (forallb _ ls); [|discriminate]. injection S as <-. destruct (take_all_frame ls s a) as (_&_&_&_&EQ&_); rewrite EQ; (reflexivity || exact X).
    + destruct (has a (lk s l)); [|discriminate]. injection S as <-; (reflexivity || exact X).
    + destruct (acc s o) eqn:A; try discriminate. injection S as <-. simpl. destruct (obj_eq o' o); congruence.
    + destruct (acc s o) eqn:A; try discriminate. destruct (aeqb a0 a) eqn:B; [|discriminate]. injection S as <-. apply aeqb_eq in B.
      simpl. destruct (obj_eq o' o); congruence.
    + destruct (acc s (OC c)) eqn:A; try discriminate. destruct (use s c); [|discriminate]. injection S as <-. simpl. destruct (obj_eq o' (OC c)); congruence.
  - intros o' X. change (acc (with_pr s1 a k) o') with (acc s1 o'). destruct o; simpl in S; try (injection S as <-; left; exact X); try discriminate.
    + destruct (avail s a l); [|discriminate]. injection S as <-. now left.
    + destruct (forallb _ ls); [|discriminate]. injection S as <-. left. destruct (take_all_frame ls s a) as (_&_&_&_&EQ&_); rewrite EQ; (reflexivity || exact X).
    + destruct (has a (lk s l)); [|discriminate]. injection S as <-. now left.
    + destruct (acc s o) eqn:A; try discriminate. injection S as <-. simpl. destruct (obj_eq o' o); [congruence|now left].
    + destruct (acc s o) eqn:A; try discriminate. destruct (aeqb a0 a) eqn:B; [|discriminate]. injection S as <-. simpl. destruct (obj_eq o' o); auto.
    + destruct (acc s (OC c)) eqn:A; try discriminate. destruct (use s c) eqn:B; [|discriminate]. injection S as <-. simpl.
      destruct (obj_eq o' (OC c)) as [->|M]; [|now left]. right. exists c. split; auto. rewrite B. auto.
  - intros c X. change (use (with_pr s1 a k) c) with (use s1 c). destruct o; simpl in S; try (injection S as <-; exact X); try discriminate.
    + destruct (avail s a l); [|discriminate]. injection S as <-; (reflexivity || exact X).
    + destruct (forallb _ ls); [|discriminate]. injection S as <-. destruct (take_all_frame ls s a) as (_&_&_&_&_&EQ&_); rewrite EQ; (reflexivity || exact X).
    + destruct (has a (lk s l)); [|discriminate]. injection S as <-; (reflexivity || exact X).
    + destruct (acc s o); try discriminate. injection S as <-; (reflexivity || exact X).
    + destruct (acc s o); try discriminate. destruct (aeqb a0 a); [|discriminate]. injection S as <-; (reflexivity || exact X).
    + destruct (acc s (OC c0)); try discriminate. destruct (use s c0); [|discriminate]. injection S as <-; (reflexivity || exact X).
    + injection S as <-. simpl. apply filter_In. split; auto. unfold aeqb. destruct (agent_eq b a); [congruence|reflexivity].
Qed.

(** ** Calls that start or stop no timer, in executions without switch signals. *)
Definition plain (k : call) : Prop :=
  match k with
  | KTimerQueue _ _ | KSleep _ _ _ _ _ | KWaitFor _ _ _ _ _ _ _ _ | KCvUntil _ _ _ _ _ _ => False
  | KRun _ u _ => u = None
  | KFinish _ subs => forall x, In x subs -> fst x = None
  | _ => True
  end.
Definition calm (l : llbl) : Prop :=
  match l with LCall _ k => plain k | LSig _ _ => False | _ => True end.

(** ** The programs of the calls keep to the order. *)
Definition below (r : nat) (h : list lock) : Prop := forall x, In x h -> rank x < r.
Definition knows (K : know) (o : obj) : Prop := In o (km K) \/ In o (kp K).
Definition sub (K K' : know) : Prop :=
  incl (kf K) (kf K') /\ kn K' = kn K /\ incl (km K) (km K') /\ incl (kp K) (kp K') /\ incl (ku K) (ku K').
Lemma sub_refl : forall K, sub K K.
Proof. unfold sub. intuition. Qed.
Lemma sub_trans : forall K1 K2 K3, sub K1 K2 -> sub K2 K3 -> sub K1 K3.
Proof. unfold sub. intros K1 K2 K3 (a&b&c&d&e) (a'&b'&c'&d'&e'). repeat split; try congruence; eapply incl_tran; eauto. Qed.
Lemma knows_sub : forall K K' o, sub K K' -> knows K o -> knows K' o.
Proof. intros K K' o (_&_&c&d&_) [X|X]; [left|right]; auto. Qed.
Lemma okacq_sub : forall K K' h l, sub K K' -> okacq K h l -> okacq K' h l.
Proof.
  intros K K' h l S [X|((U1&U2)&X)]; [now left|right]. pose proof S as (a&b&c&d&e). split; [split|].
  - intros o O. apply (knows_sub K); auto. now apply U1.
  - intros x E. rewrite b. destruct (U2 x E); auto.
  - rewrite b. destruct X as [X|[(o&O&X)|X]]; [now left|right; left; exists o; auto|now right; right].
Qed.
Lemma usable_sub : forall K K' l, sub K K' -> usable K l -> usable K' l.
Proof.
  intros K K' l S (U1&U2). pose proof S as (a&b&c&d&e). split.
  - intros o O. apply (knows_sub K); auto. now apply U1.
  - intros x E. rewrite b. destruct (U2 x E); auto.
Qed.
Lemma unlk_id : forall K l, (forall c, l <> Fin c) -> unlk l K = K.
Proof. intros [] l N. unfold unlk. simpl. destruct l; auto. now destruct (N c). Qed.
Lemma remlk_hd : forall l h, remlk l (l :: h) = h.
Proof. intros. simpl. destruct (lock_eq l l); congruence. Qed.
Lemma remlk_tl : forall l x h, x <> l -> remlk l (x :: h) = x :: remlk l h.
Proof. intros. simpl. destruct (lock_eq x l); congruence. Qed.

Definition st (K : know) (h : list lock) (q : piece) : Prop :=
  forall K1 k, sub K K1 -> (forall K2, sub K1 K2 -> good K2 h k) -> good K1 h (q k).
Lemma st_sub : forall K K' h q, sub K K' -> st K h q -> st K' h q.
Proof. intros K K' h q S H K1 k S1 G. apply H; auto. eapply sub_trans; eauto. Qed.
Lemma st_skip : forall K h, st K h skip.
Proof. intros K h K1 k S G. apply G, sub_refl. Qed.
Lemma st_seq : forall K h p q, st K h p -> st K h q -> st K h (p ;; q).
Proof.
  intros K h p q P Q K1 k S G. apply P; auto. intros K2 S2. apply Q; [eapply sub_trans; eauto|].
  intros K3 S3. apply G. eapply sub_trans; eauto.
Qed.
Lemma st_each : forall A (f : A -> piece) xs K h, (forall x, In x xs -> st K h (f x)) -> st K h (each f xs).
Proof. induction xs as [|x xs IH]; intros K h H; simpl; [apply st_skip|]. apply st_seq; [apply H; simpl; auto|apply IH; intros; apply H; simpl; auto]. Qed.
Lemma st_opt : forall A (x : option A) f K h, (forall y, x = Some y -> st K h (f y)) -> st K h (opt x f).
Proof. intros A [y|] f K h H; simpl; [now apply H|apply st_skip]. Qed.
Lemma st_when : forall b p K h, st K h p -> st K h (when b p).
Proof. intros [] p K h H; simpl; [auto|apply st_skip]. Qed.
Lemma st_op : forall o K h, match o with Inc | Dec | Send _ => True | _ => False end -> st K h (do_ o).
Proof. intros o K h E K1 k S G. destruct o; try contradiction; simpl; apply G, sub_refl. Qed.
Lemma st_guarded : forall p K h, st K h p -> st K h (guarded p).
Proof. intros p K h H. unfold guarded. apply st_seq; [now apply st_op|]. apply st_seq; [auto|now apply st_op]. Qed.
Lemma st_rel : forall K h l q, (forall c, l <> Fin c) -> st K h q -> forall K1 k, sub K K1 -> (forall K2, sub K1 K2 -> good K2 h k) ->
  good K1 (l :: h) (do_ (Rel l) (q k)).
Proof.
  intros K h l q N Q K1 k S G. unfold do_. simpl good. split; [now left|]. split; [intros c E; now destruct (N c)|].
  destruct (lock_eq l l); [|congruence]. rewrite unlk_id by auto. now apply Q.
Qed.
Lemma st_wl : forall l p K h, (forall c, l <> Fin c) -> okacq K h l -> st K (l :: h) p -> st K h (wl l p).
Proof.
  intros l p K h N O P K1 k S G. unfold wl, seq. simpl. split; [eapply okacq_sub; eauto|].
  apply P; auto. intros K2 S2. apply (st_rel K2 h l skip); auto using st_skip, sub_refl. intros K3 S3. apply G. eapply sub_trans; eauto.
Qed.

(** Acquisitions that follow the order. *)
Lemma ok_in : forall K h l, In l h -> okacq K h l.
Proof. now left. Qed.
Lemma ok_env : forall K h l e r, obj_of l = Some (OE e) -> knows K (OE e) -> below r h -> r <= rank l -> okacq K h l.
Proof.
  intros K h l e r O X B R. right. split; [split|].
  - intros o Y. replace o with (OE e) by congruence. exact X.
  - intros c ->. discriminate.
  - left. left. intros x I. specialize (B x I). lia.
Qed.
Lemma ok_ctx : forall K h l c r, obj_of l = Some (OC c) -> (forall d, l <> EvFin d) -> knows K (OC c) -> below r h -> r <= rank l -> okacq K h l.
Proof.
  intros K h l c r O NE X B R. right. split; [split|].
  - intros o Y. replace o with (OC c) by congruence. exact X.
  - intros d ->. now destruct (NE d).
  - left. left. intros x I. specialize (B x I). lia.
Qed.
Lemma ok_mine : forall K h l o, obj_of l = Some o -> (forall d, l <> EvFin d) -> In o (km K) -> okacq K h l.
Proof.
  intros K h l o O NE X. right. split; [split|].
  - intros o' Y. left. congruence.
  - intros d ->. now destruct (NE d).
  - right. left. eauto.
Qed.
Lemma ok_free : forall K h l r, obj_of l = None -> below r h -> r <= rank l -> okacq K h l.
Proof.
  intros K h l r O B R. right. split; [split|].
  - congruence.
  - intros d ->. discriminate.
  - left. left. intros x I. specialize (B x I). lia.
Qed.
Lemma below_cons : forall r l h, rank l < r -> below r h -> below r (l :: h).
Proof. intros r l h R B x [<-|I]; auto. Qed.
Lemma below_le : forall r r' h, below r h -> r <= r' -> below r' h.
Proof. intros r r' h B L x I. specialize (B x I). lia. Qed.
Lemma below_nil : forall r, below r [].
Proof. intros r x []. Qed.

Local Ltac nf := let c := fresh in intros c; discriminate.
Local Ltac bl := first [assumption | apply below_nil | apply below_cons; [simpl; lia | bl] | eapply below_le; [eassumption | simpl; lia]].
Local Ltac inh := first [left; reflexivity | right; inh | assumption].

Lemma st_priority : forall K h c, knows K (OC c) -> below 8 h \/ In (OC c) (km K) \/ In (Prio c) h -> st K h (priority c).
Proof.
  intros K h c X Y. apply st_wl; [nf| |apply st_skip]. destruct Y as [Y|[Y|Y]].
  - eapply ok_ctx; eauto; try nf; reflexivity.
  - eapply ok_mine; eauto; try nf; reflexivity.
  - now apply ok_in.
Qed.
Lemma st_update_min : forall K h e, knows K (OE e) -> below 11 h -> st K h (update_min e).
Proof. intros K h e X B. apply st_wl; [nf| |apply st_skip]. eapply ok_env; eauto; reflexivity. Qed.
Lemma st_set_priority : forall K h c e, knows K (OC c) -> (forall x, e = Some x -> knows K (OE x)) -> below 8 h -> st K h (set_priority c e).
Proof.
  intros K h c e X Y B. apply st_wl; [nf| |].
  - eapply ok_ctx; eauto; try nf; reflexivity.
  - apply st_opt. intros x ->. specialize (Y x eq_refl). apply st_wl; [nf| |].
    + apply ok_ctx with c 9; auto; try nf. bl.
    + apply st_wl; [nf| |].
      * apply ok_env with x 10; auto. bl.
      * apply st_seq; [|apply st_seq].
        -- apply st_priority; auto. right; right. inh.
        -- apply st_priority; auto. right; right. inh.
        -- apply st_update_min; auto. bl.
Qed.
Lemma st_set_priority_mine : forall K h c, In (OC c) (km K) -> st K h (set_priority c None).
Proof. intros K h c X. apply st_wl; [nf|eapply ok_mine; eauto; try nf; reflexivity|apply st_skip]. Qed.
Lemma st_set_state : forall K h e, knows K (OE e) -> below 6 h \/ In (Sched e) h \/ In (OE e) (km K) -> st K h (set_state e).
Proof.
  intros K h e X [B|[B|B]]; (apply st_wl; [nf| |apply st_skip]); [eapply ok_env; eauto; reflexivity|now apply ok_in|].
  eapply ok_mine; eauto; try nf; reflexivity.
Qed.
Lemma st_wake_up : forall K h e, knows K (OE e) -> below 6 h -> st K h (wake_up e).
Proof. intros K h e X B. apply st_guarded. now apply st_set_state; auto. Qed.
Lemma st_workload : forall K h e, knows K (OE e) -> below 10 h -> st K h (workload e).
Proof. intros K h e X B. apply st_wl; [nf| |apply st_skip]. eapply ok_env; eauto; reflexivity. Qed.
Lemma st_stop_schedule : forall K h e, knows K (OE e) -> below 6 h -> st K h (stop_schedule e).
Proof. intros K h e X B. apply st_seq; [apply st_set_state; auto|now apply st_wake_up]. Qed.

Lemma us_env : forall K l e, obj_of l = Some (OE e) -> knows K (OE e) -> usable K l.
Proof. intros K l e O X. split; [intros o Y; replace o with (OE e) by congruence; exact X|intros c ->; discriminate]. Qed.
Lemma or_below : forall h l r, below r h -> r <= rank l -> ordered h l.
Proof. intros h l r B R. left. intros x I. specialize (B x I). lia. Qed.
Lemma st_look : forall K h e, knows K (OE e) -> below 10 h -> st K h (look e).
Proof.
  intros K h e X B K1 k S G. unfold look, seq, do_. cbn [good app].
  assert (X1 : knows K1 (OE e)) by (eapply knows_sub; eauto).
  split; [|split; [right; left; reflexivity|split; [nf|]]].
  - intros l [<-|[<-|[]]]; (split; [eapply us_env; eauto; reflexivity|apply or_below with 10; simpl; auto]).
  - rewrite remlk_tl, remlk_hd, !unlk_id by (discriminate || nf). split; [left; reflexivity|split; [nf|]].
    rewrite remlk_hd. apply G, sub_refl.
Qed.
Lemma st_env_info : forall K h e, knows K (OE e) -> below 6 h -> st K h (env_info e).
Proof.
  intros K h e X B K1 k S G. unfold env_info, seq, do_. cbn [good app].
  assert (X1 : knows K1 (OE e)) by (eapply knows_sub; eauto).
  split; [|split; [inh|split; [nf|]]].
  - intros l [<-|[<-|[<-|[]]]]; (split; [eapply us_env; eauto; reflexivity|apply or_below with 6; simpl; auto; lia]).
  - rewrite remlk_tl, remlk_tl, remlk_hd, !unlk_id by (discriminate || nf). split; [inh|split; [nf|]].
    rewrite remlk_tl, remlk_hd by discriminate. split; [inh|split; [nf|]]. rewrite remlk_hd. apply G, sub_refl.
Qed.
Lemma st_park : forall K, st K [] (do_ Park).
Proof. intros K K1 k S G. simpl. split; auto. apply G, sub_refl. Qed.
(** Giving a lock up for a while. *)
Lemma st_gap : forall K h l p, (forall c, l <> Fin c) -> okacq K h l -> st K h p -> st K (l :: h) (do_ (Rel l) ;; p ;; do_ (Acq l)).
Proof.
  intros K h l p N O P K1 k S G. unfold seq. cbn beta. apply (st_rel K h l p); auto. intros K2 S2. unfold do_. cbn [good]. split.
  - eapply okacq_sub; [|eauto]. eapply sub_trans; eauto.
  - auto.
Qed.
Lemma seq4 : forall p a b c d k, (p ;; a ;; b ;; c ;; d) k = (p ;; (a ;; b ;; c) ;; d) k.
Proof. reflexivity. Qed.
Lemma st_rounds : forall n K e, knows K (OE e) -> st K [Sched e] (rounds e n).
Proof.
  induction n as [|n IH]; intros K e X; [apply st_skip|]. cbn [rounds]. intros K1 k S. rewrite seq4. revert K1 k S.
  apply (st_seq K [Sched e]); [apply st_look; auto; bl|]. apply st_seq; [|now apply IH].
  apply st_gap; [nf| |apply st_park]. apply ok_env with e 0; auto using below_nil; simpl; lia.
Qed.
Lemma st_sleep_if_need : forall K e n, knows K (OE e) -> st K [] (sleep_if_need e n).
Proof.
  intros K e n X. apply st_guarded. apply st_wl; [nf|apply ok_env with e 0; auto using below_nil; simpl; lia|].
  apply st_seq; [now apply st_rounds|apply st_look; auto; bl].
Qed.
Lemma st_all_ctx : forall K h e, knows K (OE e) -> below 10 h -> st K h (all_ctx e).
Proof. intros K h e X B. apply st_guarded. now apply st_workload. Qed.
Lemma sub_addm : forall K o, sub K (addm o K).
Proof. intros K o. unfold sub, addm; simpl. intuition. Qed.
Lemma st_remove_ctx : forall K h e c, knows K (OE e) -> below 10 h -> st K h (remove_ctx e c).
Proof.
  intros K h e c X B K1 k S G. unfold remove_ctx, seq at 1, do_ at 1. cbn [good]. intros _.
  assert (X1 : knows (addm (OC c) K1) (OE e)) by (eapply knows_sub; [|exact X]; eapply sub_trans; [exact S|apply sub_addm]).
  apply (st_seq (addm (OC c) K1)); [| |apply sub_refl|].
  - apply st_wl; [nf|eapply ok_env; eauto; reflexivity|]. apply st_priority; [left; left; reflexivity|right; left; left; reflexivity].
  - apply st_guarded, st_skip.
  - intros K2 S2. apply G. eapply sub_trans; [apply sub_addm|exact S2].
Qed.
Lemma ok_sched : forall K h e, knows K (OE e) -> below 6 h -> okacq K h (Sched e).
Proof. intros K h e X B. eapply ok_env; eauto; reflexivity. Qed.
Lemma st_prepare : forall K e x, knows K (OE e) -> st K [Sched e] (prepare e x).
Proof.
  intros K e x X. destruct x; cbn [prepare].
  - apply st_seq; [apply st_look; auto; bl|apply st_set_state; auto; right; left; inh].
  - apply st_seq; [apply st_look; auto; bl|apply st_set_state; auto; right; left; inh].
  - apply st_seq; [apply st_when, st_look; auto; bl|]. apply st_gap; [nf|apply ok_sched; auto; bl|now apply st_sleep_if_need].
  - apply st_skip.
Qed.
Lemma st_yield : forall K, st K [] (do_ Yield).
Proof. intros K K1 k S G. simpl. split; auto. apply G, sub_refl. Qed.
Lemma st_go : forall K e, knows K (OE e) -> st K [Sched e] (go e).
Proof. intros K e X. apply st_gap; [nf|apply ok_sched; auto; bl|apply st_yield]. Qed.
Lemma st_schedule_switch : forall K e rem x, knows K (OE e) -> st K [] (schedule_switch e rem x).
Proof.
  intros K e rem x X. apply st_wl; [nf|apply ok_sched; auto; bl|].
  apply st_seq; [apply st_all_ctx; auto; bl|]. apply st_seq; [apply st_each; intros c _; apply st_remove_ctx; auto; bl|].
  apply st_seq; [now apply st_prepare|]. destruct x; [apply st_skip|now apply st_go|now apply st_when, st_go|now apply st_guarded, st_go].
Qed.

(** Pieces that create objects. *)
Definition stx (K : know) (h : list lock) (q : piece) (P : know -> Prop) : Prop :=
  forall K1 k, sub K K1 -> (forall K2, sub K1 K2 -> P K2 -> good K2 h k) -> good K1 h (q k).
Lemma sub_pub : forall K K2 o, ~ In o (km K) -> sub (addm o K) K2 -> sub K (publ o K2).
Proof.
  intros K K2 o N (a&b&c&d&e). unfold sub, publ, addm in *; simpl in *. repeat split; auto.
  - intros x I. apply in_in_remove; [intros ->; auto|]. apply c. now right.
  - intros x I. right. auto.
Qed.
Lemma below8 : forall h, below 3 h -> below 8 h.
Proof. intros h B. eapply below_le; eauto. lia. Qed.
Lemma publ_kp : forall o K, In o (kp (publ o K)).
Proof. intros. left. reflexivity. Qed.
Lemma publ_other : forall o o' K, o' <> o -> In o' (km K) -> In o' (km (publ o K)).
Proof. intros. simpl. now apply in_in_remove. Qed.
(** The two objects of create_env are published. *)
Lemma pub_two : forall K K1 h c e k, sub (addm (OE e) (addm (OC c) K)) K1 -> ~ In (OC c) (km K) -> ~ In (OE e) (km K) -> In c (ku K) ->
  (forall K2, sub K K2 -> In (OE e) (kp K2) -> good K2 h k) -> good K1 h (do_ (Pub (OC c)) (do_ (Pub (OE e)) k)).
Proof.
  intros K K1 h c e k S N1 N2 U G. unfold do_. cbn [good]. pose proof S as (a1&b1&c1&d1&e1).
  split; [apply c1; right; left; reflexivity|]. split; [intros x E; injection E as <-; apply e1; exact U|].
  split; [apply publ_other; [discriminate|apply c1; left; reflexivity]|]. split; [intros x E; discriminate|].
  apply G; [|apply publ_kp]. unfold sub, publ, addm in *; simpl in *. repeat split; auto.
  - intros x I. apply in_in_remove; [intros ->; auto|]. apply in_in_remove; [intros ->; auto|]. apply c1. now right; right.
  - intros x I. right; right. auto.
Qed.
Lemma st_create_env : forall K h e c, In c (ku K) -> below 3 h \/ In Mgr h -> stx K h (create_env e c) (fun K' => In (OE e) (kp K')).
Proof.
  intros K h e c U B K1 k S G. unfold create_env, create_idle. unfold seq at 1 2. unfold do_ at 1. cbn [good]. intros N1 _.
  apply st_set_priority_mine with (K := addm (OC c) K1); [left; reflexivity|apply sub_refl|]. intros K2 S2.
  unfold seq at 1. unfold do_ at 1. cbn [good]. intros N2 _. pose proof (sub_addm K2 (OE e)) as S3. set (K3 := addm (OE e) K2) in *.
  assert (M : In (OE e) (km K3)) by (left; reflexivity).
  apply (st_seq K3 h (set_state e) (wl (EvTask e) skip)); [| |apply sub_refl|].
  - apply st_set_state; [now left|now right; right].
  - apply st_wl; [nf|eapply ok_mine; eauto; try nf; reflexivity|apply st_skip].
  - intros K4 S4. unfold wl, seq. unfold do_ at 1. cbn [good]. split.
    { destruct B as [B|B]; [|now apply ok_in]. eapply ok_free; eauto; reflexivity. }
    assert (NN : ~ In (OE e) (km K1)) by (intros X; apply N2; destruct S2 as (_&_&c2&_); apply c2; now right).
    apply pub_two with (K := K1); auto.
    + eapply sub_trans; [|exact S4]. unfold sub, addm, K3 in *; simpl in *. destruct S2 as (a2&b2&c2&d2&e2). simpl in *. repeat split; auto.
      intros x [<-|I]; [now left|right; auto].
    + destruct S as (_&_&_&_&e1). auto.
    + intros K5 S5 P5. unfold do_. cbn [good]. split; [now left|]. split; [nf|]. rewrite remlk_hd, unlk_id by nf. now apply G.
Qed.
Lemma st_create_env_here : forall K e c, In c (ku K) -> st K [] (create_env_here e c).
Proof.
  intros K e c U. apply st_wl; [nf|apply ok_free with 0; auto using below_nil; simpl; lia|]. intros K1 k S G.
  unfold create_idle. unfold seq at 1 2. unfold do_ at 1. cbn [good]. intros N1 _.
  apply st_set_priority_mine with (K := addm (OC c) K1); [left; reflexivity|apply sub_refl|]. intros K2 S2.
  unfold seq at 1. unfold do_ at 1. cbn [good]. intros N2 _. pose proof (sub_addm K2 (OE e)) as S3. set (K3 := addm (OE e) K2) in *.
  assert (M : In (OE e) (km K3)) by (left; reflexivity). unfold seq at 1.
  apply (st_wl (EvTask e) skip K3); [nf|eapply ok_mine; eauto; try nf; reflexivity|apply st_skip|apply sub_refl|].
  intros K4 S4. unfold seq. 
  assert (NN : ~ In (OE e) (km K1)) by (intros X; apply N2; destruct S2 as (_&_&c2&_); apply c2; now right).
  apply pub_two with (K := K1); auto.
  - eapply sub_trans; [|exact S4]. unfold sub, addm, K3 in *; simpl in *. destruct S2 as (a2&b2&c2&d2&e2). simpl in *. repeat split; auto.
    intros x [<-|I]; [now left|right; auto].
  - destruct S as (_&_&_&_&e1). auto.
Qed.
Lemma st_get_best : forall K h es new, (forall e, In e es -> knows K (OE e)) -> (forall p, new = Some p -> In (snd p) (ku K)) -> below 3 h ->
  stx K h (get_best es new) (fun K' => forall p, new = Some p -> In (OE (fst p)) (kp K')).
Proof.
  intros K h es new X U B K1 k S G. unfold get_best, wl, seq. unfold do_ at 1. cbn [good]. split.
  { eapply ok_free; eauto; reflexivity. }
  apply (st_each nat workload es K); auto.
  { intros e I. apply st_workload; auto. bl. }
  intros K2 S2. destruct new as [p|]; cbn [opt].
  - apply (st_create_env K (Mgr :: h)); [now apply U|right; inh|eapply sub_trans; eauto|]. intros K3 S3 P3.
    unfold do_. cbn [good]. split; [now left|]. split; [nf|]. rewrite remlk_hd, unlk_id by nf. apply G.
    + eapply sub_trans; eauto.
    + intros q E. now injection E as <-.
  - unfold skip, do_. cbn [good]. split; [now left|]. split; [nf|]. rewrite remlk_hd, unlk_id by nf. apply G; auto. discriminate.
Qed.
Lemma st_move_here : forall K h e c k, knows K (OE e) -> In (OC c) (km K) -> In c (ku K) -> below 6 h ->
  (forall K2, (forall o, o <> OC c -> In o (km K) -> In o (km K2)) -> incl (kp K) (kp K2) -> incl (kf K) (kf K2) -> kn K2 = kn K -> incl (ku K) (ku K2) -> good K2 h k) ->
  good K h (move_here e c k).
Proof.
  intros K h e c k X M U B G. unfold move_here, wl at 1, seq at 1 2 3 4. unfold do_ at 1. cbn [good]. split.
  { eapply ok_env; eauto; [reflexivity|]. simpl. lia. }
  apply (st_priority K (Normal e :: h) c); [now left|right; now left|apply sub_refl|]. intros K2 S2. unfold do_. cbn [good].
  destruct S2 as (a&b&c2&d&u). split; [now apply c2|]. split; [intros x E; injection E as <-; auto|]. split; [now left|]. split; [nf|].
  rewrite remlk_hd, unlk_id by nf. set (K3 := publ (OC c) K2).
  assert (X3 : knows K3 (OE e)) by (destruct X as [X|X]; [left; apply publ_other; [discriminate|auto]|right; right; auto]).
  apply (st_seq K3 h (priority c) (update_min e ;; set_state e ;; wake_up e)); [| |apply sub_refl|].
  - apply st_priority; [right; left; reflexivity|left; bl].
  - apply st_seq; [apply st_update_min; auto; bl|]. apply st_seq; [apply st_set_state; auto|now apply st_wake_up].
  - intros K4 (a4&b4&c4&d4&u4). apply G.
    + intros o N I. apply c4. apply publ_other; auto.
    + intros o I. apply d4. right. auto.
    + eapply incl_tran; eauto.
    + rewrite b4. exact b.
    + eapply incl_tran; eauto.
Qed.
Lemma st_create_ctx : forall K h c b d, In c (ku K) -> incl (best_new b) (ku K) -> (forall e, In e (best_envs b) -> knows K (OE e)) ->
  (knows K (OE d) \/ In d (best_env_new b)) -> below 3 h -> st K h (create_ctx c b d).
Proof.
  intros K h c b d U1 U2 X Y B K1 k S G. unfold create_ctx. unfold seq at 1. unfold do_ at 1. cbn [good]. intros N1 _.
  set (K2 := addm (OC c) K1). assert (S2 : sub K1 K2) by apply sub_addm.
  assert (M : In (OC c) (km K2)) by now left. unfold seq at 1 2.
  apply (st_set_priority_mine K2); [auto|apply sub_refl|]. intros K3 S3.
  apply (st_wl (EvPrio c) skip K2); [nf|eapply ok_mine; eauto; try nf; reflexivity|apply st_skip|auto|]. intros K4 S4. unfold seq.
  assert (S24 : sub K2 K4) by (eapply sub_trans; eauto). assert (S14 : sub K1 K4) by (eapply sub_trans; eauto).
  assert (S04 : sub K K4) by (eapply sub_trans; eauto).
  assert (FIN : forall K5, sub K4 K5 -> knows K5 (OE d) -> good K5 h (move_here d c k)).
  { intros K5 S5 X5. assert (S25 : sub K2 K5) by (eapply sub_trans; eauto). assert (S05 : sub K K5) by (eapply sub_trans; eauto).
    apply st_move_here; auto.
    - destruct S25 as (_&_&c5&_). now apply c5.
    - destruct S05 as (_&_&_&_&u5). now apply u5.
    - bl.
    - intros K6 m p f n u. apply G. assert (S15 : sub K1 K5) by (eapply sub_trans; eauto). destruct S15 as (a5&b5&c5&d5&u5).
      split; [eapply incl_tran; eauto|]. split; [congruence|]. split; [|split; eapply incl_tran; eauto].
      intros o I. apply m; auto. intros ->. auto. }
  destruct b as [[es new]|]; cbn [opt fst snd].
  - apply (st_get_best K h es new); auto.
    + intros p ->. apply U2. simpl. destruct p. simpl. auto.
    + intros K5 S5 P5. apply FIN; auto. destruct Y as [Y|Y].
      * eapply knows_sub; [|exact Y]. eapply sub_trans; eauto.
      * simpl in Y. destruct new as [[e' c']|]; [|destruct Y]. destruct Y as [<-|[]]. right. exact (P5 _ eq_refl).
  - unfold skip. apply FIN; [apply sub_refl|]. destruct Y as [Y|[]]. eapply knows_sub; eauto.
Qed.

Lemma st_leave_wait : forall K h w e l i, knows K (OC w) -> knows K (OE e) -> below 6 h -> st K h (leave_wait w e l i).
Proof.
  intros K h w e l i X Y B. apply st_seq.
  - apply st_wl; [nf|apply ok_ctx with w 6; [reflexivity|nf|auto|auto|simpl; lia]|apply st_skip].
  - apply st_when. apply st_seq.
    + apply st_when. apply st_seq; [apply st_priority; auto; left; bl|apply st_update_min; auto; bl].
    + now apply st_wake_up.
Qed.
Lemma st_wake : forall K h w, knows K (OC (wctx w)) -> knows K (OE (wenv w)) -> below 6 h -> st K h (wake w).
Proof. intros K h [[[w e] l] i] X Y B. now apply st_leave_wait. Qed.

Lemma st_enter_wait : forall K h w, knows K (OC w) -> below 7 h -> st K h (enter_wait w).
Proof. intros K h w X B. apply st_wl; [nf|apply ok_ctx with w 7; [reflexivity|nf|auto|auto|simpl; lia]|apply st_skip]. Qed.
Lemma st_tm : forall K h t p, (below 1 h \/ (In TQ h /\ below 2 h)) -> st K (Tm t :: h) p -> st K h (wl (Tm t) p).
Proof.
  intros K h t p B P. apply st_wl; [nf| |auto]. destruct B as [B|[I B]]; [apply ok_free with 1; auto|].
  right. split; [split; [discriminate|intros c E; discriminate]|]. left. right. repeat split; auto.
  intros x J. specialize (B x J). simpl. lia.
Qed.
Lemma st_timer_queue : forall K h t cmp, In TQ h -> below 2 h -> st K h (timer_queue t cmp).
Proof.
  intros K h t cmp I B. apply st_tm; auto. apply st_wl; [nf|apply ok_in; inh|]. apply st_each. intros x _.
  apply st_tm; [|apply st_skip]. right. split; [inh|]. bl.
Qed.
Lemma st_force : forall K h es, (forall p, In p es -> knows K (OE (fst p))) -> below 3 h -> st K h (force_schedule es).
Proof.
  intros K h es X B. apply st_wl; [nf|apply ok_free with 3; auto|]. apply st_each. intros p I.
  apply st_seq; [apply st_workload; auto; bl|]. apply st_when. now apply st_op.
Qed.
Lemma st_try : forall K h e (f : piece), knows K (OE e) ->
  st K h (fun k => Try (Sched e) (IfFree e (f k) (do_ (Rel (Sched e)) k)) k).
Proof.
  intros K h e f X K1 k S G. cbn [good]. split; [eapply us_env; [reflexivity|eapply knows_sub; eauto]|]. split; [|apply G, sub_refl].
  split; [intros N; destruct N; now left|]. apply (st_rel K h (Sched e) skip); auto; [nf|apply st_skip].
Qed.
Lemma st_redistribute : forall K h es, (forall e, In e es -> knows K (OE e)) -> below 3 h -> st K h (redistribute es).
Proof.
  intros K h es X B. apply st_wl; [nf|apply ok_free with 3; auto|]. apply st_each. intros e I.
  apply (st_try K (Mgr :: h) e (set_state e ;; do_ (All [Normal e; MinP e; Sched e]) ;; do_ (Rel (Sched e)) ;; do_ (Rel (MinP e)) ;;
    do_ (Rel (Normal e)) ;; do_ (Rel (Sched e)))). auto.
Qed.
Lemma st_steal : forall K h es, (forall e, In e es -> knows K (OE e)) -> below 3 h -> st K h (steal es).
Proof.
  intros K h es X B. apply st_wl; [nf|apply ok_free with 3; auto|]. apply st_each. intros e I.
  apply (st_try K (Mgr :: h) e (fun k => do_ (Rel (Sched e)) k)). auto.
Qed.
Lemma st_destroy : forall K h es stop, (forall e, In e es -> knows K (OE e)) -> (forall e, In e stop -> knows K (OE e)) -> below 3 h ->
  st K h (destroy_redundant es stop).
Proof.
  intros K h es stop X Y B. apply st_wl; [nf|apply ok_free with 3; auto|]. apply st_seq; apply st_each; intros e I.
  - apply st_workload; auto. bl.
  - apply st_stop_schedule; auto. bl.
Qed.
Lemma st_mgr : forall K h, below 3 h \/ In Mgr h -> st K h (wl Mgr skip).
Proof. intros K h [B|B]; (apply st_wl; [nf| |apply st_skip]); [apply ok_free with 3; auto|now apply ok_in]. Qed.
Lemma st_told : forall K h es n, (forall e, In e es -> knows K (OE e)) -> In Mgr h -> below 6 h ->
  st K h (each stop_schedule es ;; each (fun _ => wl Mgr skip) (repeat tt n)).
Proof. intros K h es n X I B. apply st_seq; apply st_each; intros e J; [apply st_stop_schedule; auto|apply st_mgr; auto]. Qed.

(** co_env::wait_ctx. *)
Lemma st_wait_ctx : forall K e c w b1 b2 rem x, kn K = [] -> knows K (OE e) -> knows K (OC c) -> knows K (OC w) ->
  st K [] (wait_ctx e c w b1 b2 rem x).
Proof.
  intros K e c w b1 b2 rem x KN X Y Z. unfold wait_ctx.
  assert (SP : forall b : bool, st K [] (set_priority w (if b then Some e else None))).
  { intros b. apply st_set_priority; auto using below_nil. intros y E. destruct b; [now injection E as <-|discriminate]. }
  apply st_seq; [apply st_priority; auto; left; bl|]. apply st_seq; [apply st_priority; auto; left; bl|]. apply st_seq; [apply SP|].
  intros K1 k S G. unfold seq at 1 2 3. unfold do_ at 1 2. cbn [good].
  assert (KN1 : kn K1 = []) by (destruct S as (_&->&_); auto).
  assert (Y1 : knows K1 (OC c)) by (eapply knows_sub; eauto). assert (X1 : knows K1 (OE e)) by (eapply knows_sub; eauto).
  split; [apply ok_ctx with c 4; [reflexivity|nf|auto|bl|simpl; lia]|]. split; [apply ok_sched; auto; bl|].
  split; [inh|]. split.
  - unfold do_. cbn [good]. split; [inh|]. split; [nf|]. rewrite remlk_hd. split; [inh|]. split; [intros d _ [F|[]]; discriminate|]. rewrite remlk_hd.
    apply (SP b2); auto.
    + unfold sub, unlk, addf; simpl. destruct S as (a&b&c'&d&u). rewrite KN, KN1. simpl. repeat split; auto. intros y I. right. auto.
    + intros K2 S2. apply G. eapply sub_trans; [|exact S2]. unfold sub, unlk, addf; simpl. rewrite KN1. simpl. repeat split; auto using incl_refl. intros y I. now right.
  - unfold seq. set (K2 := addn c K1).
    assert (Z2 : knows K2 (OC w)) by (destruct (knows_sub _ _ _ S Z) as [?|?]; [left|right]; auto).
    apply (st_enter_wait K2); [auto|bl|apply sub_refl|]. intros K3 S3. pose proof S3 as (a3&n3&m3&p3&u3).
    unfold wl, seq, skip, do_. cbn [good]. assert (I3 : In c (kn K3)) by (rewrite n3; now left).
    assert (Y3 : knows K3 (OC c)) by (destruct Y1 as [V|V]; [left; apply m3|right; apply p3]; auto).
    split.
    { right. split; [split|].
      - intros o O. injection O as <-. exact Y3.
      - intros d E. injection E as <-. auto.
      - right. right. eauto. }
    split; [inh|]. split; [nf|]. rewrite remlk_hd. split; [inh|]. split; [nf|]. rewrite remlk_hd. split; [inh|].
    split; [intros d _ [F|[]]; discriminate|]. rewrite remlk_hd. rewrite (unlk_id K3 (EvFin c)), (unlk_id K3 (Sched e)) by nf.
    assert (S4 : sub K1 (unlk (Fin c) K3)).
    { unfold sub, unlk; simpl. rewrite n3. simpl. rewrite KN1. simpl. destruct (Nat.eq_dec c c); [|congruence]. repeat split; auto. }
    apply (st_schedule_switch (unlk (Fin c) K3)); [eapply knows_sub; eauto|apply sub_refl|]. intros K5 S5.
    apply (SP b2); [eapply sub_trans; [exact S|]; eapply sub_trans; eauto|]. intros K6 S6. apply G. eapply sub_trans; [exact S4|]. eapply sub_trans; eauto.
Qed.
Lemma st_finish : forall K c subs, kn K = [] -> knows K (OC c) -> (forall x, In x subs -> fst x = None /\ knows K (OC (wctx (snd x))) /\ knows K (OE (wenv (snd x)))) ->
  st K [] (finish c subs).
Proof.
  intros K c subs KN X Y K1 k S G. unfold finish. unfold seq at 1 2. unfold wl at 1. unfold seq at 1 2. unfold do_. cbn [good].
  assert (KN1 : kn K1 = []) by (destruct S as (_&->&_); auto). assert (X1 : knows K1 (OC c)) by (eapply knows_sub; eauto).
  split; [apply ok_ctx with c 4; [reflexivity|nf|auto|bl|simpl; lia]|]. split; [inh|]. split; [now rewrite KN1|]. split; [inh|].
  split; [intros d _ [F|[]]; discriminate|]. rewrite remlk_hd. set (K2 := unlk (Fin c) (addf c K1)).
  assert (S2 : sub K1 K2).
  { unfold K2, sub, unlk, addf; simpl. rewrite KN1. simpl. repeat split; auto using incl_refl. intros y I. now right. }
  apply (st_wl (EvFin c) (each (fun s => opt (fst s) (fun t => timer_queue (fst t) (snd t)) ;; wake (snd s)) subs) K2).
  - nf.
  - right. split; [split|].
    + intros o O. injection O as <-. eapply knows_sub; eauto.
    + intros d E. injection E as <-. left. now left.
    + left. apply or_below with 0; [bl|simpl; lia].
  - apply st_each. intros x I. destruct (Y x I) as (Y1&Y2&Y3). apply st_seq.
    + rewrite Y1. apply st_skip.
    + assert (S02 : sub K K2) by (eapply sub_trans; eauto). apply st_wake; [eapply knows_sub; eauto|eapply knows_sub; eauto|bl].
  - apply sub_refl.
  - intros K3 S3. apply G. eapply sub_trans; eauto.
Qed.

Definition Kcall (t : nat) (k : call) : know := mkK [] [] [] (map OC (olds k) ++ map OE (envs t k)) (olds k ++ news k).
Lemma kc_old : forall t k c, In c (olds k) -> knows (Kcall t k) (OC c).
Proof. intros t k c I. right. simpl. apply in_or_app. left. now apply in_map. Qed.
Lemma kc_env : forall t k e, In e (envs t k) -> knows (Kcall t k) (OE e).
Proof. intros t k e I. right. simpl. apply in_or_app. right. now apply in_map. Qed.
Lemma kc_new : forall t k c, In c (news k) -> In c (ku (Kcall t k)).
Proof. intros t k e I. simpl. apply in_or_app. auto. Qed.

Lemma st_dest : forall b d t k, envs t k = best_envs b ++ filter (fun e => negb (existsb (Nat.eqb e) (best_env_new b))) [d] ->
  knows (Kcall t k) (OE d) \/ In d (best_env_new b).
Proof.
  intros b d t k E. destruct (existsb (Nat.eqb d) (best_env_new b)) eqn:X.
  - right. apply existsb_exists in X as (y&I&Y). apply Nat.eqb_eq in Y. now subst y.
  - left. apply kc_env. rewrite E. apply in_or_app. right. simpl. rewrite X. now left.
Qed.

Lemma code_good : forall t k, plain k -> st (Kcall t k) [] (code t k).
Proof.
  intros t k P. destruct k; cbn [code]; try contradiction.
  - apply st_create_env_here. apply kc_new. now left.
  - intros K1 k S G. apply (st_create_env (Kcall t (KCreateEnv e c)) [] e c); auto; [apply kc_new; now left|left; bl].
  - apply st_create_ctx.
    + apply kc_new. now left.
    + intros x I. apply kc_new. now right.
    + intros e I. apply kc_env. simpl. apply in_or_app. auto.
    + now apply st_dest.
    + bl.
  - apply st_schedule_switch. apply kc_env. now left.
  - apply st_sleep_if_need. apply kc_env; now left.
  - apply st_wait_ctx; [reflexivity|apply kc_env; now left|apply kc_old; now left|apply kc_old; right; now left].
  - apply st_finish; [reflexivity|apply kc_old; now left|]. intros x I. split; [now apply P|]. split.
    + apply kc_old. right. apply in_map_iff. eauto.
    + apply kc_env. simpl. apply in_map_iff. eauto.
  - apply st_enter_wait; [apply kc_old; now left|bl].
  - apply st_wake; [apply kc_old; now left|apply kc_env; now left|bl].
  - apply st_set_priority; [apply kc_old; now left| |bl]. intros x ->. apply kc_env. now left.
  - unfold monitor_round. apply st_seq; [apply st_wl; [nf|apply ok_free with 0; [reflexivity|bl|simpl; lia]|apply st_skip]|].
    apply st_seq; [|apply st_mgr; left; bl]. apply st_wl; [nf|apply ok_free with 0; [reflexivity|bl|simpl; lia]|].
    apply st_seq.
    + apply st_force; [|bl]. intros p I. apply kc_env. simpl. apply in_or_app. left. now apply in_map.
    + destruct second as [[[[a b] c] d]|]; [|apply st_skip].
      assert (Q : forall e, In e (a ++ b ++ c ++ d) -> knows (Kcall t (KMonitor es (Some (a, b, c, d)))) (OE e)).
      { intros e I. apply kc_env. simpl. apply in_or_app. now right. }
      apply st_seq; [apply st_redistribute; [|bl]; intros e I; apply Q, in_or_app; auto|].
      apply st_seq; [apply st_steal; [|bl]; intros e I; apply Q, in_or_app; right; apply in_or_app; auto|].
      apply st_destroy; [| |bl]; intros e I; apply Q, in_or_app; right; apply in_or_app; right; apply in_or_app; auto.
  - apply st_wl; [nf|apply ok_free with 0; [reflexivity|bl|simpl; lia]|]. destruct tell as [[es n]|].
    + apply st_told; [|inh|bl]. intros e I. now apply kc_env.
    + apply st_gap; [nf|apply ok_free with 0; [reflexivity|bl|simpl; lia]|apply st_park].
  - apply st_wl; [nf|apply ok_free with 0; [reflexivity|bl|simpl; lia]|]. apply st_told; [|inh|bl]. intros e I. now apply kc_env.
  - assert (Q : knows (Kcall t (KEndEnv rem)) (OE t)) by (apply kc_env; now left).
    apply st_seq; [apply st_all_ctx; auto; bl|]. apply st_seq; [apply st_each; intros c _; apply st_remove_ctx; auto; bl|].
    apply st_wl; [nf|apply ok_env with t 0; [reflexivity|auto|bl|simpl; lia]|]. apply st_mgr. left. bl.
  - unfold manager_info. intros K1 k S G. unfold seq at 1. unfold do_ at 1. cbn [good app]. split.
    { intros l I. split; [|apply or_below with 0; [bl|lia]]. split; [intros o O|intros c O]; destruct I as [<-|[<-|[<-|[]]]]; discriminate. }
    apply (st_seq K1 [TQ; TDur; TQ] (wl Mgr (each env_info es)) (wl TQ (each (fun t0 => wl (Tm t0) skip) ts)) ); [| |apply sub_refl|].
    + apply st_wl; [nf|apply ok_free with 1; [reflexivity|bl|simpl; lia]|]. apply st_each. intros e I.
      apply st_env_info; [|bl]. eapply knows_sub; eauto. now apply kc_env.
    + apply st_wl; [nf|apply ok_in; inh|]. apply st_each. intros x _. apply st_tm; [|apply st_skip]. left. bl.
    + intros K2 S2. unfold seq, do_. cbn [good]. split; [inh|]. split; [nf|]. rewrite remlk_hd. split; [inh|]. split; [nf|]. rewrite remlk_hd.
      split; [inh|]. split; [nf|]. rewrite remlk_hd. rewrite !unlk_id by nf. now apply G.
  - unfold timer_round. apply st_wl; [nf|apply ok_free with 0; [reflexivity|bl|simpl; lia]|].
    apply st_seq; [apply st_tm; [left; bl|apply st_skip]|]. destruct fire as [[[[c b] d] cmp]|].
    + apply st_seq; [|apply st_seq; (apply st_timer_queue; [inh|bl])]. apply st_create_ctx.
      * apply kc_new. now left.
      * intros x I. apply kc_new. now right.
      * intros e I. apply kc_env. simpl. apply in_or_app. auto.
      * now apply st_dest.
      * bl.
    + apply st_seq; [apply st_tm; [left; bl|apply st_skip]|]. apply st_gap; [nf|apply ok_free with 0; [reflexivity|bl|simpl; lia]|apply st_park].
  - simpl in P. subst unsub. apply st_tm; [left; bl|]. apply st_seq; [apply st_skip|].
    apply st_wake; [apply kc_old; now left|apply kc_env; now left|bl].
Qed.
Lemma code_good' : forall t k, plain k -> good (Kcall t k) [] (code t k (Do Leave Ret)).
Proof. intros t k P. apply (code_good t k P); [apply sub_refl|]. intros K2 _. simpl. auto. Qed.

(** ** Every reachable state of such an execution. *)
Lemma LI_call : forall s a k s', LI s -> plain k -> lstep s (LCall a k) = Some s' -> forall b, exists K h, AI s' b K h.
Proof.
  intros s a k s' L P S b. simpl in S. destruct a as [t i|]; [|discriminate]. destruct (pr s (AC t i)) eqn:E; try discriminate.
  destruct (_ && _ && _) eqn:C; [|discriminate]. apply andb_prop in C as [C C3]. apply andb_prop in C as [C1 C2]. injection S as <-.
  destruct (proj2 L (AC t i)) as (K&h&I). pose proof I as [G Cn Cr Fc Ah]. rewrite E in G. simpl in G. subst h.
  rewrite forallb_forall in C2, C3. destruct (agent_eq b (AC t i)) as [->|N].
  - exists (Kcall t k), []. constructor.
    + rewrite pr_same. now apply code_good'.
    + exact Cn.
    + congruence.
    + constructor; simpl; try tauto.
      * intros o I1. apply in_app_or in I1 as [I1|I1]; apply in_map_iff in I1 as (c&<-&I1).
        -- specialize (C2 c I1). unfold is_pub in C2. split; [now destruct (acc s (OC c))|]. intros d X. injection X as <-.
           assert (Y : existsb (Nat.eqb c) (olds k ++ news k) = true) by (apply existsb_exists; exists c; split; [apply in_or_app; auto|apply Nat.eqb_refl]).
           rewrite Y. now left.
        -- specialize (C3 c I1). unfold is_pub in C3. split; [now destruct (acc s (OE c))|]. intros d X. discriminate.
      * intros c I1. assert (Y : existsb (Nat.eqb c) (olds k ++ news k) = true) by (apply existsb_exists; exists c; split; [auto|apply Nat.eqb_refl]).
        rewrite Y. now left.
    + intros u X. discriminate.
  - destruct (proj2 L b) as (Kb&hb&Ib). exists Kb, hb. apply frame with s (AC t i); auto.
    + rewrite pr_other by auto. reflexivity.
    + intros c X. simpl. destruct (existsb _ _); [now right|auto].
Qed.
Lemma LI_step : forall s l s', calm l -> LI s -> lstep s l = Some s' -> LI s'.
Proof.
  intros s l s' C L S. split; [eapply TI_step; eauto; apply L|]. destruct l; [eapply LI_call; eauto| | |destruct C].
  - simpl in S. unfold step_of in S. destruct (aeqb (cur s (th a)) a) eqn:Cu; [|discriminate]. apply aeqb_eq in Cu.
    destruct (proj2 L a) as (K&h&I). pose proof I as [G Cn Cr Fc Ah]. destruct (pr s a) as [|o k|l k1 k2|e k1 k2|c k1 k2] eqn:E; try discriminate.
    + destruct (do_op s a o) as [s1|] eqn:D; [|discriminate]. injection S as <-. intros b. destruct (agent_eq b a) as [->|N].
      * eapply step_AI_self; eauto.
      * destruct (proj2 L b) as (Kb&hb&Ib). exists Kb, hb. eapply step_AI_other; eauto.
    + destruct G as (G1&G2&G3). assert (NA : forall t, a <> AH t) by (intros t X; specialize (Ah t X); discriminate).
      destruct (avail s a l) eqn:A; injection S as <-; intros b; (destruct (agent_eq b a) as [->|N];
        [|destruct (proj2 L b) as (Kb&hb&Ib); exists Kb, hb; apply frame with s a; auto; try (now rewrite pr_other by auto)]).
      * exists K, (l :: h). constructor.
        -- now rewrite pr_same.
        -- intros y. change (lk (with_pr (take s a l) a k1)) with (lk (take s a l)). rewrite take_lk. simpl.
           destruct (lock_eq y l), (lock_eq l y); try congruence; subst; simpl; rewrite ?Cn; auto. destruct (agent_eq a a); congruence.
        -- auto.
        -- apply facts_same with (take s a l); auto. apply facts_take; auto.
        -- intros t X. now destruct (NA t).
      * intros y. now apply (count_take_other s a b l y).
      * exists K, h. constructor; auto.
        -- now rewrite pr_same.
        -- apply facts_same with s; auto.
        -- intros t X. now destruct (NA t).
    + injection S as <-. destruct G as (G1&G2). assert (NA : forall t, a <> AH t) by (intros t X; specialize (Ah t X); discriminate).
      intros b. destruct (agent_eq b a) as [->|N];
        [|destruct (proj2 L b) as (Kb&hb&Ib); exists Kb, hb; apply frame with s a; auto; try (now rewrite pr_other by auto)].
      exists K, h. constructor; auto.
      * rewrite pr_same. destruct (count s e =? 0) eqn:Z; auto. apply G1. intros X. apply Nat.eqb_eq in Z. unfold count in Z.
        apply (held_in _ _ _ _ _ I) in X. destruct (lk s (Sched e)); [destruct X|simpl in Z; lia].
      * apply facts_same with s; auto.
      * intros t X. now destruct (NA t).
    + injection S as <-. destruct G as (G1&G2&G3). assert (NA : forall t, a <> AH t) by (intros t X; specialize (Ah t X); discriminate).
      intros b. destruct (agent_eq b a) as [->|N];
        [|destruct (proj2 L b) as (Kb&hb&Ib); exists Kb, hb; apply frame with s a; auto; try (now rewrite pr_other by auto)].
      exists (if fin s c then addf c K else addn c K), h. constructor; auto.
      * rewrite pr_same. destruct (fin s c); auto.
      * apply facts_same with s; auto. destruct Fc as [ff fn fm fp fu fh fe]. destruct (fin s c) eqn:F; constructor; simpl; auto.
        -- intros x [<-|X]; auto.
        -- intros x [<-|X]; auto.
      * intros t X. now destruct (NA t).
  - simpl in S. destruct (pr s a) as [|o k| | |] eqn:E; try discriminate. destruct o; try discriminate. destruct b as [t i|]; [|discriminate].
    destruct (_ && _) eqn:X; [|discriminate]. apply andb_prop in X as [X1 X2]. apply aeqb_eq in X1. apply Nat.eqb_eq in X2. subst t. injection S as <-.
    destruct (proj2 L a) as (K&h&I). pose proof I as [G Cn Cr Fc Ah]. rewrite E in G. destruct G as [-> G].
    intros b. destruct (agent_eq b a) as [->|N].
    + exists K, []. constructor; auto.
      * change (good K [] (pr (with_pr s a k) a)). now rewrite pr_same.
      * congruence.
      * apply facts_same with s; auto.
      * intros t X. specialize (Ah t X). congruence.
    + destruct (proj2 L b) as (Kb&hb&Ib). exists Kb, hb. apply frame with s a; auto.
      * change (pr (with_pr s a k) b = pr s b). now rewrite pr_other by auto.
      * intros Y Z. simpl. unfold upd. destruct (th b =? th a) eqn:Q; auto. apply Nat.eqb_eq in Q. congruence.
Qed.
Lemma LI_reach : forall ls s, Forall calm ls -> run lstep linit ls = Some s -> LI s.
Proof.
  intros ls s F R. revert F R. generalize LI_init. generalize linit. induction ls as [|l ls IH]; intros s0 I F R; simpl in R.
  - now injection R as <-.
  - destruct (lstep s0 l) as [s1|] eqn:E; [|discriminate]. inversion F; subst. apply (IH s1); auto. eapply LI_step; [|exact I|exact E]. assumption.
Qed.

(** ** Waiting. *)
Definition twaits (s : lst) (t u : nat) : Prop := exists l b, wants s (cur s t) l /\ In b (lk s l) /\ th b = u /\ u <> t.
Definition blocked (s : lst) (t : nat) : Prop := exists u, twaits s t u.

Definition CI (s : lst) : Prop := forall t, th (cur s t) = t.
Lemma do_op_cur : forall s a o s1, do_op s a o = Some s1 -> cur s1 = cur s.
Proof.
  intros s a o s1 S. destruct o; simpl in S; try (injection S as <-; reflexivity); try discriminate.
  - destruct (avail s a l); [|discriminate]. injection S as <-. reflexivity.
  - destruct (forallb _ ls); [|discriminate]. injection S as <-. apply take_all_frame.
  - destruct (has a (lk s l)); [|discriminate]. injection S as <-. reflexivity.
  - destruct (acc s o); try discriminate. injection S as <-. reflexivity.
  - destruct (acc s o); try discriminate. destruct (aeqb a0 a); [|discriminate]. injection S as <-. reflexivity.
  - destruct (acc s (OC c)); try discriminate. destruct (use s c); [|discriminate]. injection S as <-. reflexivity.
Qed.
Lemma CI_step : forall s l s', CI s -> lstep s l = Some s' -> CI s'.
Proof.
  intros s l s' C S. destruct l; simpl in S.
  - destruct a; [|discriminate]. destruct (pr s (AC t k0)); try discriminate. destruct (_ && _ && _); [|discriminate]. injection S as <-. exact C.
  - unfold step_of in S. destruct (aeqb _ a); [|discriminate]. destruct (pr s a); try discriminate.
    + destruct (do_op s a o) as [s1|] eqn:E; [|discriminate]. injection S as <-. unfold CI. simpl. now rewrite (do_op_cur _ _ _ _ E).
    + destruct (avail s a l); injection S as <-; exact C.
    + injection S as <-. exact C.
    + injection S as <-. exact C.
  - destruct (pr s a) as [|o k| | |]; try discriminate. destruct o; try discriminate. destruct b; [|discriminate].
    destruct (_ && _); [|discriminate]. injection S as <-. intros u. simpl. unfold upd. destruct (u =? t) eqn:E; [|apply C].
    apply Nat.eqb_eq in E. auto.
  - destruct (cur s t) eqn:Cu; [|discriminate]. destruct (sig s t && _ && _); [|discriminate]. injection S as <-.
    intros u. simpl. unfold upd. destruct (u =? t) eqn:E; [|apply C]. apply Nat.eqb_eq in E. auto.
Qed.
Lemma CI_reach : forall ls s, run lstep linit ls = Some s -> CI s.
Proof. intros ls s R. eapply (run_inv lstep); [|exact CI_step|exact R]. intros t. reflexivity. Qed.

Definition mu (s : lst) (a : agent) (l : lock) : nat := 2 * rank l + if has a (lk s TQ) then 1 else 0.
Lemma mu_bound : forall s a l, mu s a l < 24.
Proof. intros s a l. unfold mu. destruct (has a (lk s TQ)), l; simpl; lia. Qed.
Lemma holder_cur : forall s b l, LI s -> In b (lk s l) -> cur s (th b) = b.
Proof.
  intros s b l L I. destruct (proj2 L b) as (K&h&Ib). apply (i_cur _ _ _ _ Ib). apply (held_in _ _ _ _ _ Ib) in I. intros ->. destruct I.
Qed.
Lemma mu_up : forall s t l b l' b', LI s -> CI s -> wants s (cur s t) l -> In b (lk s l) -> th b <> t ->
  wants s (cur s (th b)) l' -> In b' (lk s l') -> th b' <> th b -> mu s (cur s t) l < mu s (cur s (th b)) l'.
Proof.
  intros s t l b l' b' L C W I N W' I' N'. rewrite (holder_cur s b l L I) in *. destruct (proj2 L b) as (K&h&Ib).
  pose proof (wants_ordered _ _ _ _ _ _ L Ib W' I' N') as O. apply (held_in _ _ _ _ _ Ib) in I as J.
  destruct O as [O|(O1&O2&O3)].
  - specialize (O l J). unfold mu. destruct (has (cur s t) _), (has b _); lia.
  - specialize (O3 l J). assert (H1 : has b (lk s TQ) = true) by (apply has_in; now apply (held_in _ _ _ _ _ Ib)).
    assert (H2 : has (cur s t) (lk s TQ) = false).
    { destruct (has (cur s t) (lk s TQ)) eqn:X; auto. apply has_in in X. apply has_in in H1. destruct N. transitivity (th (cur s t)); [|apply C].
      f_equal. eapply alone; eauto. }
    unfold mu. rewrite H1, H2. lia.
Qed.
Lemma blocked_dec : forall s t, CI s -> blocked s t \/ ~ blocked s t.
Proof.
  intros s t C. pose proof (C t) as Ct. set (a := cur s t) in *.
  assert (D : forall l, (exists b, In b (lk s l) /\ th b <> t) \/ ~ (exists b, In b (lk s l) /\ th b <> t)).
  { intros l. induction (lk s l) as [|b r IH]; [right; intros (x&[]&_)|]. destruct (Nat.eq_dec (th b) t) as [E|N].
    - destruct IH as [(x&I&X)|IH]; [left; exists x; split; [now right|auto]|right]. intros (x&[<-|I]&X); [auto|]. apply IH. eauto.
    - left. exists b. split; [now left|auto]. }
  destruct (pr s a) as [|o k|l k1 k2|e k1 k2|c k1 k2] eqn:E;
    try (right; intros (u&l0&b&(k'&[X|(ls'&X&_)])&_); fold a in X; congruence).
  destruct o; try (right; intros (u&l0&b&(k'&[X|(ls'&X&_)])&_); fold a in X; congruence).
  - destruct (D l) as [(b&I&X)|D1].
    + left. exists (th b), l, b. repeat split; auto. exists k. now left.
    + right. intros (u&l0&b&(k'&[X|(ls'&X&_)])&I&Y&Z); fold a in X; [|congruence]. apply D1. exists b. replace l with l0 by congruence. subst u. auto.
  - assert (D2 : (exists l b, In l ls /\ In b (lk s l) /\ th b <> t) \/ ~ (exists l b, In l ls /\ In b (lk s l) /\ th b <> t)).
    { clear E. induction ls as [|l ls IH]; [right; intros (l&b&[]&_)|]. destruct (D l) as [(b&I&X)|D1]; [left; exists l, b; split; [now left|auto]|].
      destruct IH as [(l'&b&I&X)|IH]; [left; exists l', b; split; [now right|auto]|right]. intros (l'&b&[<-|I]&X); [apply D1; eauto|apply IH; eauto]. }
    destruct D2 as [(l&b&I&J&X)|D2].
    + left. exists (th b), l, b. repeat split; auto. exists k. right. eauto.
    + right. intros (u&l0&b&(k'&[X|(ls'&X&I)])&J&Y&Z); fold a in X; [congruence|]. apply D2. exists l0, b. replace ls with ls' by congruence. subst u. auto.
Qed.
(** Not blocked and inside a call that neither sleeps nor switches. *)
Definition busy (s : lst) (t : nat) : Prop := match pr s (cur s t) with Ret | Do Park _ | Do Yield _ | Do Leave _ | Do Halt _ => False | _ => True end.
Lemma holder_busy : forall s b l, LI s -> In b (lk s l) -> busy s (th b).
Proof.
  intros s b l L I. unfold busy. rewrite (holder_cur s b l L I). destruct (proj2 L b) as (K&h&Ib). apply (held_in _ _ _ _ _ Ib) in I.
  pose proof (i_good _ _ _ _ Ib) as G. destruct (pr s b) as [|o k| | |]; auto; [simpl in G; subst h; destruct I|].
  destruct o; auto; simpl in G; try (subst h; destruct I; fail); destruct G as [-> _]; destruct I.
Qed.
Lemma chain_ends : forall s, LI s -> CI s -> forall n t l b, wants s (cur s t) l -> In b (lk s l) -> th b <> t -> 24 - mu s (cur s t) l <= n ->
  exists u, clos_trans nat (twaits s) t u /\ ~ blocked s u /\ busy s u.
Proof.
  intros s L C. induction n as [|n IH]; intros t l b W I N M.
  - pose proof (mu_bound s (cur s t) l). lia.
  - assert (T : twaits s t (th b)) by (exists l, b; auto). destruct (blocked_dec s (th b) C) as [B|B].
    + destruct B as (u&l'&b'&W'&I'&E&N'). subst u. destruct (IH (th b) l' b') as (u&X&Y); auto.
      * pose proof (mu_up s t l b l' b' L C W I N W' I' N'). lia.
      * exists u. split; auto. eapply t_trans; [apply t_step; exact T|exact X].
    + exists (th b). split; [now apply t_step|]. split; auto. eapply holder_busy; eauto.
Qed.
Lemma no_circle : forall s ts, LI s -> CI s -> ts <> [] -> (forall t, In t ts -> exists u, In u ts /\ twaits s t u) -> False.
Proof.
  intros s ts L C NE H.
  assert (A : forall n, exists t l b, In t ts /\ wants s (cur s t) l /\ In b (lk s l) /\ th b <> t /\ In (th b) ts /\ n <= mu s (cur s t) l).
  { induction n as [|n (t&l&b&I&W&J&N&T&M)].
    - destruct ts as [|t ts]; [congruence|]. destruct (H t (or_introl eq_refl)) as (u&I&l&b&W&J&E&N). subst u. exists t, l, b. repeat split; auto; try now left. lia.
    - destruct (H (th b) T) as (u&I'&l'&b'&W'&J'&E&N'). subst u. exists (th b), l', b'. repeat split; auto.
      pose proof (mu_up s t l b l' b' L C W J N W' J' N'). lia. }
  destruct (A 24) as (t&l&b&_&_&_&_&_&M). pose proof (mu_bound s (cur s t) l). lia.
Qed.

(** ** Locks are given back before a switch, in every program. *)
Fixpoint bal (h : list lock) (q : prog) : Prop :=
  match q with
  | Ret => h = []
  | Do o k =>
      match o with
      | Acq l => bal (l :: h) k
      | All ls => bal (ls ++ h) k
      | Rel l => In l h /\ bal (remlk l h) k
      | Yield | Leave | Park => h = [] /\ bal h k
      | Send _ => In Mgr h /\ bal h k
      | Halt => True
      | _ => bal h k
      end
  | Try l k1 k2 => bal (l :: h) k1 /\ bal h k2
  | IfFree _ k1 k2 | Test _ k1 k2 => bal h k1 /\ bal h k2
  end.
Definition sb (h : list lock) (q : piece) : Prop := forall k, bal h k -> bal h (q k).
Lemma sb_seq : forall h p q, sb h p -> sb h q -> sb h (p ;; q).
Proof. intros h p q P Q k H. apply P, Q, H. Qed.
Lemma sb_skip : forall h, sb h skip.
Proof. intros h k H. exact H. Qed.
Lemma sb_each : forall A (f : A -> piece) xs h, (forall x, In x xs -> sb h (f x)) -> sb h (each f xs).
Proof. induction xs as [|x xs IH]; intros h H; simpl; [apply sb_skip|]. apply sb_seq; [apply H; now left|apply IH; intros; apply H; now right]. Qed.
Lemma sb_opt : forall A (x : option A) f h, (forall y, sb h (f y)) -> sb h (opt x f).
Proof. intros A [y|] f h H; simpl; [apply H|apply sb_skip]. Qed.
Lemma sb_when : forall b p h, sb h p -> sb h (when b p).
Proof. intros [] p h H; simpl; [auto|apply sb_skip]. Qed.
Lemma sb_op : forall o h, match o with Acq _ | All _ | Rel _ | Send _ | Yield | Leave | Park | Halt => False | _ => True end -> sb h (do_ o).
Proof. intros o h E k H. destruct o; try contradiction; exact H. Qed.
Lemma sb_guarded : forall p h, sb h p -> sb h (guarded p).
Proof. intros p h H. apply sb_seq; [now apply sb_op|]. apply sb_seq; [auto|now apply sb_op]. Qed.
Lemma sb_wl : forall l p h, sb (l :: h) p -> sb h (wl l p).
Proof. intros l p h P k H. simpl. apply P. simpl. split; [now left|]. destruct (lock_eq l l); [auto|congruence]. Qed.
Lemma sb_gap : forall l p h, sb h p -> sb (l :: h) (do_ (Rel l) ;; p ;; do_ (Acq l)).
Proof. intros l p h P k H. simpl. split; [now left|]. destruct (lock_eq l l); [|congruence]. apply P. exact H. Qed.
Lemma sb_look : forall e h, sb h (look e).
Proof.
  intros e h k H. unfold look, seq, do_. cbn [bal app]. split; [inh|]. rewrite remlk_tl, remlk_hd by discriminate. split; [inh|]. now rewrite remlk_hd.
Qed.
Lemma sb_mark : forall l h, sb h (wl l skip).
Proof. intros. apply sb_wl, sb_skip. Qed.
Lemma sb_park : sb [] (do_ Park).
Proof. intros k H. simpl. auto. Qed.
Lemma sb_yield : sb [] (do_ Yield).
Proof. intros k H. simpl. auto. Qed.
Lemma sb_rounds : forall n e, sb [Sched e] (rounds e n).
Proof.
  induction n as [|n IH]; intros e; [apply sb_skip|]. cbn [rounds]. intros k. rewrite seq4. revert k.
  apply (sb_seq [Sched e]); [apply sb_look|]. apply sb_seq; [apply sb_gap, sb_park|apply IH].
Qed.
Lemma sb_sleep_if_need : forall e n, sb [] (sleep_if_need e n).
Proof. intros e n. apply sb_guarded. apply sb_wl. apply sb_seq; [apply sb_rounds|apply sb_look]. Qed.
Lemma sb_set_priority : forall c e h, sb h (set_priority c e).
Proof.
  intros c e h. apply sb_wl. apply sb_opt. intros x. apply sb_wl. apply sb_wl. apply sb_seq; [apply sb_mark|].
  apply sb_seq; [apply sb_mark|apply sb_mark].
Qed.
Lemma sb_prepare : forall e x, sb [Sched e] (prepare e x).
Proof.
  intros e [| |d n g|]; cbn [prepare]; try apply sb_skip.
  - apply sb_seq; [apply sb_look|apply sb_mark].
  - apply sb_seq; [apply sb_look|apply sb_mark].
  - apply sb_seq; [apply sb_when, sb_look|]. apply sb_gap, sb_sleep_if_need.
Qed.
Lemma sb_remove_ctx : forall e c h, sb h (remove_ctx e c).
Proof. intros e c h. apply sb_seq; [now apply sb_op|]. apply sb_seq; [apply sb_wl, sb_mark|apply sb_guarded, sb_skip]. Qed.
Lemma sb_all_ctx : forall e h, sb h (all_ctx e).
Proof. intros. apply sb_guarded, sb_mark. Qed.
Lemma sb_go : forall e, sb [Sched e] (go e).
Proof. intros e. apply sb_gap, sb_yield. Qed.
Lemma sb_schedule_switch : forall e rem x, sb [] (schedule_switch e rem x).
Proof.
  intros e rem x. apply sb_wl. apply sb_seq; [apply sb_all_ctx|]. apply sb_seq; [apply sb_each; intros; apply sb_remove_ctx|].
  apply sb_seq; [apply sb_prepare|]. destruct x; [apply sb_skip|apply sb_go|apply sb_when, sb_go|apply sb_guarded, sb_go].
Qed.
Lemma sb_create_idle : forall c h, sb h (create_idle c).
Proof. intros c h. apply sb_seq; [now apply sb_op|apply sb_set_priority]. Qed.
Lemma sb_pubs : forall c e h, sb h (do_ (Pub (OC c)) ;; do_ (Pub (OE e))).
Proof. intros. apply sb_seq; now apply sb_op. Qed.
Lemma sb_create_env : forall e c h, sb h (create_env e c).
Proof.
  intros e c h. apply sb_seq; [apply sb_create_idle|]. apply sb_seq; [now apply sb_op|]. apply sb_seq; [apply sb_mark|].
  apply sb_seq; [apply sb_mark|]. apply sb_wl, sb_pubs.
Qed.
Lemma sb_wake_up : forall e h, sb h (wake_up e).
Proof. intros. apply sb_guarded, sb_mark. Qed.
Lemma sb_move_here : forall e c h, sb h (move_here e c).
Proof.
  intros e c h. apply sb_seq; [apply sb_wl; apply sb_seq; [apply sb_mark|now apply sb_op]|]. apply sb_seq; [apply sb_mark|].
  apply sb_seq; [apply sb_mark|]. apply sb_seq; [apply sb_mark|apply sb_wake_up].
Qed.
Lemma sb_create_ctx : forall c b d h, sb h (create_ctx c b d).
Proof.
  intros c b d h. apply sb_seq; [now apply sb_op|]. apply sb_seq; [apply sb_set_priority|]. apply sb_seq; [apply sb_mark|].
  apply sb_seq; [|apply sb_move_here]. apply sb_opt. intros [es new]. apply sb_wl. apply sb_seq; [apply sb_each; intros; apply sb_mark|].
  apply sb_opt. intros p. apply sb_create_env.
Qed.
Lemma sb_wake : forall w h, sb h (wake w).
Proof.
  intros [[[w e] l] i] h. apply sb_seq; [apply sb_mark|]. apply sb_when. apply sb_seq; [|apply sb_wake_up].
  apply sb_when. apply sb_seq; apply sb_mark.
Qed.
Lemma sb_timer_queue : forall t cmp h, sb h (timer_queue t cmp).
Proof. intros. apply sb_wl, sb_wl, sb_each. intros; apply sb_mark. Qed.
Lemma sb_stop_schedule : forall e h, sb h (stop_schedule e).
Proof. intros. apply sb_seq; [apply sb_mark|apply sb_wake_up]. Qed.
Lemma sb_env_info : forall e h, sb h (env_info e).
Proof.
  intros e h k H. unfold env_info, seq, do_. cbn [bal app]. split; [inh|]. rewrite remlk_tl, remlk_tl, remlk_hd by discriminate. split; [inh|].
  rewrite remlk_tl, remlk_hd by discriminate. split; [inh|]. now rewrite remlk_hd.
Qed.
(** Two nested locks that are given back in the opposite order. *)
Lemma sb_pair : forall l1 l2 p h, sb (l2 :: l1 :: h) p -> sb h (do_ (Acq l1) ;; do_ (Acq l2) ;; p ;; do_ (Rel l2) ;; do_ (Rel l1)).
Proof. intros l1 l2 p h P. change (sb h (wl l1 (wl l2 p))). apply sb_wl, sb_wl, P. Qed.
Lemma sb_test : forall c p q h, sb h p -> sb h q -> sb h (fun k => Test c (p k) (q k)).
Proof. intros c p q h P Q k H. simpl. split; [now apply P|now apply Q]. Qed.
Lemma bal_rel2 : forall l1 l2 h k, bal h k -> bal (l2 :: l1 :: h) (do_ (Rel l2) (do_ (Rel l1) k)).
Proof. intros l1 l2 h k H. unfold do_. cbn [bal]. split; [inh|]. rewrite remlk_hd. split; [inh|]. now rewrite remlk_hd. Qed.
Lemma code_bal : forall t k, sb [] (code t k).
Proof.
  intros t k. destruct k; cbn [code].
  - apply sb_wl. apply sb_seq; [apply sb_create_idle|]. apply sb_seq; [now apply sb_op|]. apply sb_seq; [apply sb_mark|apply sb_pubs].
  - apply sb_create_env.
  - apply sb_create_ctx.
  - apply sb_schedule_switch.
  - apply sb_sleep_if_need.
  - unfold wait_ctx. apply sb_seq; [apply sb_mark|]. apply sb_seq; [apply sb_mark|]. apply sb_seq; [apply sb_set_priority|].
    intros q H. unfold seq at 1 2 3. unfold do_ at 1 2. cbn [bal]. assert (H1 := sb_set_priority w (if b2 then Some t else None) [] q H).
    split; [now apply bal_rel2|]. unfold seq. apply (sb_mark (Wait w)). apply (sb_mark (EvFin c)). apply bal_rel2. now apply sb_schedule_switch.
  - apply sb_seq; [now apply sb_op|]. apply sb_seq; [apply sb_wl; now apply sb_op|]. apply sb_wl. apply sb_each. intros x _.
    apply sb_seq; [apply sb_opt; intros; apply sb_timer_queue|apply sb_wake].
  - apply sb_mark.
  - apply sb_wake.
  - apply sb_set_priority.
  - apply sb_seq; [apply sb_mark|]. apply sb_seq; [|apply sb_mark]. apply sb_wl. apply sb_seq.
    + apply sb_wl. apply sb_each. intros p _. apply sb_seq; [apply sb_mark|]. apply sb_when. intros q H. simpl. auto.
    + destruct second as [[[[a b] c] d]|]; [|apply sb_skip]. apply sb_seq; [|apply sb_seq].
      * apply sb_wl, sb_each. intros e _ q H. cbn [bal]. split; [|exact H]. split.
        -- apply (sb_mark (Sched e)). unfold do_. cbn [bal app]. split; [inh|]. rewrite !remlk_tl, remlk_hd by discriminate.
           split; [inh|]. rewrite remlk_tl, remlk_hd by discriminate. split; [inh|]. rewrite remlk_hd. split; [inh|]. now rewrite remlk_hd.
        -- unfold do_. cbn [bal]. split; [inh|]. now rewrite remlk_hd.
      * apply sb_wl, sb_each. intros e _ q H. cbn [bal]. unfold do_. cbn [bal]. rewrite remlk_hd. repeat split; auto; inh.
      * apply sb_wl. apply sb_seq; apply sb_each; intros; [apply sb_mark|apply sb_stop_schedule].
  - apply sb_wl. destruct tell as [[es n]|].
    + apply sb_seq; apply sb_each; intros; [apply sb_stop_schedule|apply sb_mark].
    + apply sb_gap, sb_park.
  - apply sb_wl. apply sb_seq; apply sb_each; intros; [apply sb_stop_schedule|apply sb_mark].
  - apply sb_seq; [apply sb_all_ctx|]. apply sb_seq; [apply sb_each; intros; apply sb_remove_ctx|]. apply sb_wl, sb_mark.
  - unfold manager_info. intros q H. unfold seq at 1. unfold do_ at 1. cbn [bal app].
    apply (sb_wl Mgr); [apply sb_each; intros; apply sb_env_info|]. apply (sb_wl TQ); [apply sb_each; intros; apply sb_mark|].
    unfold seq, do_. cbn [bal]. split; [inh|]. rewrite remlk_hd. split; [inh|]. rewrite remlk_hd. split; [inh|]. now rewrite remlk_hd.
  - apply sb_wl. apply sb_seq; [apply sb_mark|]. destruct fire as [[[[c b] d] cmp]|].
    + apply sb_seq; [apply sb_create_ctx|]. apply sb_seq; apply sb_timer_queue.
    + apply sb_seq; [apply sb_mark|]. apply sb_gap, sb_park.
  - apply sb_wl. apply sb_seq; [apply sb_opt; intros; apply sb_mark|apply sb_wake].
  - apply sb_timer_queue.
  - apply sb_seq; [apply sb_mark|]. apply sb_seq; [|apply sb_schedule_switch]. apply sb_wl. apply sb_seq; [apply sb_mark|apply sb_timer_queue].
  - unfold wait_ctx_for. apply sb_seq; [apply sb_mark|]. apply sb_seq; [apply sb_mark|]. apply sb_seq; [apply sb_set_priority|].
    intros q H. unfold seq at 1 2 3. unfold do_ at 1 2. cbn [bal].
    assert (H1 : bal [] ((wl (Fin c) skip ;; set_priority w (if b2 then Some t else None)) q)).
    { apply (sb_seq [] (wl (Fin c) skip)); auto; [apply sb_mark|apply sb_set_priority]. }
    split; [now apply bal_rel2|]. unfold seq at 1 2 3 4 5 6. apply (sb_mark (Wait w)). apply (sb_mark (EvFin c)). apply (sb_mark (Tm t0)).
    apply sb_timer_queue. apply bal_rel2. now apply sb_schedule_switch.
  - intros q H. unfold cv_wait_until. unfold seq at 1 2 3 4 5. unfold do_ at 1. cbn [bal]. apply sb_timer_queue. apply sb_opt; [intros; apply sb_wake|].
    apply (sb_mark (Wait w)). unfold do_. cbn [bal]. split; [inh|]. rewrite remlk_hd. now apply sb_schedule_switch.
Qed.
Lemma code_bal' : forall t k, bal [] (code t k (Do Leave Ret)).
Proof. intros t k. apply code_bal. simpl. auto. Qed.
Lemma handler_bal : forall t x, bal [Sched t] (prepare t x (Do (Rel (Sched t)) (Do Yield Ret))).
Proof. intros t x. apply sb_prepare. cbn [bal]. split; [inh|]. rewrite remlk_hd. auto. Qed.

(** Nothing follows the switch of the handler. *)
Fixpoint last (q : prog) : Prop :=
  match q with
  | Ret => True
  | Do Yield k => k = Ret
  | Do _ k => last k
  | Try _ k1 k2 | IfFree _ k1 k2 | Test _ k1 k2 => last k1 /\ last k2
  end.
Lemma rounds_last : forall n e k, last k -> last (rounds e n k).
Proof. induction n as [|n IH]; intros e k H; simpl; auto. Qed.
Lemma handler_last : forall t x, last (prepare t x (Do (Rel (Sched t)) (Do Yield Ret))).
Proof.
  intros t [| |d n g|]; simpl; auto. destruct d; simpl; unfold sleep_if_need, guarded, wl, seq, do_; simpl; apply rounds_last; simpl; auto.
Qed.

(** What each activity holds. *)
Definition HB (s : lst) (a : agent) (h : list lock) : Prop :=
  bal h (pr s a) /\ forall l, count_occ agent_eq (lk s l) a = count_occ lock_eq h l.
Definition BI (s : lst) : Prop :=
  (forall a, exists h, HB s a h) /\ (forall t, last (pr s (AH t)) /\ (cur s t <> AH t -> pr s (AH t) = Ret)) /\
  (forall a, In a (lk s (Sched (th a))) -> cur s (th a) = a).
Lemma hb_in : forall s a h l, HB s a h -> In l h <-> In a (lk s l).
Proof. intros s a h l (_&C). rewrite (count_occ_In lock_eq), (count_occ_In agent_eq). now rewrite C. Qed.
Lemma do_op_lk : forall s a o s1, do_op s a o = Some s1 ->
  pr s1 = pr s /\ cur s1 = cur s /\ (forall b l, b <> a -> count_occ agent_eq (lk s1 l) b = count_occ agent_eq (lk s l) b).
Proof.
  intros s a o s1 S. split; [|split; [now apply do_op_cur with a o|]].
  - destruct o; simpl in S; try (injection S as <-; reflexivity); try discriminate.
    + destruct (avail s a l); [|discriminate]. injection S as <-. reflexivity.
    + destruct (forallb _ ls); [|discriminate]. injection S as <-. apply take_all_frame.
    + destruct (has a (lk s l)); [|discriminate]. injection S as <-. reflexivity.
    + destruct (acc s o); try discriminate. injection S as <-. reflexivity.
    + destruct (acc s o); try discriminate. destruct (aeqb a0 a); [|discriminate]. injection S as <-. reflexivity.
    + destruct (acc s (OC c)); try discriminate. destruct (use s c); [|discriminate]. injection S as <-. reflexivity.
  - intros b y N. destruct o; simpl in S; try (injection S as <-; reflexivity); try discriminate.
    + destruct (avail s a l); [|discriminate]. injection S as <-. now apply count_take_other.
    + destruct (forallb _ ls); [|discriminate]. injection S as <-. now apply count_take_all_other.
    + destruct (has a (lk s l)); [|discriminate]. injection S as <-. simpl. destruct (lock_eq y l) as [->|M]; auto. rewrite count_rem1.
      destruct (agent_eq b a); congruence.
    + destruct (acc s o); try discriminate. injection S as <-. reflexivity.
    + destruct (acc s o); try discriminate. destruct (aeqb a0 a); [|discriminate]. injection S as <-. reflexivity.
    + destruct (acc s (OC c)); try discriminate. destruct (use s c); [|discriminate]. injection S as <-. reflexivity.
Qed.
Lemma do_op_bal : forall s a o s1 h k, do_op s a o = Some s1 -> bal h (Do o k) -> (forall l, count_occ agent_eq (lk s l) a = count_occ lock_eq h l) ->
  exists h', bal h' k /\ forall l, count_occ agent_eq (lk s1 l) a = count_occ lock_eq h' l.
Proof.
  intros s a o s1 h k S G Cn. destruct o; simpl in S; try discriminate;
    try (injection S as <-; exists h; split; [first [exact G|apply G]|exact Cn]).
  - destruct (avail s a l); [|discriminate]. injection S as <-. exists (l :: h). split; auto. intros y. rewrite take_lk. simpl.
    destruct (lock_eq y l), (lock_eq l y); try congruence; subst; simpl; rewrite ?Cn; auto. destruct (agent_eq a a); congruence.
  - destruct (forallb _ ls); [|discriminate]. injection S as <-. exists (ls ++ h). split; auto. intros y. rewrite count_take_all_same, count_app_lk. now rewrite Cn.
  - destruct (has a (lk s l)); [|discriminate]. injection S as <-. destruct G as (G1&G2). exists (remlk l h). split; auto. intros y. simpl.
    rewrite count_remlk by auto. destruct (lock_eq y l) as [->|N]; [|now rewrite Cn]. rewrite count_rem1, Cn. destruct (agent_eq a a); congruence.
  - destruct (acc s o); try discriminate. injection S as <-. exists h. auto.
  - destruct (acc s o); try discriminate. destruct (aeqb a0 a); [|discriminate]. injection S as <-. exists h. auto.
  - destruct (acc s (OC c)); try discriminate. destruct (use s c); [|discriminate]. injection S as <-. exists h. auto.
Qed.
(** A change by activity [a] only. *)
Lemma BI_own : forall s s' a, CI s -> BI s -> cur s (th a) = a -> cur s' = cur s -> (forall b, b <> a -> pr s' b = pr s b) ->
  (forall b l, b <> a -> count_occ agent_eq (lk s' l) b = count_occ agent_eq (lk s l) b) -> (exists h, HB s' a h) ->
  (forall t, a = AH t -> last (pr s' a)) -> BI s'.
Proof.
  intros s s' a C (B1&B2&B3) Cu Ec Ep El E La. split; [|split].
  - intros b. destruct (agent_eq b a) as [->|N]; [exact E|]. destruct (B1 b) as (h&Hb&Hc). exists h. split; [now rewrite Ep|].
    intros l. now rewrite El.
  - rewrite Ec. intros t. destruct (agent_eq (AH t) a) as [<-|N]; [|now rewrite Ep].
    split; [eauto|]. simpl in Cu. congruence.
  - rewrite Ec. intros b I. destruct (agent_eq b a) as [->|N]; auto. apply B3. rewrite (count_occ_In agent_eq), El in I by auto.
    now apply (count_occ_In agent_eq).
Qed.
Lemma last_do : forall o k s a s1, do_op s a o = Some s1 -> last (Do o k) -> last k.
Proof. intros o k s a s1 D H. destruct o; simpl in *; auto; discriminate. Qed.
Lemma BI_step : forall s l s', CI s /\ BI s -> lstep s l = Some s' -> CI s' /\ BI s'.
Proof.
  intros s l s' (C&B) S. split; [eapply CI_step; eauto|]. destruct l; simpl in S.
  - destruct a as [t i|]; [|discriminate]. destruct (pr s (AC t i)) eqn:E; try discriminate. destruct (_ && _ && _) eqn:X; [|discriminate]. injection S as <-.
    apply andb_prop in X as [X _]. apply andb_prop in X as [X _]. apply aeqb_eq in X.
    apply BI_own with s (AC t i); auto.
    + intros b N. rewrite pr_other by auto. reflexivity.
    + exists []. split; [rewrite pr_same; apply code_bal'|]. destruct (proj1 B (AC t i)) as (h&H1&H2). rewrite E in H1. simpl in H1. subst h. exact H2.
    + intros u Y. discriminate.
  - unfold step_of in S. destruct (aeqb _ a) eqn:Cu; [|discriminate]. apply aeqb_eq in Cu. destruct (proj1 B a) as (h&H1&H2).
    assert (La : forall t, a = AH t -> last (pr s a)) by (intros t ->; apply B).
    destruct (pr s a) as [|o k|l k1 k2|e k1 k2|c k1 k2] eqn:E; try discriminate.
    + destruct (do_op s a o) as [s1|] eqn:D; [|discriminate]. injection S as <-. destruct (do_op_lk _ _ _ _ D) as (Q1&Q2&Q3).
      apply BI_own with s a; auto.
      * intros b N. rewrite pr_other by auto. now rewrite Q1.
      * destruct (do_op_bal _ _ _ _ _ _ D H1 H2) as (h'&X&Y). exists h'. split; [now rewrite pr_same|exact Y].
      * intros t X. rewrite pr_same. eapply last_do; eauto.
    + destruct H1 as (G1&G2). destruct (avail s a l); injection S as <-; (apply BI_own with s a; [auto|auto|auto|reflexivity|intros b N; rewrite pr_other by auto; reflexivity| | |intros t X; rewrite pr_same; now apply (La t)]).
      * intros b y N. now apply (count_take_other s a b l y).
      * exists (l :: h). split; [now rewrite pr_same|]. intros y. change (lk (with_pr (take s a l) a k1)) with (lk (take s a l)). rewrite take_lk. simpl.
        destruct (lock_eq y l), (lock_eq l y); try congruence; subst; simpl; rewrite ?H2; auto. destruct (agent_eq a a); congruence.
      * reflexivity.
      * exists h. split; [now rewrite pr_same|exact H2].
    + injection S as <-. destruct H1 as (G1&G2). apply BI_own with s a; [auto|auto|auto|reflexivity|intros b N; rewrite pr_other by auto; reflexivity|reflexivity| |].
      * exists h. split; [|exact H2]. rewrite pr_same. destruct (count s e =? 0); auto.
      * intros t X. rewrite pr_same. specialize (La t X). simpl in La. destruct (count s e =? 0); apply La.
    + injection S as <-. destruct H1 as (G1&G2). apply BI_own with s a; [auto|auto|auto|reflexivity|intros b N; rewrite pr_other by auto; reflexivity|reflexivity| |].
      * exists h. split; [|exact H2]. rewrite pr_same. destruct (fin s c); auto.
      * intros t X. rewrite pr_same. specialize (La t X). simpl in La. destruct (fin s c); apply La.
  - destruct (pr s a) as [|o k| | |] eqn:E; try discriminate. destruct o; try discriminate. destruct b as [t i|]; [|discriminate].
    destruct (_ && _) eqn:X; [|discriminate]. apply andb_prop in X as [X1 X2]. apply aeqb_eq in X1. apply Nat.eqb_eq in X2. subst t. injection S as <-.
    destruct (proj1 B a) as (h&H1&H2). rewrite E in H1. destruct H1 as (->&H1). destruct B as (B1&B2&B3). split; [|split].
    + intros b. destruct (agent_eq b a) as [->|N].
      * exists []. split; [|exact H2]. change (bal [] (pr (with_pr s a k) a)). now rewrite pr_same.
      * destruct (B1 b) as (hb&X&Y). exists hb. split; [|exact Y]. change (bal hb (pr (with_pr s a k) b)). now rewrite pr_other by auto.
    + intros t. change (last (pr (with_pr s a k) (AH t)) /\ (upd (cur s) (th a) (AC (th a) i) t <> AH t -> pr (with_pr s a k) (AH t) = Ret)).
      destruct (B2 t) as (L1&L2). destruct (agent_eq (AH t) a) as [<-|M].
      * rewrite pr_same. rewrite E in L1. simpl in L1. subst k. simpl. auto.
      * rewrite pr_other by auto. split; auto. intros Y. apply L2. intros Z. unfold upd in Y. destruct (t =? th a) eqn:Q; [|auto].
        apply Nat.eqb_eq in Q. subst t. congruence.
    + intros b I. simpl in I. specialize (B3 b I). simpl. unfold upd. destruct (th b =? th a) eqn:Q; auto. apply Nat.eqb_eq in Q.
      assert (b = a) by congruence. subst b. apply (count_occ_In agent_eq) in I. rewrite H2 in I. simpl in I. lia.
  - destruct (cur s t) as [u i|] eqn:Cu; [|discriminate]. destruct (_ && _ && _) eqn:X; [|discriminate]. injection S as <-.
    apply andb_prop in X as [X X3]. apply andb_prop in X as [X1 X2]. apply Nat.eqb_eq in X2. unfold count in X2.
    assert (X4 : lk s (Sched t) = []) by (destruct (lk s (Sched t)); auto; simpl in X2; lia).
    destruct B as (B1&B2&B3). assert (R : pr s (AH t) = Ret) by (apply B2; congruence).
    set (s1 := with_cur (with_sig (take s (AH t) (Sched t)) t false) t (AH t)). split; [|split].
    + intros b. destruct (agent_eq b (AH t)) as [->|N].
      * exists [Sched t]. split; [rewrite pr_same; apply handler_bal|]. destruct (B1 (AH t)) as (h&H1&H2). rewrite R in H1. simpl in H1. subst h.
        intros y. change (lk (with_pr s1 (AH t) _) y) with (lk (take s (AH t) (Sched t)) y). rewrite take_lk.
        destruct (lock_eq y (Sched t)) as [E|E].
        { subst y. rewrite X4. cbn [count_occ]. destruct (agent_eq (AH t) (AH t)), (lock_eq (Sched t) (Sched t)); congruence. }
        rewrite (H2 y). cbn [count_occ]. destruct (lock_eq (Sched t) y); congruence.
      * destruct (B1 b) as (h&H1&H2). exists h. split; [rewrite pr_other by auto; exact H1|]. intros y.
        change (lk (with_pr s1 (AH t) _) y) with (lk (take s (AH t) (Sched t)) y). now rewrite count_take_other.
    + intros u'. destruct (agent_eq (AH u') (AH t)) as [E|N].
      * injection E as ->. rewrite pr_same. split; [apply handler_last|]. simpl. rewrite upd_same. congruence.
      * rewrite pr_other by auto. simpl. rewrite upd_other by congruence. apply B2.
    + intros b. change (In b (lk (take s (AH t) (Sched t)) (Sched (th b))) -> upd (cur s) t (AH t) (th b) = b). rewrite take_lk.
      destruct (lock_eq (Sched (th b)) (Sched t)) as [E|N].
      * injection E as E. rewrite X4. intros [<-|[]]. simpl. apply upd_same.
      * intros I. rewrite upd_other by congruence. auto.
Qed.
Lemma BI_reach : forall ls s, run lstep linit ls = Some s -> BI s.
Proof.
  intros ls s R. assert (X : CI s /\ BI s); [|apply X]. eapply (run_inv lstep (fun s => CI s /\ BI s)); [|exact BI_step|exact R]. split; [intros t; reflexivity|].
  split; [|split].
  - intros a. exists []. split; reflexivity.
  - intros t. split; simpl; auto.
  - intros a [].
Qed.

(** Without switch signals the holder of a lock is executing. *)
Definition unsignalled (l : llbl) : Prop := match l with LSig _ _ => False | _ => True end.
Definition BN (s : lst) : Prop := forall a l, In a (lk s l) -> cur s (th a) = a.
Lemma in_count : forall s s' b l, count_occ agent_eq (lk s' l) b = count_occ agent_eq (lk s l) b -> In b (lk s' l) -> In b (lk s l).
Proof. intros s s' b l E I. apply (count_occ_In agent_eq) in I. rewrite E in I. now apply (count_occ_In agent_eq). Qed.
Lemma BN_step : forall s l s', unsignalled l -> BI s -> BN s -> lstep s l = Some s' -> BN s'.
Proof.
  intros s l s' U B N S b y I. destruct l; simpl in S; [| | |destruct U].
  - destruct a as [t i|]; [|discriminate]. destruct (pr s (AC t i)) eqn:E; try discriminate. destruct (_ && _ && _) eqn:X; [|discriminate]. injection S as <-.
    exact (N b y I).
  - unfold step_of in S. destruct (aeqb _ a) eqn:Cu; [|discriminate]. apply aeqb_eq in Cu.
    destruct (pr s a) as [|o k|l k1 k2|e k1 k2|c k1 k2] eqn:E; try discriminate.
    + destruct (do_op s a o) as [s1|] eqn:D; [|discriminate]. injection S as <-. destruct (do_op_lk _ _ _ _ D) as (Q1&Q2&Q3). simpl in *. rewrite Q2.
      destruct (agent_eq b a) as [->|M]; auto. apply (N b y). eapply in_count; [|exact I]. now apply Q3.
    + destruct (avail s a l); injection S as <-; [|exact (N b y I)]. simpl. destruct (agent_eq b a) as [->|M]; auto. apply (N b y).
      eapply in_count; [|exact I]. now apply (count_take_other s a b l y).
    + injection S as <-. exact (N b y I).
    + injection S as <-. exact (N b y I).
  - destruct (pr s a) as [|o k| | |] eqn:E; try discriminate. destruct o; try discriminate. destruct b0 as [t i|]; [|discriminate].
    destruct (_ && _) eqn:X; [|discriminate]. apply andb_prop in X as [X1 X2]. apply aeqb_eq in X1. apply Nat.eqb_eq in X2. subst t. injection S as <-.
    simpl in *. pose proof (N b y I) as Z. unfold upd. destruct (th b =? th a) eqn:Q; auto. apply Nat.eqb_eq in Q.
    assert (b = a) by congruence. subst b. destruct (proj1 B a) as (h&H1&H2). rewrite E in H1. destruct H1 as (->&_).
    apply (count_occ_In agent_eq) in I. rewrite H2 in I. simpl in I. lia.
Qed.
Lemma BN_reach : forall ls s, Forall unsignalled ls -> run lstep linit ls = Some s -> BN s.
Proof.
  intros ls s F R. assert (G : CI linit /\ BI linit /\ BN linit).
  { split; [intros t; reflexivity|]. split; [|intros a l []]. apply (BI_reach [] linit). reflexivity. }
  revert G F R. generalize linit. induction ls as [|l ls IH]; intros s0 (C&B&N) F R; simpl in R.
  - now injection R as <-.
  - destruct (lstep s0 l) as [s1|] eqn:E; [|discriminate]. inversion F; subst. apply (IH s1); auto.
    destruct (BI_step _ _ _ (conj C B) E). split; [auto|]. split; [auto|]. exact (BN_step _ _ _ H1 B N E).
Qed.

(** ** Threads that never go on. *)
Definition shielded (s : lst) (ts : list nat) (t : nat) : Prop := 0 < grd s t \/ exists a, In (th a) ts /\ In a (lk s (Sched t)).
Definition still (s : lst) (ts : list nat) (ls : list llbl) (t : nat) : Prop :=
  (exists u, In u ts /\ twaits s t u) \/ (pr s (cur s t) = Ret /\ forall k, ~ In (LCall (cur s t) k) ls).
Definition unswitched (s : lst) (ts : list nat) (ls : list llbl) (t : nat) : Prop :=
  shielded s ts t \/ (sig s t = false /\ exists a, In (th a) ts /\ In a (lk s Mgr)) \/ forall x, ~ In (LSig t x) ls.
Definition keeps (ts : list nat) (s0 s : lst) : Prop :=
  (forall t, In t ts -> cur s t = cur s0 t /\ grd s t = grd s0 t) /\
  (forall a, In (th a) ts -> pr s a = pr s0 a /\ forall l, In a (lk s0 l) -> In a (lk s l)) /\
  (forall t a, In t ts -> In (th a) ts -> In a (lk s0 Mgr) -> sig s0 t = false -> sig s t = false).

Lemma keeps_refl : forall ts s, keeps ts s s.
Proof. unfold keeps. intuition. Qed.
Lemma wants_avail : forall s a l, TI s -> wants s a l -> (exists b, In b (lk s l) /\ th b <> th a) -> step_of s a = None.
Proof.
  intros s a l T (k&W) (b&I&N). assert (A : avail s a l = false).
  { destruct (avail s a l) eqn:A; auto. destruct N. exact (proj1 (avail_spec s a l T) A b I). }
  unfold step_of. destruct (aeqb _ a); auto. destruct W as [->|(ls&->&J)]; simpl.
  - now rewrite A.
  - destruct (forallb (avail s a) ls) eqn:F; auto. rewrite forallb_forall in F. rewrite F in A by auto. discriminate.
Qed.
Lemma wants_pr : forall s s' a l, pr s' a = pr s a -> wants s a l -> wants s' a l.
Proof. unfold wants. intros s s' a l ->. auto. Qed.
Lemma do_op_sig : forall s a o s1 t, do_op s a o = Some s1 -> sig s1 t <> sig s t -> exists e, o = Send e.
Proof.
  intros s a o s1 t S N. destruct o; simpl in S; try (injection S as <-; destruct (N eq_refl)); try discriminate; eauto.
  - destruct (avail s a l); [|discriminate]. injection S as <-. destruct (N eq_refl).
  - destruct (forallb _ ls); [|discriminate]. injection S as <-. destruct N. destruct (take_all_frame ls s a) as (_&_&_&_&_&_&E). now rewrite E.
  - destruct (has a (lk s l)); [|discriminate]. injection S as <-. destruct (N eq_refl).
  - destruct (acc s o); try discriminate. injection S as <-. destruct (N eq_refl).
  - destruct (acc s o); try discriminate. destruct (aeqb a0 a); [|discriminate]. injection S as <-. destruct (N eq_refl).
  - destruct (acc s (OC c)); try discriminate. destruct (use s c); [|discriminate]. injection S as <-. destruct (N eq_refl).
Qed.
Lemma do_op_grd : forall s a o s1 t, do_op s a o = Some s1 -> t <> th a -> grd s1 t = grd s t.
Proof.
  intros s a o s1 t S N. destruct o; simpl in S; try (injection S as <-; simpl; rewrite ?upd_other by auto; reflexivity); try discriminate.
  - destruct (avail s a l); [|discriminate]. injection S as <-. reflexivity.
  - destruct (forallb _ ls); [|discriminate]. injection S as <-. destruct (take_all_frame ls s a) as (E&_). now rewrite E.
  - destruct (has a (lk s l)); [|discriminate]. injection S as <-. reflexivity.
  - destruct (acc s o); try discriminate. injection S as <-. reflexivity.
  - destruct (acc s o); try discriminate. destruct (aeqb a0 a); [|discriminate]. injection S as <-. reflexivity.
  - destruct (acc s (OC c)); try discriminate. destruct (use s c); [|discriminate]. injection S as <-. reflexivity.
Qed.
Lemma keeps_in : forall s s' b l, count_occ agent_eq (lk s' l) b = count_occ agent_eq (lk s l) b -> In b (lk s l) -> In b (lk s' l).
Proof. intros s s' b l E I. apply (count_occ_In agent_eq) in I. rewrite <- E in I. now apply (count_occ_In agent_eq). Qed.

(** Nobody of [ts] steps. *)
Lemma still_none : forall ts s0 s ls t l s', TI s -> CI s -> keeps ts s0 s -> In t ts -> still s0 ts (l :: ls) t -> lstep s l = Some s' ->
  l <> LStep (cur s t) /\ (forall k, l <> LCall (cur s t) k) /\ (forall b, l <> LYield (cur s t) b).
Proof.
  intros ts s0 s ls t l s' T C (K1&K2&K3) I St S. destruct (K1 t I) as (Ec&_). pose proof (C t) as Ct.
  assert (It : In (th (cur s t)) ts) by now rewrite Ct. destruct (K2 _ It) as (Ep&_).
  destruct St as [(u&J&y&b&W&Ib&<-&N)|(R&NC)].
  - rewrite <- Ec in W. apply (wants_pr s0 s) in W; auto. destruct (K2 b J) as (_&Kb). specialize (Kb y Ib).
    assert (X : step_of s (cur s t) = None) by (eapply wants_avail; eauto; exists b; split; auto; now rewrite Ct).
    repeat split.
    + intros ->. simpl in S. congruence.
    + intros k ->. simpl in S. destruct (cur s t); [|discriminate]. destruct W as (q&[W|(?&W&_)]); rewrite W in S; discriminate.
    + intros b' ->. simpl in S. destruct W as (q&[W|(?&W&_)]); rewrite W in S; discriminate.
  - rewrite <- Ec in R. rewrite <- Ep in R. repeat split.
    + intros ->. simpl in S. unfold step_of in S. rewrite R in S. destruct (aeqb _ _); discriminate.
    + intros k ->. apply (NC k). rewrite <- Ec. now left.
    + intros b' ->. simpl in S. rewrite R in S. discriminate.
Qed.
Lemma keeps_step : forall ts s0 s ls l s', TI s -> CI s -> BI s -> keeps ts s0 s ->
  (forall t, In t ts -> still s0 ts (l :: ls) t /\ unswitched s0 ts (l :: ls) t) -> lstep s l = Some s' -> keeps ts s0 s'.
Proof.
  intros ts s0 s ls l s' T C B K H S. pose proof K as (K1&K2&K3).
  assert (NS : forall t, In t ts -> l <> LStep (cur s t) /\ (forall k, l <> LCall (cur s t) k) /\ (forall b, l <> LYield (cur s t) b)).
  { intros t I. eapply still_none; eauto. now apply H. }
  assert (NSig : forall t x, In t ts -> l <> LSig t x).
  { intros t x I ->. destruct (H t I) as (_&[U|[(U1&a&U2&U3)|U]]).
    - simpl in S. destruct (cur s t); [|discriminate]. destruct (K1 t I) as (_&Eg). destruct (count s t =? 0) eqn:Z; [|rewrite !andb_false_r in S; discriminate].
      apply Nat.eqb_eq in Z. unfold count in Z. destruct U as [U|(a&U1&U2)]; [rewrite Eg in Z; lia|].
      destruct (K2 a U1) as (_&Ka). specialize (Ka _ U2). destruct (lk s (Sched t)); [destruct Ka|simpl in Z; lia].
    - simpl in S. destruct (cur s t); [|discriminate]. rewrite (K3 t a) in S by auto. discriminate.
    - apply (U x). now left. }
  destruct l.
  - simpl in S. destruct a as [t i|]; [|discriminate]. destruct (pr s (AC t i)) eqn:E; try discriminate. destruct (_ && _ && _) eqn:X; [|discriminate].
    injection S as <-. apply andb_prop in X as [X _]. apply andb_prop in X as [X _]. apply aeqb_eq in X. split; [exact K1|]. split; [|exact K3].
    intros a I. destruct (agent_eq a (AC t i)) as [->|N].
    + simpl in I. destruct (NS t I) as (_&N&_). rewrite X in N. now destruct (N k).
    + rewrite pr_other by auto. now apply K2.
  - simpl in S. unfold step_of in S. destruct (aeqb _ a) eqn:Cu; [|discriminate]. apply aeqb_eq in Cu.
    assert (NI : ~ In (th a) ts) by (intros I; destruct (NS _ I) as (N&_); rewrite Cu in N; congruence).
    assert (NA : forall b, In (th b) ts -> b <> a) by (intros b I ->; auto).
    destruct (pr s a) as [|o k|y k1 k2|e k1 k2|c k1 k2] eqn:E; try discriminate.
    + destruct (do_op s a o) as [s1|] eqn:D; [|discriminate]. injection S as <-. destruct (do_op_lk _ _ _ _ D) as (Q1&Q2&Q3). split; [|split].
      * intros t I. destruct (K1 t I) as (X&Y). simpl. rewrite Q2. split; auto. rewrite (do_op_grd _ _ _ _ t D); auto. intros ->. auto.
      * intros b I. destruct (K2 b I) as (X&Y). rewrite pr_other by auto. rewrite Q1. split; auto. intros y J. simpl. eapply keeps_in; [now apply Q3; auto|]. auto.
      * intros t b I J Im Si. simpl. specialize (K3 t b I J Im Si). destruct (sig s1 t) eqn:Z; auto. exfalso.
        destruct (do_op_sig _ _ _ _ t D) as (e&->); [congruence|]. destruct (proj1 B a) as (h&H1&H2). rewrite E in H1. destruct H1 as (H1&_).
        destruct (K2 b J) as (_&Kb). specialize (Kb _ Im). apply NI. replace (th a) with (th b); auto. apply T with Mgr; auto.
        apply (count_occ_In agent_eq). rewrite H2. now apply (count_occ_In lock_eq).
    + destruct (avail s a y); injection S as <-; (split; [exact K1|split; [|exact K3]]); intros b I; destruct (K2 b I) as (X&Y); rewrite pr_other by auto; (split; [exact X|]); auto.
      intros z J. eapply keeps_in; [|exact (Y z J)]. now apply (count_take_other s a b y z); auto.
    + injection S as <-. split; [exact K1|split; [|exact K3]]. intros b I. rewrite pr_other by auto. now apply K2.
    + injection S as <-. split; [exact K1|split; [|exact K3]]. intros b I. rewrite pr_other by auto. now apply K2.
  - simpl in S. destruct (pr s a) as [|o k| | |] eqn:E; try discriminate. destruct o; try discriminate. destruct b as [t i|]; [|discriminate].
    destruct (_ && _) eqn:X; [|discriminate]. apply andb_prop in X as [X1 X2]. apply aeqb_eq in X1. apply Nat.eqb_eq in X2. subst t. injection S as <-.
    assert (NI : ~ In (th a) ts) by (intros I; destruct (NS _ I) as (_&_&N); rewrite X1 in N; now destruct (N (AC (th a) i))).
    split; [|split; [|exact K3]].
    + intros t I. destruct (K1 t I). simpl. rewrite upd_other by (intros ->; auto). auto.
    + intros b I. change (pr (with_pr s a k) b = pr s0 b /\ (forall l : lock, In b (lk s0 l) -> In b (lk s l))). rewrite pr_other by (intros ->; auto). now apply K2.
  - simpl in S. destruct (cur s t) as [u i|] eqn:Cu; [|discriminate]. destruct (_ && _ && _) eqn:X; [|discriminate]. injection S as <-.
    assert (NI : ~ In t ts) by (intros I; now destruct (NSig t x I)). split; [|split].
    + intros v I. destruct (K1 v I). simpl. rewrite upd_other by (intros ->; auto). auto.
    + intros b I. destruct (K2 b I) as (Y&Z). rewrite pr_other by (intros ->; simpl in I; auto). split; [exact Y|]. intros y J.
      eapply keeps_in; [|exact (Z y J)]. apply (count_take_other s (AH t) b (Sched t) y). intros ->. simpl in I. auto.
    + intros v b I J Im Si. simpl. rewrite upd_other by (intros ->; auto). eauto.
Qed.
Lemma keeps_run : forall ts s0, TI s0 -> CI s0 -> BI s0 -> forall ls s, (forall t, In t ts -> still s0 ts ls t /\ unswitched s0 ts ls t) ->
  run lstep s0 ls = Some s -> keeps ts s0 s.
Proof.
  intros ts s0 T C B ls s H R.
  assert (G : forall ls s1, TI s1 -> CI s1 -> BI s1 -> keeps ts s0 s1 -> (forall t, In t ts -> still s0 ts ls t /\ unswitched s0 ts ls t) ->
    run lstep s1 ls = Some s -> keeps ts s0 s); [|eapply G; eauto using keeps_refl].
  clear ls H R. induction ls as [|l ls IH]; intros s1 T1 C1 B1 K H R; simpl in R.
  - now injection R as <-.
  - destruct (lstep s1 l) as [s2|] eqn:E; [|discriminate]. destruct (BI_step _ _ _ (conj C1 B1) E) as (C2&B2).
    apply (IH s2); auto; [eapply TI_step; eauto|eapply keeps_step; eauto|].
    intros t I. destruct (H t I) as (X&Y). split.
    + destruct X as [X|(X1&X2)]; [now left|right; split; auto]. intros k J. apply (X2 k). now right.
    + destruct Y as [Y|[Y|Y]]; [now left|now right; left|right; right]. intros x J. apply (Y x). now right.
Qed.
