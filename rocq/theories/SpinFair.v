(** Objects protected by one co_spinlock under strongly fair scheduling: seen as objects whose blocks are single steps, their
    executions are weakly fair. *)
From Coq Require Import List Arith Bool Lia.
From Verif Require Import Base SpinInv LinSpec SpinObj SpinObjProofs FairSpec.
Import ListNotations.
Set Implicit Arguments.

(** A first moment, for a property that can be decided. *)
Lemma first_in : forall (P : nat -> Prop), (forall k, {P k} + {~ P k}) -> forall d n,
  (exists m, n <= m < n + d /\ P m /\ forall k, n <= k < m -> ~ P k) \/ (forall k, n <= k < n + d -> ~ P k).
Proof.
  intros P D. induction d as [|d IH]; intros n; [right; lia|]. destruct (IH n) as [(m&H1&H2)|H]; [left; exists m; split; [lia|auto]|].
  destruct (D (n + d)) as [X|X].
  - left. exists (n + d). split; [lia|]. split; auto.
  - right. intros k K. destruct (Nat.eq_dec k (n + d)) as [->|N]; auto. apply H. lia.
Qed.
Lemma first_ge : forall (P : nat -> Prop), (forall k, {P k} + {~ P k}) -> forall n m, n <= m -> P m ->
  exists k, n <= k <= m /\ P k /\ forall j, n <= j < k -> ~ P j.
Proof.
  intros P D n m L H. destruct (@first_in P D (S m - n) n) as [(k&H1&H2)|X].
  - exists k. split; [lia|auto].
  - exfalso. apply (X m); auto. lia.
Qed.

Section P.
  Variables (D Op Res Aux Loc : Type).
  Variable entry : Op -> Loc.
  Variable seg : tid -> Op -> Loc -> bool -> D -> sout D Op Res Aux Loc.
  Variable d0 : D.
  Notation F := (fst_ D Op Res Aux Loc).
  Notation A := (ast D Op Res Aux Loc).
  Notation fstep := (@fstep D Op Res Aux Loc entry seg).
  Notation astep := (@astep D Op Res Aux Loc entry seg).
  Notation absl := (@absl D Op Res Aux Loc).
  Notation finit := (finit Op Res Aux Loc d0).
  Notation ainit := (ainit Op Res Aux Loc d0).

  Definition fwho (l : slbl Op) : option nat := match l with SRun t _ => Some t | SCall _ _ => None end.
  Definition awho (l : albl Op) : option nat := match l with ARun t _ | ALeave t => Some t | ACall _ _ => None end.

  (** ** The fine-grained model *)
  Section Fine.
  Variables (st : nat -> F) (lb : nat -> option (slbl Op)).
  Hypothesis EX : execution _ _ fstep finit st lb.
  Hypothesis SF : strongly_fair _ _ fstep fwho st lb.
  Notation mv := (moves _ fwho lb).
  Notation ab := (able _ _ fstep fwho).

  (** The atomic execution that goes with it. *)
  Fixpoint at_ (n : nat) : A :=
    match n with
    | 0 => ainit
    | S n => match lb n with
             | Some l => match absl (st n) l with
                         | Some al => match astep (at_ n) al with Some a => a | None => at_ n end
                         | None => at_ n
                         end
             | None => at_ n
             end
    end.
  Definition al_ (n : nat) : option (albl Op) := match lb n with Some l => absl (st n) l | None => None end.

  Lemma at_rel : forall n, R (st n) (at_ n).
  Proof.
    induction n as [|n IH]; [rewrite (proj1 EX); apply r_init|]. pose proof (proj2 EX n) as Hs. simpl. destruct (lb n) as [l|] eqn:E; [|now rewrite Hs].
    pose proof (sim_lbl _ _ l IH Hs) as H. destruct (absl (st n) l) as [al|]; auto. destruct H as (a'&Ea&H). now rewrite Ea.
  Qed.
  Lemma at_exec : execution _ _ astep ainit at_ al_.
  Proof.
    split; [reflexivity|]. intros n. unfold al_. simpl. pose proof (proj2 EX n) as Hs. destruct (lb n) as [l|] eqn:E; auto.
    pose proof (sim_lbl _ _ l (at_rel n) Hs) as H. destruct (absl (st n) l) as [al|]; auto. destruct H as (a'&Ea&H). now rewrite Ea.
  Qed.

  Lemma mv_dec : forall t n, {mv t n} + {~ mv t n}.
  Proof.
    intros t n. unfold moves. destruct (lb n) as [l|]; [|right; intros (l&E&_); discriminate].
    destruct (fwho l) as [u|] eqn:W; [|right; intros (l'&E&X); injection E as <-; congruence].
    destruct (Nat.eq_dec u t) as [->|N]; [left; eauto|right; intros (l'&E&X); injection E as <-; congruence].
  Qed.
  Lemma pcs_other : forall s l s' t, fstep s l = Some s' -> fwho l <> Some t -> (forall o, l <> SCall t o) -> fpcs s' t = fpcs s t.
  Proof.
    intros s [u o|u b] s' t H N C; simpl in H.
    - destruct (fpcs s u) eqn:P; try discriminate. injection H as <-. simpl. apply upd_other. intros ->. now apply (C o).
    - assert (u <> t) by (intros ->; now apply N).
      repeat (match type of H with context [match ?x with _ => _ end] => destruct x eqn:?X end); try discriminate; injection H as <-; simpl; apply upd_other; auto.
  Qed.
  Lemma stay1 : forall t n, fpcs (st n) t <> FOut -> ~ mv t n -> fpcs (st (S n)) t = fpcs (st n) t.
  Proof.
    intros t n I M. pose proof (proj2 EX n) as Hs. destruct (lb n) as [l|] eqn:E; [|now rewrite Hs]. eapply pcs_other; eauto.
    - intros W. apply M. exists l. auto.
    - intros o ->. simpl in Hs. destruct (fpcs (st n) t); try discriminate. congruence.
  Qed.
  Lemma stay : forall t n m, n <= m -> fpcs (st n) t <> FOut -> (forall k, n <= k < m -> ~ mv t k) -> fpcs (st m) t = fpcs (st n) t.
  Proof.
    intros t n m L I. induction L as [|m L IH]; intros H; auto. rewrite stay1.
    - apply IH. intros k K. apply H. lia.
    - rewrite IH; auto. intros k K. apply H. lia.
    - apply H. lia.
  Qed.
  Lemma mv_run : forall t n, mv t n -> exists b, lb n = Some (SRun t b) /\ fstep (st n) (SRun t b) = Some (st (S n)).
  Proof.
    intros t n (l&E&W). pose proof (proj2 EX n) as Hs. rewrite E in Hs. destruct l as [u o|u b]; [discriminate|]. injection W as ->. eauto.
  Qed.
  Lemma mv_able : forall t n, mv t n -> ab (st n) t.
  Proof. intros t n M. destruct (mv_run M) as (b&E&Hs). exists (SRun t b), (st (S n)). auto. Qed.
  (** A coroutine that is able again and again, as long as it makes no step, makes one. *)
  Lemma fire : forall t n, fpcs (st n) t <> FOut ->
    (forall k, n <= k -> (forall i, n <= i < k -> ~ mv t i) -> exists j, k <= j /\ ((forall i, n <= i < j -> ~ mv t i) -> ab (st j) t)) ->
    exists m, n <= m /\ fpcs (st m) t = fpcs (st n) t /\ mv t m /\ forall k, n <= k < m -> ~ mv t k.
  Proof.
    intros t n I H. assert (G : forall m, n <= m -> mv t m -> exists m, n <= m /\ fpcs (st m) t = fpcs (st n) t /\ mv t m /\ forall k, n <= k < m -> ~ mv t k).
    { intros m L M. destruct (@first_ge (mv t) (mv_dec t) n m L M) as (k&K1&K2&K3). exists k. split; [lia|]. split; [|auto]. apply stay; auto. lia. }
    destruct (SF t n) as (m&L&[M|Z]); [eauto|]. destruct (@first_in (mv t) (mv_dec t) (m - n) n) as [(k&K1&K2&_)|X].
    - apply (G k); auto. lia.
    - exfalso. destruct (H m L) as (j&J1&J2); [intros i K; apply X; lia|]. apply (Z j J1), J2. intros i K M.
      destruct (le_lt_dec m i); [apply (Z i); auto; now apply mv_able|]. apply (X i); auto. lia.
  Qed.
  Lemma cs_able : forall s t, incs (fpcs s t) = true -> ab s t.
  Proof.
    intros s t C. exists (SRun t true). simpl. destruct (fpcs s t) as [|o l|o l|o l|o l|o l|o l|o l|o [|g gr] r]; try discriminate; try (eexists; split; reflexivity).
    destruct (seg t o l true (fdat s)); eexists; split; reflexivity.
  Qed.
  Lemma fire_cs : forall t n, incs (fpcs (st n) t) = true -> exists m, n <= m /\ fpcs (st m) t = fpcs (st n) t /\ mv t m /\ forall k, n <= k < m -> ~ mv t k.
  Proof.
    intros t n C. assert (I : fpcs (st n) t <> FOut) by (intros E; rewrite E in C; discriminate).
    apply fire; auto. intros k L E. exists k. split; auto. intros _. apply cs_able. now rewrite (@stay t n k).
  Qed.
  (** Where a coroutine in the block is going: the wake-ups one by one, then out. *)
  Definition nrank (p : fpc Op Res Loc) : nat :=
    match p with FRelY _ _ | FRelP _ _ => 1 | FMark _ _ => 2 | FUn _ gr _ => S (length gr) | _ => 0 end.
  Lemma fire_un : forall k t n o gr r, fpcs (st n) t = FUn o gr r -> length gr = k ->
    exists m, n <= m /\ fpcs (st m) t = FUn o [] r /\ mv t m.
  Proof.
    induction k as [|k IH]; intros t n o gr r P E; destruct (fire_cs t n) as (m&L&Q&M&_); try (now rewrite P).
    - destruct gr; [|discriminate]. exists m. rewrite Q. auto.
    - destruct gr as [|g gr]; [discriminate|]. destruct (mv_run M) as (b&_&Hs). simpl in Hs. rewrite Q, P in Hs.
      destruct (IH t (S m) o gr r) as (k'&K&X); [injection Hs as <-; simpl; now rewrite upd_same|now injection E|]. exists k'. split; [lia|auto].
  Qed.
  Lemma spin_free : forall n, exists m, n <= m /\ fspin (st m) = false.
  Proof.
    assert (U : forall w n o gr r, fpcs (st n) w = FUn o gr r -> exists m, n <= m /\ fspin (st m) = false).
    { intros w n o gr r P. destruct (fire_un w n P eq_refl) as (m&L&Q&M). destruct (mv_run M) as (b&_&Hs). simpl in Hs. rewrite Q in Hs.
      exists (S m). split; [lia|]. injection Hs as <-. reflexivity. }
    assert (Y : forall w n, (exists o l, fpcs (st n) w = FRelY o l \/ fpcs (st n) w = FRelP o l) -> exists m, n <= m /\ fspin (st m) = false).
    { intros w n (o&l&P). destruct (fire_cs w n) as (m&L&Q&M&_); [destruct P as [-> | ->]; reflexivity|]. destruct (mv_run M) as (b&_&Hs). simpl in Hs. rewrite Q in Hs.
      exists (S m). split; [lia|]. destruct P as [P|P]; rewrite P in Hs; injection Hs as <-; reflexivity. }
    assert (K : forall w n o l, fpcs (st n) w = FMark o l -> exists m, n <= m /\ fspin (st m) = false).
    { intros w n o l P. destruct (fire_cs w n) as (m&L&Q&M&_); [now rewrite P|]. destruct (mv_run M) as (b&_&Hs). simpl in Hs. rewrite Q, P in Hs.
      destruct (Y w (S m)) as (k&Lk&X); [exists o, l; right; injection Hs as <-; simpl; now rewrite upd_same|]. exists k. split; [lia|auto]. }
    intros n. destruct (fspin (st n)) eqn:Sp; [|eauto]. destruct (r_spin (at_rel n)) as (_&_&H). destruct (H Sp) as (w&W).
    destruct (fpcs (st n) w) as [|o l|o l|o l|o l|o l|o l|o l|o gr r] eqn:P; try discriminate; eauto 7.
    destruct (fire_cs w n) as (m&L&Q&M&_); [now rewrite P|]. destruct (mv_run M) as (b&_&Hs). simpl in Hs. rewrite Q, P in Hs.
    assert (X : exists k, S m <= k /\ fspin (st k) = false); [|destruct X as (k&Lk&X); exists k; split; [lia|auto]].
    destruct (seg w o l b (fdat (st m))) as [d l'|d xs l'|d lin gr r]; [apply (Y w (S m)); exists o, l'; left|apply (@K w (S m) o l')|apply (@U w (S m) o gr r)];
      injection Hs as <-; simpl; now rewrite upd_same.
  Qed.
  (** From wherever t is on its way to a block, it executes it. *)
  Definition blocks (t n : nat) (o : Op) (l : Loc) : Prop := mv t n /\ fpcs (st n) t = FIn o l.
  Definition undone (t n m : nat) : Prop := forall k, n <= k < m -> ~ exists o l, blocks t k o l.
  Lemma to_in : forall t n o l, fpcs (st n) t = FIn o l -> exists m, n <= m /\ blocks t m o l.
  Proof. intros t n o l P. destruct (fire_cs t n) as (m&L&Q&M&_); [now rewrite P|]. exists m. split; auto. split; auto. congruence. Qed.
  Lemma to_want : forall t n o l, fpcs (st n) t = FWant o l -> exists m, n <= m /\ blocks t m o l.
  Proof.
    intros t n o l P. destruct (fire (t := t) (n := n)) as (m&L&Q&M&_); [congruence| |].
    - intros k L _. destruct (spin_free k) as (j&J1&J2). exists j. split; auto. intros G.
      assert (E : fpcs (st j) t = FWant o l) by (rewrite <- P; apply stay; [lia|congruence|auto]).
      exists (SRun t true). simpl. rewrite E, J2. eexists. split; reflexivity.
    - destruct (mv_run M) as (b&_&Hs). simpl in Hs. rewrite Q, P in Hs. destruct (fspin (st m)); [discriminate|].
      destruct (@to_in t (S m) o l) as (k&K&X); [injection Hs as <-; simpl; now rewrite upd_same|]. exists k. split; [lia|auto].
  Qed.
  Lemma to_yield : forall t n o l, fpcs (st n) t = FYield o l -> exists m, n <= m /\ blocks t m o l.
  Proof.
    intros t n o l P. destruct (fire (t := t) (n := n)) as (m&L&Q&M&_); [congruence| |].
    - intros k L X. exists k. split; auto. intros _.
      assert (E : fpcs (st k) t = FYield o l) by (rewrite <- P; apply stay; [lia|congruence|auto]).
      exists (SRun t true). simpl. rewrite E. destruct (fmark (st k) t) eqn:W; [|eexists; split; reflexivity].
      apply (r_mark1 (at_rel k)) in W. rewrite E in W. discriminate.
    - destruct (mv_run M) as (b&_&Hs). simpl in Hs. rewrite Q, P in Hs. destruct (fmark (st m) t); [discriminate|].
      destruct (@to_want t (S m) o l) as (k&K&X); [injection Hs as <-; simpl; now rewrite upd_same|]. exists k. split; [lia|auto].
  Qed.
  Lemma to_rely : forall t n o l, fpcs (st n) t = FRelY o l -> exists m, n <= m /\ blocks t m o l.
  Proof.
    intros t n o l P. destruct (fire_cs t n) as (m&L&Q&M&_); [now rewrite P|]. destruct (mv_run M) as (b&_&Hs). simpl in Hs. rewrite Q, P in Hs.
    destruct (@to_yield t (S m) o l) as (k&K&X); [injection Hs as <-; simpl; now rewrite upd_same|]. exists k. split; [lia|auto].
  Qed.
  (** Parked, and the mark is gone. *)
  Lemma clear1 : forall t n o l, fpcs (st n) t = FPark o l -> fmark (st n) t = false -> ~ mv t n -> fmark (st (S n)) t = false.
  Proof.
    intros t n o l P W M. pose proof (proj2 EX n) as Hs. destruct (lb n) as [[v o'|v b]|] eqn:E; [| |now rewrite Hs].
    - simpl in Hs. destruct (fpcs (st n) v); try discriminate. injection Hs as <-. exact W.
    - assert (v <> t) by (intros ->; apply M; exists (SRun t b); auto). simpl in Hs.
      repeat (match type of Hs with context [match ?x with _ => _ end] => destruct x eqn:?X end); try discriminate; injection Hs as <-; simpl; auto.
      + now rewrite upd_other by auto.
      + unfold upd. destruct (t =? _); auto.
  Qed.
  Lemma to_awake : forall t n o l, fpcs (st n) t = FPark o l -> fmark (st n) t = false -> exists m, n <= m /\ blocks t m o l.
  Proof.
    intros t n o l P W. assert (K : forall m, n <= m -> (forall k, n <= k < m -> ~ mv t k) -> fmark (st m) t = false).
    { intros m L. induction L as [|m L IH]; intros H; auto. apply clear1 with o l.
      - rewrite (@stay t n m); auto; [congruence|]. intros k J. apply H. lia.
      - apply IH. intros k J. apply H. lia.
      - apply H. lia. }
    destruct (fire (t := t) (n := n)) as (m&L&Q&M&G); [congruence| |].
    - intros k L X. exists k. split; auto. intros _. exists (SRun t true). simpl. rewrite (@stay t n k), P, (K k) by (auto; congruence). eexists. split; reflexivity.
    - destruct (mv_run M) as (b&_&Hs). simpl in Hs. rewrite Q, P, (K m) in Hs by auto.
      destruct (@to_want t (S m) o l) as (k&J&X); [injection Hs as <-; simpl; now rewrite upd_same|]. exists k. split; [lia|auto].
  Qed.
  (** Parked, and somebody is about to take the mark away. *)
  Lemma to_pend : forall k t n o l u o' gr r, fpcs (st n) t = FPark o l -> fpcs (st n) u = FUn o' gr r -> length gr = k -> In t gr ->
    exists m, n <= m /\ blocks t m o l.
  Proof.
    induction k as [|k IH]; intros t n o l u o' gr r P U E I; [destruct gr; [destruct I|discriminate]|].
    destruct (fmark (st n) t) eqn:W; [|now apply to_awake].
    destruct gr as [|g gr]; [discriminate|]. destruct (fire_cs u n) as (m&L&Q&M&G); [now rewrite U|]. destruct (mv_run M) as (b&_&Hs). simpl in Hs. rewrite Q, U in Hs.
    destruct (@first_in (mv t) (mv_dec t) (m - n) n) as [(j&(J1&J2)&J&JF)|X].
    - assert (Pj : fpcs (st j) t = FPark o l) by (rewrite <- P; apply stay; [lia|congruence|auto]).
      destruct (mv_run J) as (b'&_&Hj). simpl in Hj. rewrite Pj in Hj. destruct (fmark (st j) t); [discriminate|].
      destruct (@to_want t (S j) o l) as (i&Li&Y); [injection Hj as <-; simpl; now rewrite upd_same|]. exists i. split; [lia|auto].
    - assert (Pm : fpcs (st m) t = FPark o l) by (rewrite <- P; apply stay; [lia|congruence|intros i Hi; apply X; lia]).
      assert (t <> u) by (intros ->; congruence).
      assert (Z : exists i, S m <= i /\ blocks t i o l); [|destruct Z as (i&Li&Z); exists i; split; [lia|auto]].
      destruct (Nat.eq_dec g t) as [->|Ng].
      + apply to_awake; injection Hs as <-; simpl; [now rewrite upd_other|now rewrite upd_same].
      + destruct I as [I|I]; [congruence|]. apply (IH t (S m) o l u o' gr r); auto; injection Hs as <-; simpl; [now rewrite upd_other|now rewrite upd_same].
  Qed.

  Lemma run_block : forall t n o l, (athr (at_ n) t = AReady o l \/ athr (at_ n) t = AParked o l /\ amark (at_ n) t = false) -> exists m, n <= m /\ blocks t m o l.
  Proof.
    intros t n o l H. pose proof (at_rel n) as HR. pose proof (r_thr HR t) as T. destruct (fpcs (st n) t) as [|o' l'|o' l'|o' l'|o' l'|o' l'|o' l'|o' l'|o' gr r] eqn:P; simpl in T.
    - destruct H as [H|(H&_)]; congruence.
    - assert (o' = o /\ l' = l) as (->&->) by (destruct T as [T|(T&_)], H as [H|(H&_)]; rewrite T in H; try discriminate; now injection H). now apply to_want.
    - assert (o' = o /\ l' = l) as (->&->) by (destruct T as [T|(T&_)], H as [H|(H&_)]; rewrite T in H; try discriminate; now injection H). now apply to_in.
    - assert (o' = o /\ l' = l) as (->&->) by (destruct H as [H|(H&_)]; rewrite T in H; try discriminate; now injection H). now apply to_rely.
    - assert (o' = o /\ l' = l) as (->&->) by (destruct H as [H|(H&_)]; rewrite T in H; try discriminate; now injection H). now apply to_yield.
    - destruct H as [H|(H&W)]; [congruence|]. exfalso. assert (amark (at_ n) t = true); [|congruence]. apply (r_mark2 HR). left. eauto.
    - destruct H as [H|(H&W)]; [congruence|]. exfalso. assert (amark (at_ n) t = true); [|congruence]. apply (r_mark2 HR). right. split; [exact (r_relp HR _ P)|].
      apply (@no_pend D Op Res Aux Loc (st n) t (r_spin HR)); rewrite P; [reflexivity|discriminate].
    - destruct H as [H|(H&W)]; [congruence|]. rewrite T in H. injection H as -> ->. destruct (fmark (st n) t) eqn:Fm; [|now apply to_awake].
      assert (N : ~ ~ pend (st n) t) by (intros N; assert (amark (at_ n) t = true); [|congruence]; apply (r_mark2 HR); right; auto).
      destruct (fspin (st n)) eqn:Sp.
      + destruct (r_spin HR) as (_&S2&S3). destruct (S3 Sp) as (u&U). destruct (fpcs (st n) u) as [|ou lu|ou lu|ou lu|ou lu|ou lu|ou lu|ou lu|ou gr r] eqn:Pu; try discriminate;
          try (exfalso; apply N; apply (@no_pend D Op Res Aux Loc (st n) u (r_spin HR)); rewrite Pu; [reflexivity|discriminate]).
        destruct (in_dec Nat.eq_dec t gr) as [I|I]; [eapply to_pend; eauto|]. exfalso. apply N. intros (v&ov&grv&rv&Ev&Iv).
        assert (v = u) by (apply S2; [now rewrite Ev|now rewrite Pu]). subst v. rewrite Pu in Ev. injection Ev as _ <- _. auto.
      + exfalso. apply N. intros (v&ov&grv&rv&Ev&Iv). destruct (r_spin HR) as (S1&_). specialize (S1 v). simpl in S1. rewrite Ev in S1. specialize (S1 eq_refl). congruence.
    - destruct H as [H|(H&_)]; congruence.
  Qed.
  Lemma run_leave : forall t n o r, athr (at_ n) t = ADone o r -> exists m, n <= m /\ mv t m /\ fpcs (st m) t = FUn o [] r.
  Proof.
    intros t n o r H. pose proof (r_thr (at_rel n) t) as T. destruct (fpcs (st n) t) as [|o' l'|o' l'|o' l'|o' l'|o' l'|o' l'|o' l'|o' gr r'] eqn:P; simpl in T;
      try (destruct T as [T|(T&_)]; congruence); try congruence.
    rewrite T in H. injection H as -> ->. destruct (fire_un t n P eq_refl) as (m&L&Q&M). eauto.
  Qed.
  Lemma at_fair : weakly_fair _ _ astep awho at_ al_.
  Proof.
    intros t n. assert (B : forall o l, (athr (at_ n) t = AReady o l \/ athr (at_ n) t = AParked o l /\ amark (at_ n) t = false) -> exists m, n <= m /\ moves _ awho al_ t m).
    { intros o l H. destruct (@run_block t n o l H) as (m&L&M&P). exists m. split; auto. destruct (mv_run M) as (b&E&_). exists (ARun t b). split; [|reflexivity]. unfold al_. rewrite E. simpl. now rewrite P. }
    destruct (athr (at_ n) t) as [|o l|o l|o r] eqn:E.
    - exists n. split; auto. right. intros (l&s'&W&H). destruct l as [u o|u b|u]; [discriminate| |]; injection W as ->; simpl in H; rewrite E in H; discriminate.
    - destruct (B o l) as (m&L&M); eauto.
    - destruct (amark (at_ n) t) eqn:W.
      + exists n. split; auto. right. intros (a&s'&W'&H). destruct a as [u o'|u b|u]; [discriminate| |]; injection W' as ->; simpl in H; rewrite E in H; [|discriminate]. rewrite W in H. discriminate.
      + destruct (B o l) as (m&L&M); eauto.
    - destruct (@run_leave t n o r E) as (m&L&M&P). exists m. split; auto. left. destruct (mv_run M) as (b&E'&_). exists (ALeave t). split; [|reflexivity]. unfold al_. rewrite E'. simpl. now rewrite P.
  Qed.
  Lemma al_call : forall n t o, al_ n = Some (ACall t o) <-> lb n = Some (SCall t o).
  Proof.
    intros n t o. unfold al_. destruct (lb n) as [[u o'|u b]|]; simpl.
    - split; intros E; injection E as -> ->; auto.
    - destruct (fpcs (st n) u) as [| | | | | | | |o' [|g gr] r]; split; discriminate.
    - split; discriminate.
  Qed.
  Lemma al_run : forall n t b, al_ n = Some (ARun t b) <-> lb n = Some (SRun t b) /\ exists o l, fpcs (st n) t = FIn o l.
  Proof.
    intros n t b. unfold al_. destruct (lb n) as [[u o'|u b']|]; simpl.
    - split; [discriminate|intros (E&_); discriminate].
    - destruct (fpcs (st n) u) as [|o l|o l|o l|o l|o l|o l|o l|o [|g gr] r] eqn:P; split; try discriminate; try (intros (E&o1&l1&E1); injection E as -> ->; congruence).
      intros E. injection E as -> ->. eauto.
    - split; [discriminate|intros (E&_); discriminate].
  Qed.
  (** What the clients see is the same. *)
  Lemma at_hist : forall n, fhist (st n) = ahist (at_ n).
  Proof. intros n. exact (r_hist (at_rel n)). Qed.
  End Fine.

  (** ** The atomic model *)
  Section Atom.
  Variables (at_ : nat -> A) (al : nat -> option (albl Op)).
  Hypothesis EX : execution _ _ astep ainit at_ al.
  Hypothesis WF : weakly_fair _ _ astep awho at_ al.
  Notation mv := (moves _ awho al).
  Notation ab := (able _ _ astep awho).

  Lemma amv_dec : forall t n, {mv t n} + {~ mv t n}.
  Proof.
    intros t n. unfold moves. destruct (al n) as [l|]; [|right; intros (l&E&_); discriminate].
    destruct (awho l) as [u|] eqn:W; [|right; intros (l'&E&X); injection E as <-; congruence].
    destruct (Nat.eq_dec u t) as [->|N]; [left; eauto|right; intros (l'&E&X); injection E as <-; congruence].
  Qed.
  Lemma ado_other : forall a u o l b t, u <> t -> athr (ado seg a u o l b) t = athr a t /\ (amark a t = false -> amark (ado seg a u o l b) t = false).
  Proof.
    intros a u o l b t N. unfold ado. destruct (seg u o l b (adat a)); simpl; rewrite upd_other by auto; split; auto; [now rewrite upd_other by auto|].
    intros H. unfold unmark. now destruct (existsb (Nat.eqb t) gr).
  Qed.
  Lemma astay1 : forall t n, athr (at_ n) t <> AOut -> ~ mv t n ->
    athr (at_ (S n)) t = athr (at_ n) t /\ (amark (at_ n) t = false -> amark (at_ (S n)) t = false).
  Proof.
    intros t n I M. pose proof (proj2 EX n) as Hs. destruct (al n) as [l|] eqn:E; [|now rewrite Hs].
    assert (W : awho l <> Some t) by (intros W; apply M; exists l; auto). destruct l as [u o|u b|u]; simpl in Hs.
    - destruct (athr (at_ n) u) eqn:P; try discriminate. injection Hs as <-. simpl. rewrite upd_other by congruence. auto.
    - assert (u <> t) by (intros ->; now apply W). destruct (athr (at_ n) u) as [|o l|o l|o r]; try discriminate; [|destruct (amark (at_ n) u); [discriminate|]];
        injection Hs as <-; now apply ado_other.
    - assert (u <> t) by (intros ->; now apply W). destruct (athr (at_ n) u); try discriminate. injection Hs as <-. simpl. rewrite upd_other by auto. auto.
  Qed.
  Lemma astay : forall t n m, n <= m -> athr (at_ n) t <> AOut -> (forall k, n <= k < m -> ~ mv t k) ->
    athr (at_ m) t = athr (at_ n) t /\ (amark (at_ n) t = false -> amark (at_ m) t = false).
  Proof.
    intros t n m L I. induction L as [|m L IH]; intros H; auto. destruct IH as (H1&H2); [intros k K; apply H; lia|].
    destruct (@astay1 t m) as (G1&G2); [congruence|apply H; lia|]. split; [congruence|auto].
  Qed.
  Definition ready (a : A) (t : tid) : Prop :=
    match athr a t with AOut => False | AParked _ _ => amark a t = false | _ => True end.
  Lemma ready_able : forall a t, ready a t -> ab a t.
  Proof.
    intros a t H. unfold ready in H. destruct (athr a t) as [|o l|o l|o r] eqn:E; [destruct H| | |].
    - exists (ARun t true). simpl. rewrite E. eexists. split; reflexivity.
    - exists (ARun t true). simpl. rewrite E, H. eexists. split; reflexivity.
    - exists (ALeave t). simpl. rewrite E. eexists. split; reflexivity.
  Qed.
  Lemma afire : forall t n, ready (at_ n) t -> exists m, n <= m /\ mv t m /\ athr (at_ m) t = athr (at_ n) t /\ (forall k, n <= k < m -> ~ mv t k) /\ ready (at_ m) t.
  Proof.
    intros t n H. assert (I : athr (at_ n) t <> AOut) by (intros E; unfold ready in H; rewrite E in H; exact H).
    assert (K : forall m, n <= m -> (forall k, n <= k < m -> ~ mv t k) -> athr (at_ m) t = athr (at_ n) t /\ ready (at_ m) t).
    { intros m L X. destruct (astay L I X) as (H1&H2). split; auto. unfold ready in *. rewrite H1. destruct (athr (at_ n) t); auto. }
    assert (G : forall m, n <= m -> mv t m -> exists m, n <= m /\ mv t m /\ athr (at_ m) t = athr (at_ n) t /\ (forall k, n <= k < m -> ~ mv t k) /\ ready (at_ m) t).
    { intros m L M. destruct (@first_ge (mv t) (amv_dec t) n m L M) as (k&K1&K2&K3). destruct (K k) as (X1&X2); [lia|auto|]. exists k. split; [lia|]. auto. }
    destruct (WF t n) as (m&L&[M|Z]); [eauto|]. destruct (@first_in (mv t) (amv_dec t) (m - n) n) as [(k&K1&K2&_)|X].
    - apply (G k); auto. lia.
    - exfalso. apply Z, ready_able. apply K; auto. intros k Lk. apply X. lia.
  Qed.
  (** A call that has taken effect returns. *)
  Lemma done_leaves : forall t n o r, athr (at_ n) t = ADone o r -> exists m, n <= m /\ (forall k, n <= k < m -> ~ mv t k) /\ al m = Some (ALeave t) /\
    athr (at_ (S m)) t = AOut /\ ahist (at_ (S m)) = ERet t o r :: ahist (at_ m) /\ adat (at_ (S m)) = adat (at_ m).
  Proof.
    intros t n o r P. destruct (@afire t n) as (m&L&(l&E&W)&Q&G&_); [unfold ready; now rewrite P|]. exists m. split; auto. split; auto.
    pose proof (proj2 EX m) as Hs. rewrite E in Hs. destruct l as [u o'|u b|u]; [discriminate| |]; injection W as ->; simpl in Hs; rewrite Q, P in Hs; [discriminate|].
    injection Hs as <-. simpl. rewrite upd_same. auto.
  Qed.
  (** A coroutine that is not waiting executes its next block. *)
  Lemma block_runs : forall t n o l, (athr (at_ n) t = AReady o l \/ athr (at_ n) t = AParked o l /\ amark (at_ n) t = false) ->
    exists m b, n <= m /\ (forall k, n <= k < m -> ~ mv t k) /\ al m = Some (ARun t b) /\ athr (at_ m) t = athr (at_ n) t /\
      (amark (at_ n) t = false -> amark (at_ m) t = false) /\ at_ (S m) = ado seg (at_ m) t o l b.
  Proof.
    intros t n o l H. destruct (@afire t n) as (m&L&(a&E&W)&Q&G&_); [unfold ready; destruct H as [H|(H&X)]; rewrite H; auto|].
    assert (I : athr (at_ n) t <> AOut) by (destruct H as [H|(H&_)]; congruence). destruct (astay L I G) as (_&K).
    pose proof (proj2 EX m) as Hs. rewrite E in Hs. destruct a as [u o'|u b|u]; [discriminate| |]; injection W as ->; simpl in Hs; rewrite Q in Hs.
    - exists m, b. split; auto. split; auto. split; auto. split; auto. split; auto. destruct H as [H|(H&X)]; rewrite H in Hs; [now injection Hs|]. rewrite (K X) in Hs. now injection Hs.
    - destruct H as [H|(H&_)]; rewrite H in Hs; discriminate.
  Qed.
  Lemma call_enters : forall t n o, al n = Some (ACall t o) -> athr (at_ (S n)) t = AReady o (entry o).
  Proof.
    intros t n o E. pose proof (proj2 EX n) as Hs. rewrite E in Hs. simpl in Hs. destruct (athr (at_ n) t); try discriminate. injection Hs as <-. simpl. apply upd_same.
  Qed.
  End Atom.

  (** ** Executions given by a list that repeats: states that differ only in the representation of their functions *)
  Definition same (a b : F) : Prop :=
    (fspin a = fspin b /\ fdat a = fdat b /\ fhist a = fhist b) /\ (forall t, fpcs a t = fpcs b t) /\ forall t, fmark a t = fmark b t.
  Lemma same_step : forall a b l a', same a b -> fstep a l = Some a' -> exists b', fstep b l = Some b' /\ same a' b'.
  Proof.
    intros a b l a' ((E1&E2&E3)&E4&E5) H.
    assert (U : forall B (f g : nat -> B) i x, (forall t, f t = g t) -> forall t, upd f i x t = upd g i x t) by (intros B f g i x X t; unfold upd; destruct (t =? i); auto).
    destruct l as [t o|t b']; simpl in *.
    - rewrite <- E4. destruct (fpcs a t); try discriminate. injection H as <-. eexists. split; [reflexivity|]. repeat split; simpl; auto. now rewrite E3.
    - rewrite <- E4, <- E1, <- E2, <- E3, <- E5.
      repeat (match type of H with context [match ?x with _ => _ end] => destruct x eqn:?X end); try discriminate; injection H as <-;
        (eexists; split; [reflexivity|]; repeat split; simpl; auto; congruence).
  Qed.
  Lemma same_run : forall ls a b a', same a b -> run fstep a ls = Some a' -> exists b', run fstep b ls = Some b' /\ same a' b'.
  Proof.
    induction ls as [|l ls IH]; intros a b a' E H; simpl in *; [injection H as <-; eauto|]. destruct (fstep a l) as [a1|] eqn:X; [|discriminate].
    destruct (same_step _ E X) as (b1&S'&E'). rewrite S'. eauto.
  Qed.
  Lemma same_trans : forall a b c, same a b -> same b c -> same a c.
  Proof. intros a b c ((E1&E2&E3)&E4&E5) ((G1&G2&G3)&G4&G5). split; [split; [congruence|split; congruence]|]. split; intros t; congruence. Qed.
  (** Facts about executions in which some coroutine makes no step. *)
  Lemma ret_own : forall s l s' t o r, fstep s l = Some s' -> In (ERet t o r) (fhist s') -> In (ERet t o r) (fhist s) \/ fwho l = Some t.
  Proof.
    assert (X : forall u xs h t o r, In (ERet t o r) (@log_xs Op Res Aux u xs h) -> In (ERet t o r) h).
    { intros u xs. induction xs as [|x xs IH]; intros h t o r J; simpl in J; auto. apply IH in J. destruct J; [discriminate|auto]. }
    assert (Y : forall lin h t o r, In (ERet t o r) (@log_lin Op Res Aux lin h) -> In (ERet t o r) h).
    { intros lin. induction lin as [|x lin IH]; intros h t o r J; simpl in J; auto. apply IH in J. destruct J; [discriminate|auto]. }
    intros s [u o|u b] s' t o' r H J; simpl in H.
    - destruct (fpcs s u); try discriminate. injection H as <-. simpl in J. destruct J as [J|J]; [discriminate|auto].
    - repeat (match type of H with context [match ?x with _ => _ end] => destruct x eqn:?E end); try discriminate; injection H as <-; simpl in J; eauto.
      destruct J as [J|J]; auto. injection J; intros; subst; auto.
  Qed.
  Lemma no_ret : forall st lb t, execution _ _ fstep finit st lb -> (forall n, ~ moves _ fwho lb t n) -> forall n o r, ~ In (ERet t o r) (fhist (st n)).
  Proof.
    intros st lb t EX N. induction n as [|n IH]; intros o r J; [now rewrite (proj1 EX) in J|]. pose proof (proj2 EX n) as H. destruct (lb n) as [l|] eqn:E.
    - destruct (ret_own _ _ _ _ _ H J) as [X|X]; [now apply (IH o r)|]. apply (N n). exists l. auto.
    - rewrite H in J. now apply (IH o r).
  Qed.
  Lemma never : forall st lb t, execution _ _ fstep finit st lb -> (forall n l, lb n = Some l -> fwho l <> Some t /\ forall o, l <> SCall t o) -> forall n, fpcs (st n) t = FOut.
  Proof.
    intros st lb t EX N. induction n as [|n IH]; [now rewrite (proj1 EX)|]. pose proof (proj2 EX n) as H. destruct (lb n) as [l|] eqn:E; [|now rewrite H].
    destruct (N _ _ E) as (N1&N2). now rewrite (pcs_other _ H N1 N2).
  Qed.
  Lemma out_unable : forall s t, fpcs s t = FOut -> ~ able _ _ fstep fwho s t.
  Proof. intros s t P ([u o|u b]&s'&W&H); [discriminate|]. injection W as ->. simpl in H. rewrite P in H. discriminate. Qed.
End P.
