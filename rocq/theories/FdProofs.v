(** Invariants of the model of I/O objects (C82-C84). *)
From Coq Require Import List Arith Bool Lia.
From Verif Require Import Base HistSpec FdSpec FdModel.
Import ListNotations.

Lemma file_nil : forall f, file_of [] f = None.
Proof. intros [|f]; reflexivity. Qed.
Lemma file_put : forall t f x g, file_of (put t f x) g = if g =? f then x else file_of t g.
Proof.
  intros t f. revert t. induction f as [|f IH]; intros t x g.
  - destruct t, g; cbn; auto. destruct g; auto.
  - destruct t as [|y t]; destruct g as [|g]; cbn [put]; cbn; auto; fold (file_of (put [] f x) g); rewrite ?IH; auto.
    + rewrite file_nil. reflexivity.
    + fold (file_of (put t f x) g). rewrite IH. reflexivity.
Qed.
Lemma file_lowest : forall t, file_of t (lowest t) = None.
Proof. induction t as [|[d|] t IH]; cbn; auto. Qed.

Lemma rel_cons : forall v h d, released (v :: h) d <-> (exists o, v = VRel o d) \/ released h d.
Proof.
  unfold released. intros v h d. split.
  - intros [o [E|I]]; [left|right]; eauto.
  - intros [[o ->]|[o I]]; exists o; [left|right]; auto.
Qed.
Lemma not_rel : forall v h d, (forall o, v <> VRel o d) -> released (v :: h) d -> released h d.
Proof. intros v h d N R. apply rel_cons in R. destruct R as [[o E]|R]; auto. now destruct (N o). Qed.
Lemma rel_keep : forall v h d, released h d -> released (v :: h) d.
Proof. intros v h d R. apply rel_cons. auto. Qed.

(** What always holds. *)
Record FI (s : fst_) : Prop := {
  f_lt : forall f d, file_of (tab s) f = Some d -> d < nd s;
  f_inj : forall f g d, file_of (tab s) f = Some d -> file_of (tab s) g = Some d -> f = g;
  f_made : forall o d, made_for (fh s) o = Some d -> d < nd s;
  f_in : forall o d, In (VMade o d) (fh s) -> d < nd s;
  f_rel : forall d, released (fh s) d -> d < nd s /\ forall f, file_of (tab s) f <> Some d;
  f_obj : forall o, obj s o = None <-> made_for (fh s) o = None;
  f_own : forall o f d, obj s o = Some (Some f) -> made_for (fh s) o = Some d -> ~ released (fh s) d -> file_of (tab s) f = Some d;
  f_shut : forall o, shut (fh s) o = true -> obj s o = None \/ obj s o = Some None;
  f_ours : forall o d, made_for (fh s) o = Some d -> exists p, In (VMade p d) (fh s);
  f_open : forall o d, In (VMade o d) (fh s) -> released (fh s) d \/ exists f, file_of (tab s) f = Some d;
  f_h1 : own_file_while_open (fh s);
  f_h2 : closed_is_closed (fh s) }.

Lemma FI_init : FI finit.
Proof.
  split; cbn; try discriminate; try tauto; try apply always_at_nil.
  - intros [|[|[|[|f]]]] d E; cbn in E; try discriminate; injection E as <-; lia.
  - intros [|[|[|[|f]]]] [|[|[|[|g]]]] d E E'; cbn in E, E'; try discriminate; congruence.
  - intros d [o []].
Qed.

Lemma ours_in : forall h d, ours h d = true <-> exists o, In (VMade o d) h.
Proof.
  intros h d. unfold ours. rewrite existsb_exists. split.
  - intros (v&I&E). destruct v; try discriminate. apply Nat.eqb_eq in E. subst. eauto.
  - intros [o I]. exists (VMade o d). split; auto. apply Nat.eqb_refl.
Qed.

Ltac deq := repeat match goal with
  | H : context [?a =? ?b] |- _ => destruct (Nat.eqb_spec a b); subst
  | |- context [?a =? ?b] => destruct (Nat.eqb_spec a b); subst
  end.

(** Logging an event that changes nothing. *)
Lemma FI_act : forall s o, FI s -> FI (act s o).
Proof.
  intros s o [A B C C' D E F G O P H1 H2]. unfold act. destruct (reaches s o) as [d|] eqn:R.
  - assert (T : exists f, obj s o = Some (Some f) /\ file_of (tab s) f = Some d).
    { unfold reaches in R. destruct (obj s o) as [[f|]|]; try discriminate. eauto. }
    destruct T as (f&Ob&T). split; cbn [flog tab nb nd obj fh made_for shut]; auto.
    + intros o0 d0 [X|I]; [discriminate|eauto].
    + intros d0 X. apply not_rel in X; [auto|discriminate].
    + intros o0 f0 d0 X Y Z. eapply F; eauto. intros W. apply Z. now apply rel_keep.
    + intros o0 d0 X. destruct (O _ _ X) as [p I]. exists p. now right.
    + intros o0 d0 [X|I]; [discriminate|]. destruct (P _ _ I); auto. left. now apply rel_keep.
    + apply always_at_cons. split; auto. cbn [target]. intros o0 d1 d0 X Y Z. injection X as <- <-.
      specialize (F o f d0 Ob Y Z). congruence.
    + apply always_at_cons. split; auto. cbn [target]. intros o0 d1 X. injection X as <- <-.
      destruct (shut (fh s) o) eqn:S; auto. destruct (G o S); congruence.
  - split; cbn [flog tab nb nd obj fh made_for shut]; auto.
    + intros o0 d0 [X|I]; [discriminate|eauto].
    + intros d0 X. apply not_rel in X; [auto|discriminate].
    + intros o0 f0 d0 X Y Z. eapply F; eauto. intros W. apply Z. now apply rel_keep.
    + intros o0 d0 X. destruct (O _ _ X) as [p I]. exists p. now right.
    + intros o0 d0 [X|I]; [discriminate|]. destruct (P _ _ I); auto. left. now apply rel_keep.
    + apply always_at_cons. split; auto. cbn [target]. discriminate.
    + apply always_at_cons. split; auto. cbn [target]. discriminate.
Qed.
(** The mode of an open file does not matter here. *)
Lemma FI_nb : forall s d b, FI s -> FI (setnb s d b).
Proof. intros s d b [A B C C' D E F G O P H1 H2]. split; auto. Qed.
Lemma FI_nbs : forall s n, FI s -> FI (mkF (tab s) n (nd s) (obj s) (fh s)).
Proof. intros s n [A B C C' D E F G O P H1 H2]. split; auto. Qed.

Lemma FI_kopen : forall s b s1 f d, FI s -> kopen s b = (s1, f, d) ->
  FI s1 /\ file_of (tab s1) f = Some d /\ d = nd s /\ obj s1 = obj s /\ fh s1 = fh s /\ nb s1 = upd (nb s) d b /\ nd s1 = S d.
Proof.
  intros s b s1 f d [A B C C' D E F G O P H1 H2] K. unfold kopen in K. injection K as <- <- <-. cbn [tab nb nd obj fh].
  split; [|rewrite file_put, Nat.eqb_refl; repeat split; auto].
  split; cbn [tab nb nd obj fh]; auto.
  - intros f d. rewrite file_put. deq; intros X; [injection X as <-; lia|]. specialize (A _ _ X). lia.
  - intros f g d. rewrite !file_put. deq; intros X Y; auto; try (injection X as <-; specialize (A _ _ Y); lia);
      try (injection Y as <-; specialize (A _ _ X); lia). eauto.
  - intros o d X. specialize (C _ _ X). lia.
  - intros o d X. specialize (C' _ _ X). lia.
  - intros d X. destruct (D _ X) as [L N]. split; [lia|]. intros f. rewrite file_put. deq; auto. intros Y. injection Y as <-. lia.
  - intros o f d X Y Z. specialize (F _ _ _ X Y Z). rewrite file_put. deq; auto. rewrite file_lowest in F. discriminate.
  - intros o d X. destruct (P _ _ X) as [|[f Y]]; auto. right. exists f. rewrite file_put. deq; auto.
    rewrite file_lowest in Y. discriminate.
Qed.

(** A new object for a new open file. *)
Lemma FI_made : forall s o f d x, FI s -> file_of (tab s) f = Some d -> obj s o = None -> (forall p, ~ In (VMade p d) (fh s)) ->
  ~ released (fh s) d -> (forall g, x = Some g -> g = f) -> FI (flog (VMade o d) (setobj s o (Some x))).
Proof.
  intros s o f d x [A B C C' D E F G O P H1 H2] T Ob N R X. split; cbn [flog setobj tab nb nd obj fh made_for shut]; auto.
  - intros o0 d0. deq; intros Y; [injection Y as <-; eauto|eauto].
  - intros o0 d0 [Y|I]; [injection Y as <- <-; eauto|eauto].
  - intros d0 Y. apply not_rel in Y; [auto|discriminate].
  - intros o0. unfold upd. deq; [split; discriminate|]. auto.
  - intros o0 f0 d0. unfold upd. deq; intros Y Z W.
    + injection Z as <-. injection Y as Y. now rewrite (X _ Y).
    + eapply F; eauto. intros V. apply W. now apply rel_keep.
  - intros o0. unfold upd. deq; [discriminate|auto].
  - intros o0 d0. deq; intros Y; [injection Y as <-; exists o; now left|]. destruct (O _ _ Y) as [p I]. exists p. now right.
  - intros o0 d0 [Y|I]; [injection Y as <- <-; eauto|]. destruct (P _ _ I); auto. left. now apply rel_keep.
  - apply always_at_cons. split; auto. cbn [target]. discriminate.
  - apply always_at_cons. split; auto. cbn [target]. discriminate.
Qed.
Lemma FI_make : forall s b o a, FI s -> obj s o = None -> FI (make s b o a).
Proof.
  intros s b o a V Ob. unfold make. destruct a as [|g t]; auto. destruct (kopen s b) as [[s1 f] d] eqn:K.
  destruct (FI_kopen _ _ _ _ _ V K) as (V1&T&Ed&Eo&Eh&En&El).
  assert (N : forall p, ~ In (VMade p d) (fh s1)) by (intros p I; rewrite Eh in I; pose proof (f_in _ V _ _ I); lia).
  assert (R : ~ released (fh s1) d) by (intros I; rewrite Eh in I; pose proof (proj1 (f_rel _ V _ I)); lia).
  unfold init_fd. destruct g; [destruct (nb s1 d); [|destruct t]|].
  - eapply FI_made; eauto; congruence.
  - apply (FI_made (setnb s1 d true) o f d (Some f)); auto; [now apply FI_nb|cbn; congruence|congruence].
  - eapply FI_made; eauto; congruence.
  - eapply FI_made; eauto; congruence.
Qed.

Lemma FI_copy : forall s p o x, FI s -> obj s p = None -> obj s o = Some x -> FI (flog (VCopy p o) (setobj s p (Some x))).
Proof.
  intros s p o x V Np Ob. assert (NE : o <> p) by congruence.
  assert (Mo : made_for (fh s) o <> None) by (intros M; apply (f_obj _ V) in M; congruence).
  destruct V as [A B C C' D E F G O P H1 H2]. split; cbn [flog setobj tab nb nd obj fh made_for shut]; auto.
  - intros o0 d0. deq; eauto.
  - intros o0 d0 [Y|I]; [discriminate|eauto].
  - intros d0 Y. apply not_rel in Y; [auto|discriminate].
  - intros o0. unfold upd. deq; auto. split; [discriminate|tauto].
  - intros o0 f0 d0. unfold upd. deq; intros Y Z W; (eapply F; eauto; try congruence); intros V; apply W; now apply rel_keep.
  - intros o0. unfold upd. deq; intros S; auto. destruct (G _ S); [congruence|]. right. congruence.
  - intros o0 d0. deq; intros Y; destruct (O _ _ Y) as [q I]; exists q; now right.
  - intros o0 d0 [Y|I]; [discriminate|]. destruct (P _ _ I); auto. left. now apply rel_keep.
  - apply always_at_cons. split; auto. cbn [target]. discriminate.
  - apply always_at_cons. split; auto. cbn [target]. discriminate.
Qed.
Lemma FI_drop : forall s o, FI s -> FI (flog (VDrop o) (setobj s o None)).
Proof.
  intros s o [A B C C' D E F G O P H1 H2]. split; cbn [flog setobj tab nb nd obj fh made_for shut]; auto.
  - intros o0 d0. deq; [discriminate|eauto].
  - intros o0 d0 [Y|I]; [discriminate|eauto].
  - intros d0 Y. apply not_rel in Y; [auto|discriminate].
  - intros o0. unfold upd. deq; auto. tauto.
  - intros o0 f0 d0. unfold upd. deq; intros Y Z W; [discriminate|]. eapply F; eauto. intros V. apply W. now apply rel_keep.
  - intros o0. unfold upd. deq; auto.
  - intros o0 d0. deq; intros Y; [discriminate|]. destruct (O _ _ Y) as [q I]. exists q. now right.
  - intros o0 d0 [Y|I]; [discriminate|]. destruct (P _ _ I); auto. left. now apply rel_keep.
  - apply always_at_cons. split; auto. cbn [target]. discriminate.
  - apply always_at_cons. split; auto. cbn [target]. discriminate.
Qed.
(** The descriptor is given up. *)
Lemma FI_release : forall s o f d, FI s -> obj s o = Some (Some f) -> file_of (tab s) f = Some d ->
  FI (flog (VRel o d) (settab s f None)).
Proof.
  intros s o f d [A B C C' D E F G O P H1 H2] Ob T. split; cbn [flog settab tab nb nd obj fh made_for shut]; auto.
  - intros f0 d0. rewrite file_put. deq; [discriminate|eauto].
  - intros f0 g d0. rewrite !file_put. deq; try discriminate; eauto.
  - intros o0 d0 [Y|I]; [discriminate|eauto].
  - intros d0 Y. apply rel_cons in Y. destruct Y as [[q X]|Y].
    + injection X as <- <-. split; [eauto|]. intros g. rewrite file_put. deq; [discriminate|]. intros W. apply n. eauto.
    + destruct (D _ Y) as [L N]. split; auto. intros g. rewrite file_put. deq; [discriminate|auto].
  - intros o0 f0 d0 Y Z W. assert (W' : ~ released (fh s) d0) by (intros V; apply W; now apply rel_keep).
    specialize (F _ _ _ Y Z W'). rewrite file_put. deq; auto. exfalso. apply W. apply rel_cons. left. exists o. congruence.
  - intros o0 d0 Y. destruct (O _ _ Y) as [q I]. exists q. now right.
  - intros o0 d0 [Y|I]; [discriminate|]. destruct (P _ _ I) as [R|[g Y]]; [left; now apply rel_keep|].
    destruct (Nat.eq_dec g f) as [->|N]; [left; apply rel_cons; left; exists o; congruence|].
    right. exists g. rewrite file_put. deq; auto. contradiction.
  - apply always_at_cons. split; auto. cbn [target]. intros o0 d1 d0 X Y Z. injection X as <- <-.
    specialize (F _ _ _ Ob Y Z). congruence.
  - apply always_at_cons. split; auto. cbn [target]. intros o0 d1 X. injection X as <- <-.
    destruct (shut (fh s) o) eqn:S; auto. destruct (G o S); congruence.
Qed.
(** fd__ = -1. *)
Lemma FI_closed : forall s o, FI s -> obj s o <> None -> FI (flog (VClosed o) (setobj s o (Some None))).
Proof.
  intros s o [A B C C' D E F G O P H1 H2] Ob. split; cbn [flog setobj tab nb nd obj fh made_for shut]; auto.
  - intros o0 d0 [Y|I]; [discriminate|eauto].
  - intros d0 Y. apply not_rel in Y; [auto|discriminate].
  - intros o0. unfold upd. deq; auto. split; [discriminate|]. intros M. apply E in M. contradiction.
  - intros o0 f0 d0. unfold upd. deq; intros Y Z W; [discriminate|]. eapply F; eauto. intros V. apply W. now apply rel_keep.
  - intros o0. unfold upd. deq; auto.
  - intros o0 d0 Y. destruct (O _ _ Y) as [q I]. exists q. now right.
  - intros o0 d0 [Y|I]; [discriminate|]. destruct (P _ _ I); auto. left. now apply rel_keep.
  - apply always_at_cons. split; auto. cbn [target]. discriminate.
  - apply always_at_cons. split; auto. cbn [target]. discriminate.
Qed.
Lemma FI_bad : forall s o, FI s -> FI (flog (VBad o) s).
Proof.
  intros s o [A B C C' D E F G O P H1 H2]. split; cbn [flog tab nb nd obj fh made_for shut]; auto.
  - intros o0 d0 [X|I]; [discriminate|eauto].
  - intros d0 X. apply not_rel in X; [auto|discriminate].
  - intros o0 f0 d0 X Y Z. eapply F; eauto. intros W. apply Z. now apply rel_keep.
  - intros o0 d0 X. destruct (O _ _ X) as [p I]. exists p. now right.
  - intros o0 d0 [X|I]; [discriminate|]. destruct (P _ _ I); auto. left. now apply rel_keep.
  - apply always_at_cons. split; auto. cbn [target]. discriminate.
  - apply always_at_cons. split; auto. cbn [target]. discriminate.
Qed.
(** Another part of the program closes its own file. *)
Lemma FI_ext : forall s f d, FI s -> file_of (tab s) f = Some d -> ours (fh s) d = false -> FI (settab s f None).
Proof.
  intros s f d V T U. assert (N : forall p, ~ In (VMade p d) (fh s)).
  { intros p I. assert (X : ours (fh s) d = true) by (apply ours_in; eauto). congruence. }
  destruct V as [A B C C' D E F G O P H1 H2]. split; cbn [settab tab nb nd obj fh]; auto.
  - intros f0 d0. rewrite file_put. deq; [discriminate|eauto].
  - intros f0 g d0. rewrite !file_put. deq; try discriminate; eauto.
  - intros d0 Y. destruct (D _ Y) as [L M]. split; auto. intros g. rewrite file_put. deq; [discriminate|auto].
  - intros o0 f0 d0 Y Z W. specialize (F _ _ _ Y Z W). rewrite file_put. deq; auto. exfalso.
    destruct (O _ _ Z) as [p I]. apply (N p). congruence.
  - intros o0 d0 I. destruct (P _ _ I) as [R|[g Y]]; auto. right. exists g. rewrite file_put. deq; auto.
    exfalso. apply (N o0). congruence.
Qed.

Lemma act_obj : forall s o, obj (act s o) = obj s.
Proof. intros s o. unfold act. destruct (reaches s o); reflexivity. Qed.
Lemma FI_step : forall s l s', FI s -> fstep s l = Some s' -> FI s'.
Proof.
  intros s l s' V E. destruct l; cbn [fstep] in E.
  - destruct (obj s o) eqn:Ob; [discriminate|]. destruct k.
    + injection E as <-. now apply FI_make.
    + injection E as <-. now apply FI_make.
    + destruct (obj s p); [|discriminate]. injection E as <-. destruct (reaches s p); [|now apply FI_act].
      apply FI_make; [now apply FI_act|]. now rewrite act_obj.
  - destruct (obj s p) eqn:Op; [discriminate|]. destruct (obj s o) eqn:Oo; [|discriminate]. injection E as <-. now apply FI_copy.
  - destruct (obj s o) eqn:Ob; [|discriminate]. injection E as <-. now apply FI_drop.
  - destruct (obj s o) as [[f|]|] eqn:Ob; [| |discriminate].
    + destruct (file_of (tab s) f) as [d|] eqn:T; injection E as <-; [|now apply FI_bad].
      pose proof (FI_release _ _ _ _ V Ob T) as V1. destruct ok; auto. apply FI_closed; auto. cbn. congruence.
    + injection E as <-. now apply FI_bad.
  - destruct (obj s o); [|discriminate]. injection E as <-. now apply FI_act.
  - destruct (obj s o); [|discriminate]. injection E as <-. destruct (reaches s o); [apply FI_nb|]; now apply FI_act.
  - injection E as <-. apply (FI_kopen s false _ _ _ V eq_refl).
  - destruct (file_of (tab s) f) as [d|] eqn:T; [|discriminate]. destruct (ours (fh s) d) eqn:U; [discriminate|].
    injection E as <-. eapply FI_ext; eauto.
Qed.
Lemma FI_reach : forall ls s, run fstep finit ls = Some s -> FI s.
Proof. intros ls s R. eapply (run_inv fstep); [apply FI_init|exact FI_step|exact R]. Qed.

(** ** Executions without copies and without failing closes *)
Definition plain (l : flbl) : bool := match l with LCopy _ _ | LClose _ false => false | _ => true end.
Record FP (s : fst_) : Prop := {
  p_own : forall o f, obj s o = Some (Some f) -> exists d, made_for (fh s) o = Some d /\ file_of (tab s) f = Some d;
  p_one : forall o p f, obj s o = Some (Some f) -> obj s p = Some (Some f) -> o = p;
  p_h : own_file (fh s) }.
Lemma FP_init : FP finit.
Proof. split; try discriminate. apply always_at_nil. Qed.
Lemma FP_act : forall s o, FP s -> FP (act s o).
Proof.
  intros s o [A B H]. unfold act. destruct (reaches s o) as [d|] eqn:R.
  - split; cbn [flog tab nb nd obj fh made_for]; auto. apply always_at_cons. split; auto. cbn [target].
    intros o0 d0 X. injection X as <- <-. unfold reaches in R. destruct (obj s o) as [[f|]|] eqn:Ob; try discriminate.
    destruct (A _ _ Ob) as (d1&M&T). congruence.
  - split; cbn [flog tab nb nd obj fh made_for]; auto. apply always_at_cons. split; auto. cbn [target]. discriminate.
Qed.
Lemma FP_nb : forall s d b, FP s -> FP (setnb s d b).
Proof. intros s d b [A B H]. split; auto. Qed.
Lemma FP_make : forall s b o a, FI s -> FP s -> obj s o = None -> FP (make s b o a).
Proof.
  intros s b o a V [A B H] Ob. unfold make. destruct a as [|g t]; [split; auto|]. destruct (kopen s b) as [[s1 f] d] eqn:K.
  destruct (FI_kopen _ _ _ _ _ V K) as (V1&T&Ed&Eo&Eh&En&El).
  assert (Lo : file_of (tab s) f = None) by (unfold kopen in K; injection K as _ <- _; apply file_lowest).
  assert (T1 : tab s1 = put (tab s) f (Some d)) by (unfold kopen in K; injection K as <- <- <-; reflexivity).
  assert (X : forall x s2, (forall y, x = Some y -> y = f) -> obj s2 = obj s1 -> fh s2 = fh s1 -> tab s2 = tab s1 ->
    FP (flog (VMade o d) (setobj s2 o (Some x)))).
  { intros x s2 Hx Eo2 Eh2 Et2. split; cbn [flog setobj tab nb nd obj fh made_for]; rewrite ?Eo2, ?Eh2, ?Et2, ?Eo, ?Eh.
    - intros o0 f0. unfold upd. deq; intros Y.
      + injection Y as Y. rewrite (Hx _ Y). eauto.
      + destruct (A _ _ Y) as (d0&M&F). exists d0. split; auto. rewrite T1, file_put. deq; auto. congruence.
    - intros o0 p f0. unfold upd. deq; auto; intros Y Z; try (injection Y as Y); try (injection Z as Z).
      + rewrite (Hx _ Y) in Z. destruct (A _ _ Z) as (d0&_&F). congruence.
      + rewrite (Hx _ Z) in Y. destruct (A _ _ Y) as (d0&_&F). congruence.
      + eauto.
    - apply always_at_cons. split; auto. cbn [target]. discriminate. }
  unfold init_fd. destruct g; [destruct (nb s1 d); [|destruct t]|]; apply X; auto; congruence.
Qed.
Lemma FP_step : forall s l s', FI s -> FP s -> plain l = true -> fstep s l = Some s' -> FP s'.
Proof.
  intros s l s' V W Pl E. destruct l; cbn [fstep] in E; try discriminate Pl.
  - destruct (obj s o) eqn:Ob; [discriminate|]. destruct k.
    + injection E as <-. now apply FP_make.
    + injection E as <-. now apply FP_make.
    + destruct (obj s p); [|discriminate]. injection E as <-. destruct (reaches s p); [|now apply FP_act].
      apply FP_make; [now apply FI_act|now apply FP_act|]. now rewrite act_obj.
  - destruct (obj s o) eqn:Ob; [|discriminate]. injection E as <-. destruct W as [A B H].
    split; cbn [flog setobj tab nb nd obj fh made_for].
    + intros o1 f0. unfold upd. deq; [discriminate|auto].
    + intros o1 p f0. unfold upd. deq; try discriminate; eauto.
    + apply always_at_cons. split; auto. cbn [target]. discriminate.
  - destruct ok; [|discriminate]. destruct (obj s o) as [[f|]|] eqn:Ob; [| |discriminate].
    + destruct W as [A B H]. destruct (A _ _ Ob) as (d&M&T). rewrite T in E. injection E as <-.
      split; cbn [flog setobj settab tab nb nd obj fh made_for].
      * intros o1 f0. unfold upd. deq; [discriminate|]. intros Y. destruct (A _ _ Y) as (d0&M0&T0). exists d0. split; auto.
        rewrite file_put. deq; auto. exfalso. apply n. eauto.
      * intros o1 p f0. unfold upd. deq; try discriminate; eauto.
      * apply always_at_cons. split; [cbn [target]; discriminate|]. apply always_at_cons. split; auto.
        cbn [target]. intros o1 d0 X. injection X as <- <-. auto.
    + injection E as <-. destruct W as [A B H]. split; cbn [flog tab nb nd obj fh made_for]; auto.
      apply always_at_cons. split; auto. cbn [target]. discriminate.
  - destruct (obj s o); [|discriminate]. injection E as <-. now apply FP_act.
  - destruct (obj s o); [|discriminate]. injection E as <-. destruct (reaches s o); [apply FP_nb|]; now apply FP_act.
  - injection E as <-. destruct W as [A B H]. unfold kopen. cbn [fst]. split; cbn [tab nb nd obj fh]; auto.
    intros o f Y. destruct (A _ _ Y) as (d&M&T). exists d. split; auto. rewrite file_put. deq; auto. rewrite file_lowest in T. discriminate.
  - destruct (file_of (tab s) f) as [d|] eqn:T; [|discriminate]. destruct (ours (fh s) d) eqn:U; [discriminate|].
    injection E as <-. destruct W as [A B H]. split; cbn [settab tab nb nd obj fh]; auto.
    intros o f0 Y. destruct (A _ _ Y) as (d0&M&T0). exists d0. split; auto. rewrite file_put. deq; auto. exfalso.
    destruct (f_ours _ V _ _ M) as [p I]. assert (X : ours (fh s) d0 = true) by (apply ours_in; eauto). congruence.
Qed.
Lemma FP_reach : forall ls s, Forall (fun l => plain l = true) ls -> run fstep finit ls = Some s -> FP s.
Proof.
  intros ls. assert (G : forall ls s0 s, FI s0 -> FP s0 -> Forall (fun l => plain l = true) ls -> run fstep s0 ls = Some s -> FP s).
  { clear ls. induction ls as [|l ls IH]; intros s0 s V W F R; cbn [run] in R; [injection R as <-; auto|].
    inversion F; subst. destruct (fstep s0 l) as [s1|] eqn:E; [|discriminate].
    eapply (IH s1); eauto; [eapply FI_step|eapply FP_step]; eauto. }
  intros s F R. eapply G; eauto; [apply FI_init|apply FP_init].
Qed.

(** ** Mode of the open files *)
(** No flags are set through fcntl or ioctl. *)
Definition calm (l : flbl) : bool := match l with LFcntl _ _ => false | _ => true end.
Record FN (s : fst_) : Prop := {
  n_on : forall o f d, obj s o = Some (Some f) -> made_for (fh s) o = Some d -> nb s d = true;
  n_h : own_never_blocks (fh s) }.
Lemma FN_init : FN finit.
Proof. split; try discriminate. apply always_at_nil. Qed.
Lemma FN_act : forall s o, FN s -> FN (act s o).
Proof.
  intros s o [A H]. unfold act. destruct (reaches s o) as [d|] eqn:R; split; cbn [flog tab nb nd obj fh made_for]; auto.
  - apply always_at_cons. split; auto. unfold reaches in R. destruct (obj s o) as [[f|]|] eqn:Ob; try discriminate. eauto.
  - apply always_at_cons. split; auto.
Qed.
Lemma FN_make : forall s b o a, FI s -> FN s -> obj s o = None -> FN (make s b o a).
Proof.
  intros s b o a V [A H] Ob. unfold make. destruct a as [|g t]; [split; auto|]. destruct (kopen s b) as [[s1 f] d] eqn:K.
  destruct (FI_kopen _ _ _ _ _ V K) as (V1&T&Ed&Eo&Eh&En&El).
  assert (X : forall x s2, (forall y, x = Some y -> nb s2 d = true) -> obj s2 = obj s1 -> fh s2 = fh s1 ->
     (forall d0, d0 <> d -> nb s2 d0 = nb s d0) -> FN (flog (VMade o d) (setobj s2 o (Some x)))).
  { intros x s2 Hx Eo2 Eh2 Hn. split; cbn [flog setobj tab nb nd obj fh made_for]; rewrite ?Eo2, ?Eh2, ?Eo, ?Eh.
    - intros o0 f0 d0. unfold upd. deq; intros Y Z.
      + injection Z as <-. injection Y as Y. eauto.
      + rewrite Hn; [eauto|]. pose proof (f_made _ V _ _ Z). lia.
    - apply always_at_cons. split; auto. }
  assert (Hn1 : forall d0, d0 <> d -> nb s1 d0 = nb s d0) by (intros d0 N; rewrite En; now apply upd_other).
  unfold init_fd. destruct g; [destruct (nb s1 d) eqn:Eb; [|destruct t]|]; apply X; auto; try congruence.
  - intros y _. cbn. apply upd_same.
  - intros d0 N. cbn. rewrite upd_other by auto. auto.
Qed.
Lemma FN_step : forall s l s', FI s -> FN s -> calm l = true -> fstep s l = Some s' -> FN s'.
Proof.
  intros s l s' V W C E. destruct l; cbn [fstep] in E; try discriminate C.
  - destruct (obj s o) eqn:Ob; [discriminate|]. destruct k.
    + injection E as <-. now apply FN_make.
    + injection E as <-. now apply FN_make.
    + destruct (obj s p); [|discriminate]. injection E as <-. destruct (reaches s p); [|now apply FN_act].
      apply FN_make; [now apply FI_act|now apply FN_act|]. now rewrite act_obj.
  - destruct (obj s p) eqn:Op; [discriminate|]. destruct (obj s o) eqn:Oo; [|discriminate]. injection E as <-. destruct W as [A H].
    split; cbn [flog setobj tab nb nd obj fh made_for].
    + intros o1 f0 d0. unfold upd. deq; intros Y Z; eauto. injection Y as ->. eauto.
    + apply always_at_cons. split; auto.
  - destruct (obj s o) eqn:Ob; [|discriminate]. injection E as <-. destruct W as [A H].
    split; cbn [flog setobj tab nb nd obj fh made_for].
    + intros o1 f0 d0. unfold upd. deq; intros Y Z; [discriminate|eauto].
    + apply always_at_cons. split; auto.
  - destruct W as [A H]. destruct (obj s o) as [[f|]|] eqn:Ob; [| |discriminate].
    + destruct (file_of (tab s) f) as [d|]; injection E as <-.
      * destruct ok; split; cbn [flog setobj settab tab nb nd obj fh made_for]; auto.
        -- intros o1 f0 d0. unfold upd. deq; intros Y Z; [discriminate|eauto].
        -- apply always_at_cons. split; auto. apply always_at_cons. split; auto.
        -- apply always_at_cons. split; auto.
      * split; cbn [flog tab nb nd obj fh made_for]; auto. apply always_at_cons. split; auto.
    + injection E as <-. split; cbn [flog tab nb nd obj fh made_for]; auto. apply always_at_cons. split; auto.
  - destruct (obj s o); [|discriminate]. injection E as <-. now apply FN_act.
  - injection E as <-. destruct W as [A H]. unfold kopen. cbn [fst]. split; cbn [tab nb nd obj fh]; auto.
    intros o f d Y Z. rewrite upd_other; [eauto|]. pose proof (f_made _ V _ _ Z). lia.
  - destruct (file_of (tab s) f) as [d|] eqn:T; [|discriminate]. destruct (ours (fh s) d) eqn:U; [discriminate|].
    injection E as <-. destruct W as [A H]. split; cbn [settab tab nb nd obj fh]; auto.
Qed.
Lemma FN_reach : forall ls s, Forall (fun l => calm l = true) ls -> run fstep finit ls = Some s -> FN s.
Proof.
  intros ls. assert (G : forall ls s0 s, FI s0 -> FN s0 -> Forall (fun l => calm l = true) ls -> run fstep s0 ls = Some s -> FN s).
  { clear ls. induction ls as [|l ls IH]; intros s0 s V W F R; cbn [run] in R; [injection R as <-; auto|].
    inversion F; subst. destruct (fstep s0 l) as [s1|] eqn:E; [|discriminate].
    eapply (IH s1); eauto; [eapply FI_step|eapply FN_step]; eauto. }
  intros s F R. eapply G; eauto; [apply FI_init|apply FN_init].
Qed.

(** ** Descriptors that can still be closed *)
(** init_fd succeeds. *)
Definition tidy (l : flbl) : bool := match l with LMake _ _ (AGot g t) => g && t | _ => true end.
Record FL (s : fst_) : Prop := {
  l_fd : forall o d, made_for (fh s) o = Some d -> ~ released (fh s) d -> exists f, obj s o = Some (Some f);
  l_some : forall p d, In (VMade p d) (fh s) -> released (fh s) d \/ exists o, made_for (fh s) o = Some d }.
Lemma FL_init : FL finit.
Proof. split; cbn; [discriminate|tauto]. Qed.
(** Events that concern no object's identity. *)
Lemma FL_log : forall s v, FL s -> match v with VAct _ _ _ | VBad _ => True | _ => False end -> FL (flog v s).
Proof.
  intros s v [A B] N. destruct v; try contradiction; split; cbn [flog fh made_for obj].
  1,3: intros o0 d0 M R; eapply A; eauto; intros X; apply R; now apply rel_keep.
  1,2: intros p d0 [X|I]; [discriminate|]; destruct (B _ _ I); auto; left; now apply rel_keep.
Qed.
Lemma FL_act : forall s o, FL s -> FL (act s o).
Proof. intros s o W. unfold act. destruct (reaches s o); apply FL_log; cbn; auto. Qed.
Lemma FL_make : forall s b o a, FI s -> FL s -> obj s o = None -> (forall g t, a = AGot g t -> g && t = true) -> FL (make s b o a).
Proof.
  intros s b o a V [A B] Ob Ta. unfold make. destruct a as [|g t]; [split; auto|].
  specialize (Ta _ _ eq_refl). apply andb_prop in Ta. destruct Ta as [-> ->].
  destruct (kopen s b) as [[s1 f] d] eqn:K. destruct (FI_kopen _ _ _ _ _ V K) as (V1&T&Ed&Eo&Eh&En&El).
  assert (X : forall s2, obj s2 = obj s1 -> fh s2 = fh s1 -> FL (flog (VMade o d) (setobj s2 o (Some (Some f))))).
  { intros s2 Eo2 Eh2. split; cbn [flog setobj tab nb nd obj fh made_for]; rewrite ?Eo2, ?Eh2, ?Eo, ?Eh.
    - intros o0 d0. unfold upd. deq; intros Y R; eauto. eapply A; eauto. intros Z. apply R. now apply rel_keep.
    - intros p d0 [Y|I].
      + injection Y as <- <-. right. exists o. now rewrite Nat.eqb_refl.
      + destruct (B _ _ I) as [R|[o0 M]]; [left; now apply rel_keep|]. right. exists o0. deq; auto.
        exfalso. assert (N : made_for (fh s) o = None) by (apply (f_obj _ V); auto). congruence. }
  unfold init_fd. destruct (nb s1 d); apply X; auto.
Qed.
Lemma FL_step : forall s l s', FI s -> FL s -> tidy l = true -> dropped_well (fh s') -> fstep s l = Some s' -> FL s'.
Proof.
  intros s l s' V W Ti Dw E. destruct l; cbn [fstep] in E.
  - assert (Ta : forall g t, a = AGot g t -> g && t = true) by (intros g t ->; exact Ti).
    destruct (obj s o) eqn:Ob; [discriminate|]. destruct k.
    + injection E as <-. now apply FL_make.
    + injection E as <-. now apply FL_make.
    + destruct (obj s p); [|discriminate]. injection E as <-. destruct (reaches s p); [|now apply FL_act].
      apply FL_make; auto; [now apply FI_act|now apply FL_act|]. now rewrite act_obj.
  - destruct (obj s p) eqn:Op; [discriminate|]. destruct (obj s o) eqn:Oo; [|discriminate]. injection E as <-.
    destruct W as [A B]. split; cbn [flog setobj tab nb nd obj fh made_for].
    + intros o1 d0. unfold upd. deq; intros Y R.
      * assert (R' : ~ released (fh s) d0) by (intros Z; apply R; now apply rel_keep).
        destruct (A _ _ Y R') as [f F]. exists f. congruence.
      * eapply A; eauto. intros Z. apply R. now apply rel_keep.
    + intros q d0 [Y|I]; [discriminate|]. destruct (B _ _ I) as [R|[o1 M]]; [left; now apply rel_keep|]. right.
      exists o1. deq; auto. exfalso. assert (N : made_for (fh s) p = None) by (apply (f_obj _ V); auto). congruence.
  - destruct (obj s o) eqn:Ob; [|discriminate]. injection E as <-. cbn [flog fh] in Dw. apply always_at_cons in Dw. destruct Dw as [Dw _].
    destruct W as [A B]. split; cbn [flog setobj tab nb nd obj fh made_for].
    + intros o1 d0. unfold upd. deq; intros Y R; [discriminate|]. eapply A; eauto. intros Z. apply R. now apply rel_keep.
    + intros q d0 [Y|I]; [discriminate|]. destruct (B _ _ I) as [R|[o1 M]]; [left; now apply rel_keep|].
      destruct (Nat.eq_dec o1 o) as [->|N].
      * destruct (Dw _ M) as [R|(p&N&Mp)]; [left; now apply rel_keep|]. right. exists p. deq; auto. contradiction.
      * right. exists o1. deq; auto. contradiction.
  - destruct (obj s o) as [[f|]|] eqn:Ob; [| |discriminate].
    + destruct (file_of (tab s) f) as [d|] eqn:T; injection E as <-; [|now apply FL_log].
      destruct W as [A B].
      assert (B1 : forall p d0, In (VMade p d0) (fh s) -> released (VRel o d :: fh s) d0 \/ exists o1, made_for (fh s) o1 = Some d0).
      { intros p d0 I. destruct (B _ _ I) as [R|X]; auto. left. now apply rel_keep. }
      destruct ok; split; cbn [flog setobj settab tab nb nd obj fh made_for].
      * intros o1 d0. unfold upd. deq; intros Y R.
        -- exfalso. apply R. apply rel_keep, rel_cons. left. exists o.
           assert (R' : ~ released (fh s) d0) by (intros Z; apply R; now apply rel_keep, rel_keep).
           pose proof (f_own _ V _ _ _ Ob Y R'). congruence.
        -- eapply A; eauto. intros Z. apply R. now apply rel_keep, rel_keep.
      * intros p d0 [Y|[Y|I]]; try discriminate. destruct (B1 _ _ I); auto. left. now apply rel_keep.
      * intros o1 d0 Y R. eapply A; eauto. intros Z. apply R. now apply rel_keep.
      * intros p d0 [Y|I]; [discriminate|eauto].
    + injection E as <-. now apply FL_log.
  - destruct (obj s o); [|discriminate]. injection E as <-. now apply FL_act.
  - destruct (obj s o); [|discriminate]. injection E as <-. destruct (reaches s o); [|now apply FL_act].
    destruct (FL_act _ o W) as [A B]. split; auto.
  - injection E as <-. destruct W as [A B]. split; auto.
  - destruct (file_of (tab s) f) as [d|] eqn:T; [|discriminate]. destruct (ours (fh s) d) eqn:U; [discriminate|].
    injection E as <-. destruct W as [A B]. split; auto.
Qed.
(** Histories only grow. *)
Lemma act_grows : forall s o, exists h, fh (act s o) = h ++ fh s.
Proof. intros s o. unfold act. destruct (reaches s o); [exists [VAct o n (nb s n)]|exists [VBad o]]; reflexivity. Qed.
Lemma make_grows : forall s b o a, exists h, fh (make s b o a) = h ++ fh s.
Proof.
  intros s b o [|g t]; cbn [make]; [exists []; reflexivity|]. unfold kopen. exists [VMade o (nd s)].
  unfold init_fd. destruct g; [destruct (nb _ _); [|destruct t]|]; reflexivity.
Qed.
Lemma step_grows : forall s l s', fstep s l = Some s' -> exists h, fh s' = h ++ fh s.
Proof.
  intros s l s' E. destruct l; cbn [fstep] in E.
  - destruct (obj s o); [discriminate|]. destruct k.
    + injection E as <-. apply make_grows.
    + injection E as <-. apply make_grows.
    + destruct (obj s p); [|discriminate]. injection E as <-. destruct (reaches s p); [|apply act_grows].
      destruct (make_grows (act s p) false o a) as [h1 E1]. destruct (act_grows s p) as [h2 E2].
      exists (h1 ++ h2). now rewrite E1, E2, app_assoc.
  - destruct (obj s p); [discriminate|]. destruct (obj s o); [|discriminate]. injection E as <-. now exists [VCopy p o].
  - destruct (obj s o); [|discriminate]. injection E as <-. now exists [VDrop o].
  - destruct (obj s o) as [[f|]|]; [| |discriminate].
    + destruct (file_of (tab s) f) as [d|]; injection E as <-; [|now exists [VBad o]].
      destruct ok; [now exists [VClosed o; VRel o d]|now exists [VRel o d]].
    + injection E as <-. now exists [VBad o].
  - destruct (obj s o); [|discriminate]. injection E as <-. apply act_grows.
  - destruct (obj s o); [|discriminate]. injection E as <-. destruct (reaches s o); apply act_grows.
  - injection E as <-. now exists [].
  - destruct (file_of (tab s) f) as [d|]; [|discriminate]. destruct (ours (fh s) d); [discriminate|]. injection E as <-. now exists [].
Qed.
Lemma run_grows : forall ls s s', run fstep s ls = Some s' -> exists h, fh s' = h ++ fh s.
Proof.
  induction ls as [|l ls IH]; intros s s' R; cbn [run] in R; [injection R as <-; now exists []|].
  destruct (fstep s l) as [s1|] eqn:E; [|discriminate]. destruct (step_grows _ _ _ E) as [h1 E1]. destruct (IH _ _ R) as [h2 E2].
  exists (h2 ++ h1). now rewrite E2, E1, app_assoc.
Qed.
Lemma dropped_older : forall h h', dropped_well (h ++ h') -> dropped_well h'.
Proof. intros h h' D n v o ->. exact (D (h ++ n) v o (app_assoc _ _ _)). Qed.
Lemma FL_reach : forall ls s, Forall (fun l => tidy l = true) ls -> run fstep finit ls = Some s -> dropped_well (fh s) -> FL s.
Proof.
  intros ls. assert (G : forall ls s0 s, FI s0 -> FL s0 -> Forall (fun l => tidy l = true) ls -> run fstep s0 ls = Some s ->
    dropped_well (fh s) -> FL s).
  { clear ls. induction ls as [|l ls IH]; intros s0 s V W F R D; cbn [run] in R; [injection R as <-; auto|].
    inversion F; subst. destruct (fstep s0 l) as [s1|] eqn:E; [|discriminate].
    eapply (IH s1); eauto; [eapply FI_step; eauto|]. eapply FL_step; eauto.
    destruct (run_grows _ _ _ R) as [h Eh]. rewrite Eh in D. now apply dropped_older in D. }
  intros s F R D. eapply G; eauto; [apply FI_init|apply FL_init].
Qed.

(** ** Descriptors that cannot be closed any more *)
(** Descriptor f is open for a library object's file d, and no object has it. *)
Definition lost (s : fst_) (f d : nat) : Prop :=
  file_of (tab s) f = Some d /\ ours (fh s) d = true /\ forall o, obj s o <> Some (Some f).
Lemma ours_grows : forall h h' d, ours h' d = true -> ours (h ++ h') d = true.
Proof. intros h h' d X. apply ours_in in X. destruct X as [o I]. apply ours_in. exists o. apply in_or_app. now right. Qed.
Lemma make_lost : forall s b o a f d, lost s f d -> lost (make s b o a) f d.
Proof.
  intros s b o a f d (T&U&N). split; [|split].
  - destruct a as [|g t]; cbn [make]; auto. unfold kopen, init_fd.
    assert (X : file_of (put (tab s) (lowest (tab s)) (Some (nd s))) f = Some d).
    { rewrite file_put. deq; auto. rewrite file_lowest in T. discriminate. }
    destruct g; [destruct (nb _ _); [|destruct t]|]; exact X.
  - destruct (make_grows s b o a) as [h ->]. now apply ours_grows.
  - assert (X : lowest (tab s) <> f) by (intros <-; rewrite file_lowest in T; discriminate).
    destruct a as [|g t]; cbn [make]; auto. unfold kopen, init_fd. intros q.
    destruct g; [destruct (nb _ _); [|destruct t]|]; cbn [flog setobj setnb obj]; unfold upd; deq; congruence || auto.
Qed.
Lemma act_lost : forall s o f d, lost s f d -> lost (act s o) f d.
Proof.
  intros s o f d (T&U&N). split; [|split].
  - unfold act. destruct (reaches s o); auto.
  - destruct (act_grows s o) as [h ->]. now apply ours_grows.
  - now rewrite act_obj.
Qed.
Lemma lost_step : forall s l s' f d, FI s -> lost s f d -> fstep s l = Some s' -> lost s' f d.
Proof.
  intros s l s' f d V L E. pose proof L as (T&U&N).
  assert (U' : ours (fh s') d = true) by (destruct (step_grows _ _ _ E) as [h ->]; now apply ours_grows).
  destruct l; cbn [fstep] in E.
  - destruct (obj s o); [discriminate|]. destruct k.
    + injection E as <-. now apply make_lost.
    + injection E as <-. now apply make_lost.
    + destruct (obj s p); [|discriminate]. injection E as <-. destruct (reaches s p); [apply make_lost|]; now apply act_lost.
  - destruct (obj s p) eqn:Op; [discriminate|]. destruct (obj s o) eqn:Oo; [|discriminate]. injection E as <-.
    split; [|split]; auto. intros q. cbn [flog setobj obj]. unfold upd. deq; auto. rewrite <- Oo. auto.
  - destruct (obj s o) eqn:Ob; [|discriminate]. injection E as <-. split; [|split]; auto. intros q. cbn [flog setobj obj].
    unfold upd. deq; auto. discriminate.
  - destruct (obj s o) as [[g|]|] eqn:Ob; [| |discriminate].
    + assert (X : f <> g) by (intros ->; exact (N o Ob)).
      destruct (file_of (tab s) g) as [d'|]; injection E as <-; [|split; [|split]; auto].
      split; [|split]; auto.
      * destruct ok; cbn [flog setobj settab tab]; rewrite file_put; deq; auto; contradiction.
      * intros q. destruct ok; cbn [flog setobj settab obj]; auto. unfold upd. deq; auto. discriminate.
    + injection E as <-. split; [|split]; auto.
  - destruct (obj s o); [|discriminate]. injection E as <-. now apply act_lost.
  - destruct (obj s o); [|discriminate]. injection E as <-. pose proof (act_lost _ o _ _ L) as (A&B&C).
    destruct (reaches s o); split; auto.
  - injection E as <-. split; [|split]; auto. cbn [kopen fst tab]. rewrite file_put. deq; auto. rewrite file_lowest in T. discriminate.
  - destruct (file_of (tab s) f0) as [d'|] eqn:T'; [|discriminate]. destruct (ours (fh s) d') eqn:U2; [discriminate|]. injection E as <-.
    split; [|split]; auto. cbn [settab tab]. rewrite file_put. deq; auto. congruence.
Qed.
Lemma lost_for_ever : forall ls s s' f d, FI s -> lost s f d -> run fstep s ls = Some s' -> ~ released (fh s') d.
Proof.
  induction ls as [|l ls IH]; intros s s' f d V L R; cbn [run] in R.
  - injection R as <-. intros X. destruct L as (T&_). now apply (proj2 (f_rel _ V _ X)) in T.
  - destruct (fstep s l) as [s1|] eqn:E; [|discriminate]. eapply (IH s1); eauto; [eapply FI_step; eauto|eapply lost_step; eauto].
Qed.
