(** C88: a sleep ends. *)
From Coq Require Import List Arith Bool Lia.
From Verif Require Import Base TimerSpec TimerModel TimerProofs TimerProps SleepModel SleepProps.
Import ListNotations.

(** ** Two sleeps until the same moment *)
(** The call of timer t has started it, and nothing is left that would ever wake it up. *)
Definition lost (t : nat) (s : sst) : Prop :=
  sp s t = SOut /\ wb s t = true /\ back s t = None /\ ~ In t (q (tm s)) /\ cb (tm s) t = 0 /\
  (forall a o, incb (tm s) a <> Some (t, o)) /\ (forall a o, pc (tm s) a <> AIns t o) /\
  rp (tm s) <> RChk t /\ rp (tm s) <> RFire t /\ rp (tm s) <> RPost t /\ rp (tm s) <> RAgain t.
Lemma lost_tm : forall k sl t s l x, sl t = true -> foreign sl l = true -> lost t s -> step_ok k (tm s) l = Some x -> lost t (with_tm s x).
Proof.
  intros k sl t s l x SL F (A&B&C&Q&Z&I&P&R1&R2&R3&R4) E. unfold lost, with_tm. cbn [sp wb back tm].
  split; [exact A|]. split; [exact B|]. split; [exact C|]. destruct s as [m p w b]. cbn [tm] in *. clear A B C.
  destruct l as [d|a u|a u|a|a u|a| |]; cases E;
    repeat match goal with |- context [release _ _ ?o] => is_var o; destruct o end; simpl;
    repeat match goal with |- _ /\ _ => split end; auto; try congruence; try discriminate.
  all: try (intros X; apply in_insert in X as [X|X]; auto; subst; eapply P; eauto; fail).
  all: try (intros X; apply in_erase in X; tauto).
  all: try (unfold upd; intros; match goal with |- context [?y =? ?z] => destruct (Nat.eqb_spec y z); subst; auto; try congruence; try discriminate end; fail).
  all: try (intros X; injection X as X; subst; apply Q; match goal with H : q _ = _ |- _ => rewrite H end; now left).
  all: try (simpl in F; intros b' o'; unfold upd; destruct (Nat.eqb_spec b' a); [intros X; injection X as X; subst; rewrite SL in F; discriminate|auto]; fail).
  all: try (destruct (k t0); discriminate).
  all: intros X; injection X as X; subst; apply Q; now left.
Qed.
Lemma lost_step : forall k sl t s l s', sl t = true -> lost t s -> slstep k sl s l = Some s' -> lost t s'.
Proof.
  intros k sl t s l s' SL L E. destruct l as [l|u|a u|u|a u|u]; simpl in E.
  - destruct (foreign sl l) eqn:F; cbn [andb] in E; [|discriminate]. destruct (body_ok sl s l); [|discriminate].
    destruct (step_ok k (tm s) l) as [x|] eqn:S; [|discriminate]. injection E as <-. eapply lost_tm; eauto.
  - destruct L as (A&B&C&L). destruct (sp s u) eqn:P; try discriminate. destruct (sl u); [|discriminate]. injection E as <-.
    assert (t <> u) by congruence. unfold lost. cbn [sp wb back tm]. rewrite !upd_other by auto. auto.
  - destruct (sp s u) eqn:P; try discriminate. destruct (in_wake sl s a); [discriminate|].
    destruct (step_ok k (tm s) (LStart a u)) as [x|] eqn:S; [|discriminate]. injection E as <-.
    assert (N : t <> u) by (destruct L; congruence).
    assert (L' : lost t (with_tm s x)).
    { eapply (lost_tm k (fun v => v =? t)); eauto; simpl; [apply Nat.eqb_refl|]. apply negb_true_iff, Nat.eqb_neq. congruence. }
    unfold lost, with_tm in *. cbn [sp wb back tm] in *. rewrite upd_other by auto. auto.
  - destruct (sp s u) eqn:P; try discriminate. destruct (pc (tm s) a); try discriminate. injection E as <-.
    destruct L as (A&B&C&L). assert (t <> u) by congruence. unfold lost. cbn [sp wb back tm]. rewrite !upd_other by auto. auto.
  - destruct (incb (tm s) a) as [[v o]|] eqn:I; [|discriminate]. destruct (Nat.eqb_spec u v) as [->|]; [|discriminate].
    cbn [andb] in E. destruct (sl v); [|discriminate]. injection E as <-.
    destruct L as (A&B&C&Q&Z&J&L). assert (t <> v) by (intros ->; eapply J; eauto). unfold lost. cbn [sp wb back tm].
    rewrite !upd_other by auto. auto 10.
  - destruct (sp s u) eqn:P; try discriminate. destruct (wb s u) eqn:W; [discriminate|]. injection E as <-.
    destruct L as (A&B&C&L). assert (t <> u) by congruence. unfold lost. cbn [sp wb back tm]. rewrite !upd_other by auto. auto.
Qed.
(** Timers 1 and 2 belong to two calls of sleep_until(3).  The queue takes the second for the first; when the first is launched
    the second is not there. *)
Definition twoW : list slbl :=
  [SL LTimer; SBegin 1; SStart 0 1; SL (LGo 0); SGo 1; SBegin 2; SStart 1 2; SL (LGo 1); SGo 2].
Definition k3 (t : nat) : tkind := KAbs 3.
Theorem sleep_ends_refuted : exists k sl ls s t, run (slstep k sl) (slinit k) ls = Some s /\ sp s t = SOut /\
  forall ls' s', run (slstep k sl) s ls' = Some s' -> back s' t = None.
Proof.
  exists k3, (fun t => (t =? 1) || (t =? 2)), twoW. eexists. exists 2. split; [vm_compute; reflexivity|]. split; [reflexivity|].
  intros ls' s' R. assert (L : lost 2 s'); [|apply L]. revert R. apply run_inv; [|intros; eapply lost_step; eauto; reflexivity].
  unfold lost. simpl. repeat match goal with |- _ /\ _ => split end; auto; try discriminate; try lia;
    intros a o; do 3 (destruct a as [|a]; [discriminate|]); discriminate.
Qed.
Print Assumptions sleep_ends_refuted.
(** The other call does return. *)
Example sleep_two_ex : option_map (fun s => (back s 1, back s 2)) (run (slstep k3 (fun t => (t =? 1) || (t =? 2))) (slinit k3)
  (twoW ++ [SL (LClock 3)] ++ repeat (SL LTimer) 6 ++ [SL (LRun 5 1); SLeave 5 1; SL (LRet 5); SBack 1])) =
  Some (Some 3, None).
Proof. vm_compute. reflexivity. Qed.

(** ** Sleeps until different moments *)
Section Ends.
Variable d : nat -> nat.
Hypothesis dinj : forall t u, d t = d u -> t = u.
Let k (t : nat) : tkind := KAbs (d t).
Let sl (t : nat) : bool := true.
Let stp := slstep k sl.

Record J (s : sst) : Prop := {
  j_sli : SLI k s;
  j_era : forall a t o, pc (tm s) a <> AEra t o;
  j_cbpc : forall a, incb (tm s) a <> None -> pc (tm s) a = AIdle;
  j_rp : forall t, rp (tm s) <> RAgain t;
  j_ne : rp (tm s) = RFront \/ rp (tm s) = RWaitE /\ ntf (tm s) = true -> q (tm s) <> [];
  j_new : forall t, sp s t = SNone \/ sp s t = SIn -> st (tm s) t = false /\ cb (tm s) t = 0 /\ forall a o, incb (tm s) a <> Some (t, o);
  j_w : forall t, sp s t = SOut \/ (exists a, sp s t = SStarting a) -> wb s t = true ->
        pend t (th (tm s)) <> None \/ 0 < cb (tm s) t \/ (exists a o, incb (tm s) a = Some (t, o)) \/ (exists a o, pc (tm s) a = AIns t o);
  j_ins : forall a t o, pc (tm s) a = AIns t o -> cb (tm s) t = 0;
  j_fin : exists n, forall a, n <= a -> pc (tm s) a = AIdle /\ incb (tm s) a = None }.
Lemma j_dist : forall s, J s -> distinct (th (tm s)).
Proof.
  intros s H post t e pre E u N P. apply pend_in in P. pose proof (l_st _ _ (j_sli _ H)) as X. apply N. apply dinj.
  rewrite <- (X t (d t) e eq_refl) by (rewrite E; apply in_or_app; right; now left).
  symmetry. apply (X u (d u) e eq_refl). rewrite E. apply in_or_app. right. now right.
Qed.
Lemma j_init : J (slinit k).
Proof.
  constructor; simpl; try discriminate.
  - constructor; simpl; try discriminate; try tauto; [apply inv_init|]. intros t e K. unfold k in K. injection K as <-. reflexivity.
  - intros a X. reflexivity.
  - intros [X|[X _]]; discriminate.
  - intros t _. repeat split; auto; discriminate.
  - exists 0. auto.
Qed.
(** What of the new calls survives a step of the timers alone. *)
Lemma j_step : forall s l s', J s -> l <> SL LSpur -> stp s l = Some s' -> J s'.
Proof.
  intros s l s' H NS E. pose proof (sli_step k sl s l s' (j_sli _ H) E) as SL'. unfold stp in E.
  destruct l as [l|u|a u|u|a u|u].
  - simpl in E. destruct (foreign sl l) eqn:F; cbn [andb] in E; [|discriminate]. destruct (body_ok sl s l) eqn:BO; [|discriminate].
    destruct (step_ok k (tm s) l) as [x|] eqn:ST; [|discriminate]. injection E as <-.
    destruct H as [H0 H1 H2 H3 H4 H5 H6 H8 H7]. destruct (l_inv _ _ H0) as (TI0&MI0&WI0&_). clear H0.
    destruct s as [m p w b]. unfold with_tm in *. cbn [tm sp wb back] in *.
    constructor; auto; cbn [tm sp wb back] in *; clear SL'.
    + intros z t o. clear H5 H6. destruct l; try discriminate F; cases ST; repeat match goal with |- context [release _ _ ?o] => is_var o; destruct o end; simpl; auto;
        unfold upd; destruct (z =? a); auto; discriminate.
    + intros z. clear H5 H6. destruct l; try discriminate F; cases ST; repeat match goal with |- context [release _ _ ?o] => is_var o; destruct o end; simpl; auto;
        unfold upd; destruct (Nat.eqb_spec z a); subst; auto; try congruence.
    + intros t. clear H5 H6. destruct l; try discriminate F; cases ST; repeat match goal with |- context [release _ _ ?o] => is_var o; destruct o end; simpl; auto; try discriminate; congruence.
    + clear H5 H6. destruct l; try discriminate F; try congruence; cases ST; repeat match goal with |- context [release _ _ ?o] => is_var o; destruct o end; simpl; auto;
        try (intros _; destruct (q m) as [|y r]; simpl; repeat match goal with |- context [if ?b then _ else _] => destruct b end; discriminate);
        try (intros [X|[X _]]; congruence); try (rewrite M in H4; intuition congruence);
        try (exfalso; eapply H1; eauto; fail); try (intros [X|[_ X]]; discriminate).
    + intros t X. specialize (H5 t X). clear H6. destruct H5 as (A&B&C).
      assert (NF : rp m <> RFire t).
      { intros R. pose proof (i_rp _ TI0) as Y. unfold first in Y. rewrite R in Y. destruct Y as [[r Q] _].
        destruct (i_q _ TI0 t) as [Y|(a&o&Y)]; [rewrite Q; now left|congruence|]. eapply H1; eauto. }
      destruct l; try discriminate F; cases ST; repeat match goal with |- context [release _ _ ?o] => is_var o; destruct o end; simpl; auto;
        try (exfalso; eapply H3; eauto; fail).
      * repeat split; auto; unfold upd; [destruct (Nat.eqb_spec t t0); [subst; congruence|auto]|].
        intros z o. destruct (Nat.eqb_spec z a); auto. intros Y. injection Y as -> _. congruence.
      * repeat split; auto; intros z o; unfold upd; destruct (z =? a); auto; discriminate.
      * repeat split; auto; intros z o; unfold upd; destruct (z =? a); auto; discriminate.
      * repeat split; auto. unfold upd. destruct (Nat.eqb_spec t t0); [subst; congruence|auto].
      * repeat split; auto. unfold upd. destruct (t =? t0); auto.
      * repeat split; auto. unfold upd. destruct (t =? t0); auto.
      * repeat split; auto. unfold upd. destruct (t =? t0); auto.
    + intros t X W. specialize (H6 t X W). clear H5.
      destruct l; try discriminate F; cases ST; repeat match goal with |- context [release _ _ ?o] => is_var o; destruct o end; simpl; auto;
        try (exfalso; eapply H3; eauto; fail).
      all: try (exfalso; eapply H1; eauto; fail).
      * destruct (Nat.eqb_spec t t0) as [E|N]; [left; discriminate|]. destruct H6 as [Y|[Y|[Y|(z&o&Y)]]]; auto. do 3 right. exists z, o.
        rewrite upd_other; auto. congruence.
      * destruct (Nat.eqb_spec t t0) as [E|N]; [left; discriminate|]. destruct H6 as [Y|[Y|[Y|(z&o&Y)]]]; auto. do 3 right. exists z, o.
        rewrite upd_other; auto. congruence.
      * destruct H6 as [Y|[Y|[(z&o&Y)|Y]]]; auto.
        -- destruct (Nat.eq_dec t t0) as [->|N]; [|right; left; now rewrite upd_other]. right. right. left. exists a, b0. now rewrite upd_same.
        -- right. right. left. exists z, o. rewrite upd_other; auto. congruence.
      * destruct H6 as [Y|[Y|[(z&o&Y)|Y]]]; auto. right. right. left. exists z, o. rewrite upd_other; auto. intros ->.
        simpl in BO. rewrite Y, W in BO. discriminate.
      * destruct H6 as [Y|[Y|[(z&o&Y)|Y]]]; auto. right. right. left. exists z, o. rewrite upd_other; auto. intros ->.
        simpl in BO. rewrite Y, W in BO. discriminate.
      * destruct (Nat.eqb_spec t t0) as [->|N]; [right; left; rewrite upd_same; lia|]. rewrite upd_other by auto. auto.
    + clear H5 H6. intros z t o X. destruct l; try discriminate F; cases ST; repeat match goal with |- context [release _ _ ?o] => is_var o; destruct o end; simpl in *; eauto;
        try (exfalso; eapply H1; eauto; fail).
      * unfold upd in X. destruct (z =? a); [discriminate|eauto].
      * unfold upd in X. destruct (z =? a); [discriminate|eauto].
      * specialize (H8 _ _ _ X). unfold upd. destruct (Nat.eqb_spec t t0); auto. subst. congruence.
      * unfold upd. destruct (Nat.eqb_spec t t0); eauto. subst. exfalso. pose proof (i_rp _ TI0) as Y. unfold first in Y. rewrite M in Y.
        destruct Y as [[r Q] _]. destruct (i_ins _ TI0 _ _ _ X) as (_&Y&_). apply Y. rewrite Q. now left.
    + destruct H7 as [n Hn].
      assert (G : exists c, pc x = pc m /\ incb x = incb m \/ (forall a, a <> c -> pc x a = pc m a /\ incb x a = incb m a)).
      { destruct l; try discriminate F; cases ST; repeat match goal with |- context [release _ _ ?o] => is_var o; destruct o end; simpl;
          try (exists 0; left; split; reflexivity); exists a; right; intros z N; rewrite ?upd_other by auto; auto. }
      destruct G as [c [[-> ->]|G]]; [eauto|]. exists (max n (S c)). intros a Ha. destruct (G a) as [-> ->]; [lia|]. apply Hn. lia.
  - simpl in E. destruct (sp s u) eqn:P; try discriminate. injection E as <-. destruct H. constructor; cbn [tm sp wb back]; auto.
    + intros t. destruct (Nat.eq_dec t u) as [->|N]; [auto|]. rewrite upd_other by auto. auto.
    + intros t. destruct (Nat.eq_dec t u) as [->|N]; [rewrite upd_same; intros [X|[a X]]; discriminate|]. rewrite !upd_other by auto. auto.
  - simpl in E. destruct (sp s u) eqn:P; try discriminate. destruct (in_wake sl s a) eqn:IW; [discriminate|].
    destruct (step_ok k (tm s) (LStart a u)) as [x|] eqn:ST; [|discriminate]. injection E as <-.
    destruct H as [H0 H1 H2 H3 H4 H5 H6 H8 H7]. destruct (H5 u (or_intror P)) as (S0&_&_).
    assert (IA : incb (tm s) a = None) by (unfold in_wake in IW; destruct (incb (tm s) a) as [[? ?]|]; [discriminate|auto]).
    unfold step_ok, step in ST. rewrite S0 in ST. destruct (pc (tm s) a) eqn:PA; try discriminate. destruct (mine (tm s) a u) as [o|]; [|discriminate].
    injection ST as <-. constructor; auto; cbn [tm sp wb back]; simpl; auto.
    + intros z t o'. unfold upd. destruct (z =? a); [discriminate|auto].
    + intros z Z. rewrite upd_other; auto. congruence.
    + intros t X. destruct (Nat.eq_dec t u) as [->|N]; [rewrite upd_same in X; intuition discriminate|]. rewrite upd_other in * by auto. auto.
    + intros t X W. destruct (Nat.eq_dec t u) as [->|N]; [do 3 right; exists a, o; now rewrite upd_same|]. rewrite upd_other in X by auto.
      destruct (H6 t X W) as [Y|[Y|[Y|(z&o'&Y)]]]; auto. do 3 right. exists z, o'. rewrite upd_other; auto. congruence.
    + intros z t o' X. unfold upd in X. destruct (z =? a); [|eauto]. injection X as <- _. apply (H5 u); auto.
    + destruct H7 as [n Hn]. exists (max n (S a)). intros z Hz. rewrite upd_other by lia. apply Hn. lia.
  - simpl in E. destruct (sp s u) eqn:P; try discriminate. destruct (pc (tm s) a); try discriminate. injection E as <-.
    destruct H. constructor; cbn [tm sp wb back]; auto.
    + intros t. destruct (Nat.eq_dec t u) as [->|N]; [rewrite upd_same; intuition discriminate|]. rewrite upd_other by auto. auto.
    + intros t. destruct (Nat.eq_dec t u) as [->|N]; [intros _; apply j_w0; eauto|]. rewrite !upd_other by auto. auto.
  - simpl in E. destruct (incb (tm s) a) as [[v o]|] eqn:I; [|discriminate]. destruct (u =? v); [|discriminate]. injection E as <-.
    destruct H. constructor; cbn [tm sp wb back]; auto.
    intros t X W. apply j_w0; auto. unfold upd in W. destruct (t =? u); [discriminate|auto].
  - simpl in E. destruct (sp s u) eqn:P; try discriminate. destruct (wb s u) eqn:W; [discriminate|]. injection E as <-.
    destruct H. constructor; cbn [tm sp wb back]; auto.
    + intros t. destruct (Nat.eq_dec t u) as [->|N]; [rewrite upd_same; intuition discriminate|]. rewrite upd_other by auto. auto.
    + intros t. destruct (Nat.eq_dec t u) as [->|N]; [rewrite upd_same; intros [X|[z X]]; discriminate|]. rewrite upd_other by auto. auto.
Qed.

Definition leads (s s' : sst) : Prop := exists ls, ~ In (SL LSpur) ls /\ run stp s ls = Some s'.
Lemma leads_refl : forall s, leads s s.
Proof. intros s. exists []. split; [intros []|reflexivity]. Qed.
Lemma leads_cons : forall s l s1 s2, stp s l = Some s1 -> l <> SL LSpur -> leads s1 s2 -> leads s s2.
Proof. intros s l s1 s2 E N (ls&A&B). exists (l :: ls). split; [intros [X|X]; auto|]. simpl. now rewrite E. Qed.
Lemma leads_one : forall s l s1, stp s l = Some s1 -> l <> SL LSpur -> leads s s1.
Proof. intros. eapply leads_cons; eauto using leads_refl. Qed.
Lemma leads_trans : forall s s1 s2, leads s s1 -> leads s1 s2 -> leads s s2.
Proof.
  intros s s1 s2 (l1&A&B) (l2&C&D). exists (l1 ++ l2). split; [intros X; apply in_app_or in X; tauto|]. now rewrite run_app, B.
Qed.
Lemma j_run : forall ls s s', J s -> ~ In (SL LSpur) ls -> run stp s ls = Some s' -> J s'.
Proof.
  induction ls as [|l ls IH]; intros s s' H N R; simpl in R; [injection R as <-; auto|].
  destruct (stp s l) as [s1|] eqn:E; [|discriminate]. apply (IH s1); auto; [|intros X; apply N; now right].
  eapply j_step; eauto. intros ->. apply N. now left.
Qed.
Lemma j_leads : forall s s', J s -> leads s s' -> J s'.
Proof. intros s s' H (ls&A&B). eapply j_run; eauto. Qed.
Lemma stp_timer : forall s x, step_ok k (tm s) LTimer = Some x -> stp s (SL LTimer) = Some (with_tm s x).
Proof. intros s x E. unfold stp. cbn [slstep foreign body_ok andb]. now rewrite E. Qed.

(** A callback that holds the mutex of a queued timer can be brought to its end. *)
Lemma unblock : forall s x, J s -> In x (q (tm s)) -> exists s', leads s s' /\ mu (tm s') x = None /\ sp s' = sp s /\
  pc (tm s') = pc (tm s) /\ rp (tm s') = rp (tm s) /\ q (tm s') = q (tm s) /\ now (tm s') = now (tm s) /\ exp (tm s') = exp (tm s).
Proof.
  intros s x H Q. destruct (mu (tm s) x) as [a|] eqn:M; [|exists s; repeat split; auto using leads_refl].
  destruct (l_inv _ _ (j_sli _ H)) as (TI0&MI0&_). destruct (m_held _ MI0 _ _ M) as [(o&[X|X])|(o&X)].
  - destruct (i_ins _ TI0 _ _ _ X) as (_&N&_). contradiction.
  - exfalso. eapply j_era; eauto.
  - pose proof (j_cbpc _ H a) as P. rewrite X in P. specialize (P ltac:(discriminate)). destruct (m_in _ MI0 _ _ _ X) as [_ ->].
    eexists. split; [eapply leads_cons with (l := SLeave a x); [|discriminate|eapply leads_one with (l := SL (LRet a)); [|discriminate]]|].
    + unfold stp. cbn [slstep]. rewrite X, Nat.eqb_refl. reflexivity.
    + unfold stp. cbn [slstep foreign andb body_ok tm wb]. rewrite X, upd_same. cbn [andb negb sl]. unfold step_ok, step. rewrite P, X. reflexivity.
    + simpl. rewrite upd_same. repeat split.
Qed.
(** The timer thread can be brought to a wait. *)
Definition rk (p : rpc) : nat := match p with RLoop => 4 | RFront => 3 | RChk _ => 2 | RFire _ => 1 | _ => 0 end.
Lemma drain : forall n s, J s -> 8 * length (q (tm s)) + rk (rp (tm s)) < n ->
  exists s', leads s s' /\ qfree (tm s') = true /\ sp s' = sp s /\ pc (tm s') = pc (tm s).
Proof.
  induction n as [|n IH]; intros s H L; [lia|].
  assert (G : forall s1 x, leads s s1 -> J s1 -> step_ok k (tm s1) LTimer = Some x -> sp s1 = sp s -> pc (tm s1) = pc (tm s) -> pc x = pc (tm s) ->
    8 * length (q x) + rk (rp x) < n -> exists s', leads s s' /\ qfree (tm s') = true /\ sp s' = sp s /\ pc (tm s') = pc (tm s)).
  { intros s1 x L1 H1 E A B C D. pose proof (stp_timer _ _ E) as E'.
    destruct (IH (with_tm s1 x)) as (s'&X&Y&Z&W); [eapply j_step; eauto; discriminate|exact D|].
    exists s'. split; [eapply leads_trans; [exact L1|]; eapply leads_cons; eauto; discriminate|]. simpl in Z, W. rewrite Z, W. auto. }
  destruct (l_inv _ _ (j_sli _ H)) as (TI0&MI0&_). pose proof (i_rp _ TI0) as F. unfold first in F.
  destruct (rp (tm s)) as [| |e| |t|t|t|t] eqn:R; cbn [rk] in L.
  - destruct (q (tm s)) as [|y r] eqn:Q.
    + eexists. split; [eapply leads_one; [apply stp_timer; unfold step_ok, step, tstep; rewrite R, Q; reflexivity|discriminate]|]. repeat split.
    + eapply (G s); [apply leads_refl|exact H|unfold step_ok, step, tstep; rewrite R, Q; reflexivity|reflexivity|reflexivity|reflexivity|]. simpl. rewrite Q. simpl in *. lia.
  - exists s. split; [apply leads_refl|]. unfold qfree. rewrite R. auto.
  - exists s. split; [apply leads_refl|]. unfold qfree. rewrite R. auto.
  - pose proof (j_ne _ H (or_introl R)) as N. destruct (q (tm s)) as [|y r] eqn:Q; [congruence|].
    eapply (G s); [apply leads_refl|exact H|unfold step_ok, step, tstep; rewrite R, Q; reflexivity|reflexivity|reflexivity|reflexivity|]. simpl. rewrite Q. simpl in *. lia.
  - destruct F as [r Q]. destruct (unblock s t H) as (s1&L1&M&SP&P&R1&Q1&N1&E1); [rewrite Q; now left|].
    assert (H1 : J s1) by eauto using j_leads. destruct (exp (tm s1) t <=? now (tm s1)) eqn:D.
    + eapply (G s1); [exact L1|exact H1|unfold step_ok, step, tstep; rewrite R1, R, M, D; reflexivity|exact SP|exact P|exact P|]. simpl. rewrite Q1. simpl. lia.
    + eexists. split; [eapply leads_trans; [exact L1|eapply leads_one; [apply stp_timer; unfold step_ok, step, tstep; rewrite R1, R, M, D; reflexivity|discriminate]]|].
      simpl. auto.
  - eapply (G s); [apply leads_refl|exact H|unfold step_ok, step, tstep; rewrite R; reflexivity|reflexivity|reflexivity|reflexivity|]. simpl. lia.
  - destruct F as [[r Q] _]. destruct (unblock s t H) as (s1&L1&M&SP&P&R1&Q1&N1&E1); [rewrite Q; now left|].
    assert (H1 : J s1) by eauto using j_leads. destruct (l_inv _ _ (j_sli _ H1)) as (TI1&_). rewrite R in R1.
    pose proof (rp_first _ _ TI1 R1 M) as S1. pose proof (i_ss _ TI1) as SS. rewrite Q1, Q in SS.
    eapply (G s1); [exact L1|exact H1|unfold step_ok, step, tstep; rewrite R1, M, S1; reflexivity|exact SP|exact P|exact P|]. simpl. rewrite Q1, Q, erase_head by auto.
    rewrite Q in L. simpl in *. lia.
  - exfalso. eapply j_rp; eauto.
Qed.
(** A queued timer that is due can be brought to its launch. *)
Lemma fire : forall n s t, J s -> ms (tm s) t < n -> In t (q (tm s)) -> d t <= now (tm s) -> rp (tm s) <> RPost t ->
  exists s', leads s s' /\ sp s' = sp s /\ 0 < cb (tm s') t.
Proof.
  induction n as [|n IH]; intros s t H L Q D R; [lia|].
  assert (G : exists s1, leads s s1 /\ sp s1 = sp s /\ rp (tm s1) = rp (tm s) /\ q (tm s1) = q (tm s) /\ now (tm s1) = now (tm s) /\ exp (tm s1) = exp (tm s) /\
    forall u, rp (tm s1) = RChk u \/ rp (tm s1) = RPost u \/ rp (tm s1) = RAgain u -> mu (tm s1) u = None).
  { destruct (l_inv _ _ (j_sli _ H)) as (TI0&_). pose proof (i_rp _ TI0) as F. unfold first in F.
    destruct (rp (tm s)) as [| |e| |x|x|x|x] eqn:P;
      try (exists s; rewrite P; repeat split; auto using leads_refl; intros u [X|[X|X]]; discriminate).
    - destruct F as [r F]. destruct (unblock s x H) as (s1&L1&M&SP&PC&R1&Q1&N1&E1); [rewrite F; now left|]. exists s1. rewrite R1, P.
      repeat split; auto. intros u [X|[X|X]]; try discriminate. injection X as <-. auto.
    - destruct F as [[r F] _]. destruct (unblock s x H) as (s1&L1&M&SP&PC&R1&Q1&N1&E1); [rewrite F; now left|]. exists s1. rewrite R1, P.
      repeat split; auto. intros u [X|[X|X]]; try discriminate. injection X as <-. auto.
    - exfalso. eapply j_rp; eauto. }
  destruct G as (s1&L1&SP&R1&Q1&N1&E1&M). assert (H1 : J s1) by eauto using j_leads.
  destruct (l_inv _ _ (j_sli _ H1)) as (TI1&MI1&WI1&_).
  assert (EX : exp (tm s1) t = d t) by (apply (l_abs _ _ (j_sli _ H1)); reflexivity).
  destruct (progress1 k (tm s1) t TI1 WI1) as (x&E&_&NX&[[_ C]|(Q2&E2&R2&MS)]); auto.
  - intros y Y. exfalso. eapply j_rp; eauto.
  - rewrite Q1. exact Q.
  - rewrite EX, N1. exact D.
  - rewrite R1. exact R.
  - exists (with_tm s1 x). split; [|auto]. eapply leads_trans; [exact L1|]. eapply leads_one; [now apply stp_timer|discriminate].
  - destruct (IH (with_tm s1 x) t) as (s'&A&B&C).
    + eapply j_step; [exact H1| |apply stp_timer; exact E]. discriminate.
    + unfold ms, cnt in *. rewrite R1, Q1, E1 in MS. simpl. lia.
    + exact Q2.
    + simpl. lia.
    + exact R2.
    + exists s'. simpl in B. rewrite B. repeat split; auto. eapply leads_trans; [exact L1|]. eapply leads_cons; [apply stp_timer; exact E|discriminate|exact A].
Qed.
(** A thread in start can be brought out of it. *)
Lemma finish_start : forall s a, J s -> exists s', leads s s' /\ sp s' = sp s /\ pc (tm s') a = AIdle /\
  forall t o, pc (tm s) a = AIns t o -> pend t (th (tm s')) <> None.
Proof.
  intros s a H. destruct (drain _ s H (Nat.lt_succ_diag_r _)) as (s1&L1&Q&SP&P). destruct (pc (tm s1) a) as [|t o|t o] eqn:PA.
  - exists s1. repeat split; auto. intros t o X. congruence.
  - eexists. split; [eapply leads_trans; [exact L1|eapply leads_one with (l := SL (LGo a)); [|discriminate]]|].
    + unfold stp. cbn [slstep foreign body_ok andb]. unfold step_ok, step. rewrite PA, Q. reflexivity.
    + cbn [sp tm with_tm]. split; [exact SP|]. unfold release. destruct o; simpl; rewrite upd_same; split; auto; intros u o X; rewrite <- P, PA in X;
        injection X as <- <-; rewrite Nat.eqb_refl; discriminate.
  - exfalso. eapply (j_era s1); eauto using j_leads.
Qed.
(** The callback of t is running: the call can return. *)
Lemma wake_run : forall s t a o, J s -> sp s t = SOut -> incb (tm s) a = Some (t, o) -> exists s', leads s s' /\ sp s' t = SRet /\ back s' t <> None.
Proof.
  intros s t a o H SP I. eexists. split; [eapply leads_cons with (l := SLeave a t); [|discriminate|eapply leads_one with (l := SBack t); [|discriminate]]|].
  - unfold stp. cbn [slstep]. rewrite I, Nat.eqb_refl. reflexivity.
  - unfold stp. cbn [slstep sp wb]. rewrite SP, upd_same. reflexivity.
  - simpl. rewrite !upd_same. split; [reflexivity|discriminate].
Qed.
Lemma wake_cb : forall s t, J s -> sp s t = SOut -> 0 < cb (tm s) t -> exists s', leads s s' /\ sp s' t = SRet /\ back s' t <> None.
Proof.
  intros s t H SP C. destruct (mu (tm s) t) as [b|] eqn:M.
  - destruct (l_inv _ _ (j_sli _ H)) as (TI0&MI0&_). destruct (m_held _ MI0 _ _ M) as [(o&[X|X])|(o&X)].
    + apply (j_ins _ H) in X. lia.
    + exfalso. eapply j_era; eauto.
    + eapply wake_run; eauto.
  - destruct (j_fin _ H) as [n F]. destruct (F n (Nat.le_refl n)) as [P I]. destruct (cb (tm s) t) as [|m] eqn:CT; [lia|].
    assert (E : stp s (SL (LRun n t)) = Some (with_tm s (tlog (KRun t (now (tm s))) (setin (setmu (setcb (tm s) t m) t (Some n)) n (Some (t, true)))))).
    { unfold stp. cbn [slstep foreign body_ok andb]. unfold step_ok, step, mine. rewrite P, M, I, CT. reflexivity. }
    edestruct (wake_run (with_tm s (tlog (KRun t (now (tm s))) (setin (setmu (setcb (tm s) t m) t (Some n)) n (Some (t, true))))) t n true) as (s'&L'&A).
    + eapply j_step; [exact H| |exact E]. discriminate.
    + exact SP.
    + simpl. now rewrite upd_same.
    + exists s'. split; [|exact A]. eapply leads_cons; [exact E|discriminate|exact L'].
Qed.
Lemma wake_pend : forall s t, J s -> sp s t = SOut -> pend t (th (tm s)) <> None -> exists s', leads s s' /\ sp s' t = SRet /\ back s' t <> None.
Proof.
  intros s t H SP P. destruct (pend t (th (tm s))) as [e|] eqn:PE; [|congruence]. clear P.
  assert (E : stp s (SL (LClock (d t))) = Some (with_tm s (setnow (tm s) (now (tm s) + d t)))) by reflexivity.
  assert (H1 : J (with_tm s (setnow (tm s) (now (tm s) + d t)))) by (eapply j_step; [exact H| |exact E]; discriminate).
  destruct (l_inv _ _ (j_sli _ H1)) as (_&_&_&DI1). specialize (DI1 (j_dist _ H1)). destruct (d_pend _ DI1 t e) as [Q X]; [exact PE|].
  destruct (fire (S (ms (setnow (tm s) (now (tm s) + d t)) t)) _ t H1) as (s2&L2&SP2&C2); simpl; auto; try lia.
  - intros R. pose proof (d_post _ DI1 t R) as Y. simpl in Y. congruence.
  - destruct (wake_cb s2 t) as (s3&L3&A); [eapply j_leads; eauto|rewrite SP2; exact SP|exact C2|]. exists s3. split; [|exact A].
    eapply leads_cons; [exact E|discriminate|]. eapply leads_trans; eauto.
Qed.
Lemma wake_out : forall s t, J s -> sp s t = SOut -> exists s', leads s s' /\ sp s' t = SRet /\ back s' t <> None.
Proof.
  intros s t H SP. destruct (wb s t) eqn:W.
  - destruct (j_w _ H t (or_introl SP) W) as [P|[C|[(a&o&I)|(a&o&P)]]].
    + now apply wake_pend.
    + now apply wake_cb.
    + eapply wake_run; eauto.
    + destruct (finish_start s a H) as (s1&L1&SP1&P1&PE). destruct (wake_pend s1 t) as (s2&L2&A); [eapply j_leads; eauto|congruence|eauto|].
      exists s2. split; [|exact A]. eapply leads_trans; eauto.
  - eexists. split; [eapply leads_one with (l := SBack t); [|discriminate]|].
    + unfold stp. cbn [slstep]. rewrite SP, W. reflexivity.
    + simpl. rewrite !upd_same. split; [reflexivity|discriminate].
Qed.
Lemma wake_starting : forall s t a, J s -> sp s t = SStarting a -> exists s', leads s s' /\ sp s' t = SRet /\ back s' t <> None.
Proof.
  intros s t a H SP. destruct (finish_start s a H) as (s1&L1&SP1&P1&_). assert (H1 : J s1) by eauto using j_leads.
  assert (E : stp s1 (SGo t) = Some (mkSl (tm s1) (upd (sp s1) t SOut) (wb s1) (back s1))).
  { unfold stp. cbn [slstep]. rewrite SP1, SP, P1. reflexivity. }
  assert (H2 : J (mkSl (tm s1) (upd (sp s1) t SOut) (wb s1) (back s1))) by (eapply j_step; [exact H1| |exact E]; discriminate).
  destruct (wake_out _ t H2) as (s2&L2&A); [simpl; apply upd_same|].
  exists s2. split; [|exact A]. eapply leads_trans; [exact L1|]. eapply leads_cons; [exact E|discriminate|exact L2].
Qed.
Lemma wake_in : forall s t, J s -> sp s t = SIn -> exists s', leads s s' /\ sp s' t = SRet /\ back s' t <> None.
Proof.
  intros s t H SP. destruct (j_new _ H t (or_intror SP)) as (S0&C&I). destruct (j_fin _ H) as [n F]. destruct (F n (Nat.le_refl n)) as [P IN].
  assert (M : mu (tm s) t = None).
  { destruct (mu (tm s) t) as [b|] eqn:M; auto. destruct (l_inv _ _ (j_sli _ H)) as (TI0&MI0&_).
    destruct (m_held _ MI0 _ _ M) as [(o&[X|X])|(o&X)]; exfalso; [|eapply j_era; eauto|eapply I; eauto].
    destruct (i_ins _ TI0 _ _ _ X) as (Y&_). congruence. }
  destruct (stp s (SStart n t)) as [s1|] eqn:E.
  2:{ exfalso. unfold stp in E. cbn [slstep] in E. unfold in_wake, step_ok, step, mine in E. rewrite SP, IN, P, M, S0 in E. discriminate. }
  destruct (wake_starting s1 t n) as (s2&L2&A).
  - eapply j_step; [exact H| |exact E]. discriminate.
  - unfold stp in E. cbn [slstep] in E. rewrite SP in E. destruct (in_wake sl s n); [discriminate|]. destruct (step_ok _ _ _); [|discriminate].
    injection E as <-. simpl. apply upd_same.
  - exists s2. split; [|exact A]. eapply leads_cons; [exact E|discriminate|exact L2].
Qed.
End Ends.

(** What holds: if all timers belong to calls of sleep_until with different times, then whatever has happened so far (without
    spurious wake-ups of the timer thread), every call that has begun and not returned can still return: nothing is ever lost
    or stuck.  Missing for the full claim: equal times, where it is false; other timers; and that the continuation is taken, which is C118 for
    fair executions. *)
Theorem sleep_ends_partial : forall (d : nat -> nat) ls s t, (forall t u, d t = d u -> t = u) ->
  run (slstep (fun t => KAbs (d t)) (fun _ => true)) (slinit (fun t => KAbs (d t))) ls = Some s -> ~ In (SL LSpur) ls ->
  sp s t <> SNone -> sp s t <> SRet ->
  exists ls' s', ~ In (SL LSpur) ls' /\ run (slstep (fun t => KAbs (d t)) (fun _ => true)) s ls' = Some s' /\ sp s' t = SRet /\ back s' t <> None.
Proof.
  intros d ls s t DI R NS N1 N2. pose proof (j_run d DI ls _ s (j_init d) NS R) as H.
  assert (G : exists s', leads d s s' /\ sp s' t = SRet /\ back s' t <> None).
  { destruct (sp s t) as [| |a| |] eqn:SP; try congruence.
    - now apply wake_in.
    - eapply wake_starting; eauto.
    - now apply wake_out. }
  destruct G as (s'&(ls'&A&B)&C). exists ls', s'. auto.
Qed.
Print Assumptions sleep_ends_partial.
(** Timers 1 and 2 for the times 3 and 5; both calls are under way, the callback of 1 is running when the timer thread wants to
    retire timer 1. *)
Definition k35 (t : nat) : tkind := KAbs (2 * t + 1).
Definition under_way : list slbl :=
  [SL LTimer; SBegin 1; SStart 0 1; SL (LGo 0); SGo 1; SBegin 2; SStart 1 2; SL (LGo 1); SL LTimer; SL LTimer; SL (LClock 4); SL LTimer; SL LTimer; SL (LRun 3 1)].
Example sleep_ends_ex : exists s, run (slstep k35 (fun _ => true)) (slinit k35) under_way = Some s /\ sp s 1 = SOut /\ sp s 2 = SStarting 1 /\
  step k35 (tm s) LTimer = None /\ wb s 1 = true /\
  option_map (fun s => (back s 1, back s 2)) (run (slstep k35 (fun _ => true)) s
    ([SLeave 3 1; SBack 1; SL (LRet 3); SGo 2; SL (LClock 1)] ++ repeat (SL LTimer) 5 ++ [SL (LRun 3 2); SLeave 3 2; SBack 2])) = Some (Some 4, Some 5).
Proof. eexists. split; [vm_compute; reflexivity|]. repeat split. Qed.
