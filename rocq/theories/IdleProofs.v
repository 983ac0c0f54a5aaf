(** Invariants of the sleeping thread (IdleModel.v). *)
From Coq Require Import List Arith Bool ZArith Lia.
From Verif Require Import Base SchedSpec SchedModel SchedProofs SchedHist SchedPick IdleSpec IdleModel.
Import ListNotations.

(** c is in the queues and can be scheduled. *)
Definition rn (s : sst) (c : nat) : Prop := loc (cx s c) = Here /\ can_schedule (cx s c) = true.

Lemma step_hist : forall s l s', sstep_ok s l = Some s' -> exists n, shi s' = n ++ shi s /\ news s s' = map IB n.
Proof.
  intros s l s' E. assert (Y : shi s' = shi s \/ exists f, shi s' = f :: shi s).
  { unfold sstep_ok, sstep in E. destruct l; dm E; injection E as <-; hs; eauto. }
  unfold news. destruct Y as [Y|[f Y]]; rewrite Y; [exists []|exists [f]]; split; auto.
  - now rewrite Nat.sub_diag.
  - cbn [length]. replace (S (length (shi s)) - length (shi s)) with 1 by lia. reflexivity.
Qed.

Lemma step_work : forall s l s' n, sstep_ok s l = Some s' -> shi s' = n ++ shi s -> forall k c,
  (target (ag s' k) = Some c -> forall H, (target (ag s k) = Some c /\ at_work k c (n ++ H) = at_work k c H) \/ at_work k c (n ++ H) = true) /\
  (ag s k = ANone -> (forall c', l <> SetEnv k c') -> (forall c' r, l <> Leave k c' r) ->
     ag s' k = ANone /\ forall H, at_work k c (n ++ H) = at_work k c H).
Proof.
  intros s l s' n E N k c. unfold sstep_ok, sstep in E. destruct l; dm E; injection E as <-;
  cbn [ag shi setag setcx setq setmin setscn log do_pick do_idle] in *;
  (assert (n = [] \/ exists e, n = [e]) as [-> |[e ->]]
    by (apply (f_equal (@length sev)) in N as N'; rewrite app_length in N'; simpl in N'; destruct n as [|? [|? ?]]; eauto; simpl in N'; lia));
  cbn [app] in N; try (apply (f_equal (@length sev)) in N; simpl in N; lia); try (injection N as <-);
  (split; [intros T H|intros A X Y; split; [|intros H]]);
  cbn [app at_work] in *; auto;
  repeat match goal with
  | HT : context [upd _ ?a _ ?b] |- _ => destruct (Nat.eq_dec b a) as [->|?]; [rewrite upd_same in HT|rewrite upd_other in HT by auto]
  | |- context [upd _ ?a _ ?b] => destruct (Nat.eq_dec b a) as [->|?]; [rewrite upd_same|rewrite upd_other by auto]
  end;
  cbn [target] in *; try discriminate;
  repeat match goal with
  | HT : Some _ = Some _ |- _ => injection HT as <-
  | HE : ag _ ?k = _ |- context [ag _ ?k] => rewrite HE
  end; rewrite ?Nat.eqb_refl; auto;
  repeat match goal with HN : ?a <> ?b |- context [?a =? ?b] => rewrite (proj2 (Nat.eqb_neq a b) HN) end;
  cbn [target]; auto; try congruence; try (exfalso; eapply X; reflexivity); try (exfalso; eapply Y; reflexivity);
  match goal with |- (if ?a =? ?b then _ else _) = _ => destruct (Nat.eqb_spec a b); auto; subst; exfalso end;
  (congruence || (eapply Y; reflexivity)).
Qed.

(** A coroutine becomes runnable by the step of a call that then has it as its target. *)
Lemma step_rn : forall s l s', sstep_ok s l = Some s' -> own l = false -> forall c, rn s' c ->
  rn s c \/ exists k, target (ag s' k) = Some c.
Proof.
  intros s l s' E O c. unfold rn. unfold sstep_ok, sstep in E. destruct l; try discriminate O; dm E; injection E as <-; hs; auto; intros [L C];
  try (destruct (Nat.eq_dec c c0) as [->|]; [rewrite ?upd_same in *|rewrite ?upd_other in * by auto; auto]).
  all: try (cbn [loc set_loc set_pr] in L; discriminate).
  all: try (left; split; [exact L|exact C]; fail).
  all: try (right; exists k; rewrite ?upd_same; reflexivity).
  all: try (rewrite set_stt_loc in L; congruence).
  all: try (unfold can_schedule in C; cbn [wflag enter_w stt] in C; destruct (stt (cx s c0)); discriminate).
  all: revert L C; cs; auto; discriminate.
Qed.

(** A call keeps its target until it lowers the minimum, unless the target cannot be run. *)
Lemma step_target : forall s l s', sstep_ok s l = Some s' -> forall k c, l <> Upd2 k -> target (ag s k) = Some c -> rn s' c ->
  target (ag s' k) = Some c.
Proof.
  intros s l s' E k c N T [L C]. unfold sstep_ok, sstep in E. destruct l; dm E; injection E as <-;
  cbn [ag cx setag setcx setq setmin setscn log do_pick do_idle] in *; auto;
  (destruct (Nat.eq_dec k k0) as [->|]; [|rewrite upd_other; auto]); rewrite upd_same;
  repeat match goal with HE : ag _ ?k = _, HT : context [ag _ ?k] |- _ => rewrite HE in HT end; try discriminate; cbn [target] in *; auto; try congruence.
  injection T as ->. rewrite orb_false_r in *. unfold can_schedule in C. rewrite M2 in C. destruct (stt (cx s c)); discriminate.
Qed.

Lemma step_pr : forall s l s', sstep_ok s l = Some s' -> own l = false -> locking l = false -> forall c, pr (cx s' c) = pr (cx s c).
Proof.
  intros s l s' E O K c. unfold sstep_ok, sstep in E. destruct l; try discriminate O; try discriminate K; dm E; injection E as <-; hs; auto;
  unfold upd; match goal with |- context [?a =? ?b] => destruct (Nat.eqb_spec a b) as [->|] end; auto; apply set_stt_pr.
Qed.
Lemma step_scn : forall s l s', sstep_ok s l = Some s' -> own l = false -> scn s' = scn s.
Proof. intros s l s' E O. unfold sstep_ok, sstep in E. destruct l; try discriminate O; dm E; injection E as <-; hs; auto. Qed.

(** ** Histories *)
Definition isret (e : sev) : bool := match e with VRet _ => true | _ => false end.
(** Without the returns. *)
Definition nor (H : shist) : shist := filter (fun e => negb (isret e)) H.
Lemma nor_app : forall a b, nor (a ++ b) = nor a ++ nor b.
Proof. intros. apply filter_app. Qed.
Lemma member_nor : forall c H, member c (nor H) = member c H.
Proof. intros c H. induction H as [|[] H IH]; simpl; auto; now rewrite IH. Qed.
Lemma waits_nor : forall c x H, waits c x (nor H) = waits c x H.
Proof. intros c x H. induction H as [|[] H IH]; simpl; auto; now rewrite IH. Qed.
Lemma finished_nor : forall c H, finished c (nor H) = finished c H.
Proof. intros c H. induction H as [|[] H IH]; simpl; auto; now rewrite IH. Qed.
Lemma runnable_nor : forall c H H', nor H = nor H' -> runnable c H -> runnable c H'.
Proof.
  intros c H H' E (A&B&C). split; [|split].
  - now rewrite <- member_nor, <- E, member_nor.
  - now rewrite <- finished_nor, <- E, finished_nor.
  - intros x. rewrite <- waits_nor, <- E, waits_nor. auto.
Qed.
Lemma queues_ib : forall n H, queues (map IB n ++ H) = n ++ queues H.
Proof. intros n H. induction n; simpl; auto. now rewrite IHn. Qed.
Lemma asleep_ib : forall n H, asleep (map IB n ++ H) = asleep H.
Proof. intros n H. induction n; simpl; auto. Qed.
Lemma stopping_ib : forall k n H, stopping k (map IB n ++ H) = stopping k H.
Proof. intros k n H. induction n; simpl; auto. Qed.
Lemma stopped_ib : forall n H, stopped (map IB n ++ H) -> stopped H.
Proof. intros n H [k I]. apply in_app_or in I as [I|I]; [|exists k; auto]. apply in_map_iff in I as (x&X&_). discriminate. Qed.

(** Some call has c as its target and has still to wake the thread. *)
Definition pw (s : ist) (c : nat) : Prop := exists k, target (ag (bs s) k) = Some c \/ wk s k = Some c.

Record IInv (cfg : nat -> Z * bool * bool * bool) (s : ist) : Prop := {
  v_rch : exists ls, run sstep_ok (sinit cfg) ls = Some (bs s);
  v_wk : forall k c, wk s k = Some c -> ag (bs s) k = ANone;
  v_scn : slp s <> Up -> scn (bs s) = None;
  v_nor : nor (queues (ih s)) = nor (shi (bs s));
  v_at : forall k c, target (ag (bs s) k) = Some c \/ wk s k = Some c -> at_work k c (queues (ih s)) = true;
  v_asl : asleep (ih s) = true -> slp s = Down false;
  v_sc : forall i r, slp s = Scn i r -> i < nprio /\ forall c, rn (bs s) c ->
    pr (cx (bs s) c) < i \/ (pr (cx (bs s) c) = i /\ ~ In c r) -> pw s c;
  v_dn : slp s = Down false -> forall c, rn (bs s) c -> pw s c;
  v_ds : slp s = Down false -> dst s = true -> exists k, stp s k = true;
  v_st : stopped (ih s) -> dst s = true;
  v_sk : forall k, stp s k = true -> stopping k (ih s) = true
}.

Lemma iinv_init : forall cfg, IInv cfg (iinit cfg).
Proof.
  intros cfg. split; simpl; auto; try discriminate; try congruence.
  - exists []. reflexivity.
  - intros k c [X|X]; discriminate.
  - intros [k []].
Qed.

Lemma pend_target : forall s c, pend s c -> exists k, target (ag s k) = Some c.
Proof. intros s c (k&[A|[A|(p&A&_)]]); exists k; rewrite A; reflexivity. Qed.

Lemma run_snoc : forall A B (f : A -> B -> option A) s ls s1 l s2, run f s ls = Some s1 -> f s1 l = Some s2 -> run f s (ls ++ [l]) = Some s2.
Proof. intros A B f s ls s1 l s2 R E. rewrite run_app, R. simpl. now rewrite E. Qed.

(** A base step other than the lowering of the minimum. *)
Lemma iinv_base : forall cfg s l b, IInv cfg s -> (forall k, l <> Upd2 k) -> sstep_ok (bs s) l = Some b ->
  fits s l = true -> negb (own l) || up s = true -> negb (locking l) || negb (scanning s) = true ->
  IInv cfg (mkI b (slp s) (wk s) (origin s l) (dst s) (stp s) (news (bs s) b ++ ih s)).
Proof.
  intros cfg s l b V NU E F O K. destruct (step_hist _ _ _ E) as (n&Hn&->).
  pose proof (step_work _ _ _ _ E Hn) as W.
  assert (FK : forall k c, wk s k = Some c -> (forall c', l <> SetEnv k c') /\ (forall c' r, l <> Leave k c' r)).
  { intros k c X. split; intros; intros ->; simpl in F; rewrite X in F; discriminate. }
  assert (OW : slp s <> Up -> own l = false).
  { intros X. unfold up in O. destruct (own l); auto. destruct (slp s); simpl in O; congruence. }
  assert (PW : forall c, rn b c -> pw s c -> exists k, target (ag b k) = Some c \/ wk s k = Some c).
  { intros c R (k&[T|T]); exists k; [left|right; auto]. eapply step_target; eauto. }
  split; cbn [bs slp wk org dst stp ih].
  - destruct (v_rch _ _ V) as [ls R]. exists (ls ++ [l]). eapply run_snoc; eauto.
  - intros k c X. destruct (FK _ _ X). apply (W k c); auto. eapply v_wk; eauto.
  - intros X. rewrite (step_scn _ _ _ E); auto. eapply v_scn; eauto.
  - rewrite queues_ib, Hn, !nor_app. f_equal. apply (v_nor _ _ V).
  - intros k c X. rewrite queues_ib. destruct X as [X|X].
    + destruct (proj1 (W k c) X (queues (ih s))) as [[T ->]|T]; auto. apply (v_at _ _ V). auto.
    + destruct (FK _ _ X). destruct (proj2 (W k c)) as [_ ->]; auto. eapply v_wk; eauto. apply (v_at _ _ V). auto.
  - rewrite asleep_ib. apply (v_asl _ _ V).
  - intros i r X. destruct (v_sc _ _ V _ _ X) as [A B]. split; auto. intros c R. unfold scanning in K. rewrite X in *.
    assert (OL : own l = false) by (apply OW; congruence). assert (LL : locking l = false) by (destruct (locking l); auto).
    rewrite (step_pr _ _ _ E OL LL). intros C. unfold pw. cbn [bs wk].
    destruct (step_rn _ _ _ E OL c R) as [R0|[k T]]; [|exists k; auto]. auto.
  - intros X c R. unfold pw. cbn [bs wk]. destruct (step_rn _ _ _ E (OW ltac:(congruence)) c R) as [R0|[k T]]; [|exists k; auto].
    apply PW; auto. eapply v_dn; eauto.
  - apply (v_ds _ _ V).
  - intros X. apply stopped_ib in X. apply (v_st _ _ V X).
  - intros k X. rewrite stopping_ib. apply (v_sk _ _ V _ X).
Qed.

Lemma iinv_upd2 : forall cfg s k b, IInv cfg s -> sstep_ok (bs s) (Upd2 k) = Some b -> scanning s = false ->
  IInv cfg (mkI b (slp s) (upd (wk s) k (about (ag (bs s) k))) (org s) (dst s) (stp s) (ih s)).
Proof.
  intros cfg s k b V E K. pose proof E as E0. unfold sstep_ok, sstep in E. destruct (ag (bs s) k) as [| | | |p c] eqn:A; try discriminate.
  destruct (unlocked (bs s)); [|discriminate]. injection E as <-.
  assert (PW : forall d, pw s d -> exists k0, target (upd (ag (bs s)) k ANone k0) = Some d \/ upd (wk s) k (Some c) k0 = Some d).
  { intros d (k0&T). exists k0. destruct (Nat.eq_dec k0 k) as [->|N]; [|now rewrite !upd_other]. rewrite !upd_same. right.
    destruct T as [T|T]; [rewrite A in T; auto|]. apply (v_wk _ _ V) in T. congruence. }
  split; cbn [bs slp wk org dst stp ih about]; try apply V; hs.
  - destruct (v_rch _ _ V) as [ls R]. exists (ls ++ [Upd2 k]). eapply run_snoc; eauto.
  - intros k0 d. destruct (Nat.eq_dec k0 k) as [->|N]; [now rewrite !upd_same|]. rewrite !upd_other by auto. apply V.
  - intros k0 d. destruct (Nat.eq_dec k0 k) as [->|N].
    + rewrite !upd_same. intros [T|T]; [discriminate|]. apply (v_at _ _ V). left. now rewrite A.
    + rewrite !upd_other by auto. apply V.
  - intros i r X. unfold scanning in K. rewrite X in K. discriminate.
  - intros X d R. apply PW. eapply v_dn; eauto.
Qed.

Lemma iinv_step : forall cfg s l s', IInv cfg s -> istep s l = Some s' -> IInv cfg s'.
Proof.
  intros cfg s l s' V E. destruct l; unfold istep in E.
  - destruct (fits s l && (negb (own l) || up s) && (negb (locking l) || negb (scanning s))) eqn:G; [|discriminate].
    apply andb_true_iff in G as [G K]. apply andb_true_iff in G as [F O].
    destruct (sstep_ok (bs s) l) as [b|] eqn:B; [|discriminate].
    assert (NB : (forall k, l <> Upd2 k) -> IInv cfg (mkI b (slp s) (wk s) (origin s l) (dst s) (stp s) (news (bs s) b ++ ih s))) by (intros; apply iinv_base; auto).
    destruct l; try (injection E as <-; apply NB; discriminate). injection E as <-.
    apply iinv_upd2; auto. simpl in K. now apply negb_true_iff.
  - (* SleepB *)
    destruct (slp s) eqn:ES; try discriminate. destruct (cur (bs s)); [discriminate|]. destruct (scn (bs s)) eqn:SC; [discriminate|].
    injection E as <-. split; cbn [bs slp wk org dst stp ih]; try apply V; try discriminate; auto.
    intros X. apply (v_asl _ _ V) in X. congruence.
  - (* ScanB *)
    destruct (slp s) eqn:ES; try discriminate. injection E as <-. destruct (v_rch _ _ V) as [ls R]. destruct (pinv_run _ _ _ R) as (HI&HH&HP).
    split; cbn [bs slp wk org dst stp ih]; try apply V; try discriminate; auto.
    + intros _. apply (v_scn _ _ V). congruence.
    + intros X. apply (v_asl _ _ V) in X. congruence.
    + intros i r X. injection X as <- <-. split; [apply HI|]. intros c [L C] [LT|[P N]].
      * destruct (pend_target _ _ (p_min _ HP c L C LT)) as [k T]. exists k. auto.
      * destruct N. apply (i_q _ HI). auto.
  - (* ScanS *)
    destruct (slp s) as [| |i [|c r]|] eqn:ES; try discriminate.
    + destruct (v_rch _ _ V) as [ls R]. destruct (pinv_run _ _ _ R) as (HI&HH&HP). destruct (v_sc _ _ V _ _ ES) as [LI SC].
      destruct (Nat.ltb_spec (S i) nprio) as [LT|GE].
      * injection E as <-. split; cbn [bs slp wk org dst stp ih]; try apply V; try discriminate; auto.
        -- intros _. apply (v_scn _ _ V). congruence.
        -- intros X. apply (v_asl _ _ V) in X. congruence.
        -- intros i0 r0 X. injection X as <- <-. split; auto. intros c RC H. apply SC; auto. destruct H as [H|[H N]].
           ++ destruct (Nat.eq_dec (pr (cx (bs s) c)) i); [right; auto|left; lia].
           ++ destruct N. apply (i_q _ HI). destruct RC. auto.
      * destruct (negb (dst s) && _) eqn:G; injection E as <-.
        -- apply andb_true_iff in G as [G _]. apply negb_true_iff in G.
           split; cbn [bs slp wk org dst stp ih]; try apply V; try discriminate; auto.
           ++ intros _. apply (v_scn _ _ V). congruence.
           ++ intros _ c RC. apply SC; auto. pose proof (i_pr _ HI c). destruct (Nat.eq_dec (pr (cx (bs s) c)) i); [right; auto|left; lia].
           ++ congruence.
           ++ intros [k [X|X]]; [discriminate|]. apply (v_st _ _ V). exists k. auto.
        -- split; cbn [bs slp wk org dst stp ih]; try apply V; try discriminate; try congruence; auto.
           ++ intros X. apply (v_asl _ _ V) in X. congruence.
           ++ intros [k [X|X]]; [discriminate|]. apply (v_st _ _ V). exists k. auto.
    + destruct (v_sc _ _ V _ _ ES) as [LI SC]. destruct (can_schedule (cx (bs s) c)) eqn:CS; injection E as <-.
      * split; cbn [bs slp wk org dst stp ih]; try apply V; try discriminate; try congruence; auto.
        -- intros X. apply (v_asl _ _ V) in X. congruence.
        -- intros [k [X|X]]; [discriminate|]. apply (v_st _ _ V). exists k. auto.
      * split; cbn [bs slp wk org dst stp ih]; try apply V; try discriminate; auto.
        -- intros _. apply (v_scn _ _ V). congruence.
        -- intros X. apply (v_asl _ _ V) in X. congruence.
        -- intros i0 r0 X. injection X as <- <-. split; auto. intros d RD H. apply SC; auto. destruct H as [H|[H N]]; [auto|right]. split; auto.
           intros [->|I]; auto. destruct RD. congruence.
  - (* Rise *)
    destruct (slp s) eqn:ES; try discriminate. injection E as <-.
    split; cbn [bs slp wk org dst stp ih]; try apply V; try discriminate; auto.
    + intros _. apply (v_scn _ _ V). congruence.
    + intros [k [X|X]]; [discriminate|]. apply (v_st _ _ V). exists k. auto.
  - (* Wake *)
    destruct (wk s k) as [c|] eqn:W; [|discriminate]. destruct (sfree s) eqn:SF; [|discriminate].
    assert (AK : forall e k0 d, target (ag (bs s) k0) = Some d \/ upd (wk s) k None k0 = Some d ->
      at_work k0 d (queues (IB (VRet k) :: e ++ ih s)) = at_work k0 d (queues (e ++ ih s)) /\ (target (ag (bs s) k0) = Some d \/ wk s k0 = Some d)).
    { intros e k0 d T. simpl. destruct (Nat.eqb_spec k0 k) as [->|N].
      - rewrite upd_same in T. destruct T as [T|T]; [|discriminate]. rewrite (v_wk _ _ V _ _ W) in T. discriminate.
      - rewrite upd_other in T by auto. auto. }
    assert (Y : (loc (cx (bs s) c) <> Here /\ s' = mkI (bs s) (slp s) (upd (wk s) k None) (org s) (dst s) (stp s) (IB (VRet k) :: ih s)) \/
      s' = mkI (bs s) (notify (slp s)) (upd (wk s) k None) (org s) (dst s) (stp s) (IB (VRet k) :: INote k :: ih s)).
    { destruct (org s k); [injection E as <-; auto|]. destruct (loc (cx (bs s) c)); try discriminate; injection E as <-; auto. left. split; auto. discriminate. }
    clear E. destruct Y as [[NH ->]| ->].
    + assert (PW : forall d, rn (bs s) d -> pw s d -> pw (mkI (bs s) (slp s) (upd (wk s) k None) (org s) (dst s) (stp s) (IB (VRet k) :: ih s)) d).
      { intros d [L _] (k0&T). exists k0. cbn [bs wk]. destruct (Nat.eq_dec k0 k) as [->|N]; [|now rewrite upd_other].
        rewrite W, (v_wk _ _ V _ _ W) in T. destruct T as [T|T]; [discriminate|]. injection T as <-. congruence. }
      split; cbn [bs slp wk org dst stp ih]; try apply V.
      * intros k0 d X. unfold upd in X. destruct (k0 =? k); [discriminate|]. eapply v_wk; eauto.
      * intros k0 d X. destruct (AK [] k0 d X) as [Z Y]. cbn [app] in Z. rewrite Z. apply (v_at _ _ V _ _ Y).
      * intros i r X. destruct (v_sc _ _ V _ _ X) as [A B]. split; auto.
      * intros X d R. apply PW; auto. eapply v_dn; eauto.
      * intros [k0 [X|X]]; [discriminate|]. apply (v_st _ _ V). exists k0. auto.
    + split; cbn [bs slp wk org dst stp ih]; try apply V; try discriminate.
      * intros k0 d X. unfold upd in X. destruct (k0 =? k); [discriminate|]. eapply v_wk; eauto.
      * intros X. apply (v_scn _ _ V). destruct (slp s); simpl in *; congruence.
      * intros k0 d X. destruct (AK [INote k] k0 d X) as [Z Y]. cbn [app] in Z. rewrite Z. apply (v_at _ _ V _ _ Y).
      * intros i r X. unfold sfree in SF. destruct (slp s); discriminate.
      * intros X. destruct (slp s); discriminate.
      * intros X. destruct (slp s); discriminate.
      * intros [k0 [X|[X|X]]]; try discriminate. apply (v_st _ _ V). exists k0. auto.
  - (* Stop *)
    destruct (ag (bs s) k) eqn:A; try discriminate. destruct (wk s k) eqn:W; [discriminate|]. destruct (sfree s && negb (stp s k)) eqn:G; [|discriminate].
    injection E as <-. split; cbn [bs slp wk org dst stp ih]; try apply V; try discriminate; auto.
    + intros X _. exists k. now rewrite upd_same.
    + intros k0 X. cbn [stopping]. destruct (Nat.eqb_spec k0 k) as [->|N]; auto. rewrite upd_other in X by auto. apply (v_sk _ _ V _ X).
  - (* StopW *)
    destruct (stp s k && sfree s) eqn:G; [|discriminate]. apply andb_true_iff in G as [SK SF]. injection E as <-.
    split; cbn [bs slp wk org dst stp ih]; try apply V; try discriminate; auto.
    + intros X. apply (v_scn _ _ V). destruct (slp s); simpl in *; congruence.
    + intros i r X. unfold sfree in SF. destruct (slp s); discriminate.
    + intros X. destruct (slp s); discriminate.
    + intros X. destruct (slp s); discriminate.
    + intros [k0 [X|[X|X]]]; try discriminate. apply (v_st _ _ V). exists k0. auto.
    + intros k0 X. cbn [stopping]. destruct (Nat.eqb_spec k0 k) as [->|N]; [rewrite upd_same in X; discriminate|]. rewrite upd_other in X by auto. apply (v_sk _ _ V _ X).
Qed.

Lemma iinv_run : forall cfg ls s, run istep (iinit cfg) ls = Some s -> IInv cfg s.
Proof. intros cfg ls s R. refine (run_inv istep (IInv cfg) (iinit cfg) _ _ ls R); [apply iinv_init|]. intros. eapply iinv_step; eauto. Qed.

(** ** A thread of the program *)
Record NInv (s : nst) : Prop := {
  n_w : forall r, nwaits r (nh s) = existsb (Nat.eqb r) (nw s);
  n_f : nfl s = match nw s with [] => false | _ => true end;
  n_g : forall k, nag s k <> NNone -> giving k (nh s) = true;
  n_a : nasleep (nh s) = true -> nsl s = Down false;
  n_d : nsl s = Down false -> nfl s = false -> exists k, nag s k <> NNone
}.
Lemma ninv_init : NInv ninit.
Proof. split; simpl; auto; try discriminate; try congruence. Qed.

Lemma ninv_step : forall s l s', NInv s -> nstep s l = Some s' -> NInv s'.
Proof.
  intros s l s' V E. destruct l; unfold nstep in E.
  - destruct (nsl s) eqn:ES; try discriminate. injection E as <-. split; cbn [nw nfl nsl nag nh]; try apply V; try discriminate.
    + intros x. simpl. rewrite (n_w _ V). destruct (existsb (Nat.eqb r) (nw s)) eqn:X; simpl; auto.
      destruct (Nat.eqb_spec x r) as [->|]; auto.
    + destruct (existsb (Nat.eqb r) (nw s)) eqn:X; auto. destruct (nw s); [discriminate|auto].
    + intros X. apply (n_a _ V) in X. congruence.
  - destruct (nag s k) eqn:A; try discriminate. injection E as <-. split; cbn [nw nfl nsl nag nh]; try apply V.
    + intros x. simpl. rewrite (n_w _ V). clear. induction (nw s) as [|a l IH]; simpl; [now rewrite andb_false_r|].
      destruct (Nat.eqb_spec r a); simpl; rewrite <- IH; destruct (Nat.eqb_spec x a), (Nat.eqb_spec x r); simpl; auto; congruence.
    + rewrite (n_f _ V). destruct (filter _ _) eqn:F; auto. destruct (nw s); [discriminate|auto].
    + intros k0 X. simpl. destruct (Nat.eqb_spec k0 k) as [->|N]; auto. rewrite upd_other in X by auto. simpl. now apply V.
    + intros _ _. exists k. rewrite upd_same. discriminate.
  - destruct (nag s k) eqn:A; try discriminate. destruct (nfl s) eqn:F; injection E as <-; split; cbn [nw nfl nsl nag nh]; try apply V; try discriminate.
    + pose proof (n_f _ V); congruence.
    + intros k0 X. simpl. destruct (Nat.eqb_spec k0 k) as [->|N]; [now rewrite upd_same in X|]. rewrite upd_other in X by auto. now apply V.
    + pose proof (n_f _ V); congruence.
    + intros k0 X. destruct (Nat.eq_dec k0 k) as [->|N]; [apply V; congruence|]. rewrite upd_other in X by auto. now apply V.
    + intros _ _. exists k. rewrite upd_same. discriminate.
  - destruct (nag s k) eqn:A; try discriminate. assert (Y : s' = mkN (nw s) (nfl s) (notify (nsl s)) (upd (nag s) k NNone) (NRet k :: NNote k :: nh s)).
    { destruct (nsl s); try discriminate; now injection E as <-. }
    subst s'. split; cbn [nw nfl nsl nag nh]; try apply V; try discriminate.
    + intros k0 X. simpl. destruct (Nat.eqb_spec k0 k) as [->|N]; [now rewrite upd_same in X|]. rewrite upd_other in X by auto. now apply V.
    + intros X. destruct (nsl s); discriminate.
  - destruct (nsl s) eqn:ES; try discriminate. injection E as <-. split; cbn [nw nfl nsl nag nh]; try apply V; try discriminate.
    intros X. apply (n_a _ V) in X. congruence.
  - destruct (nsl s) eqn:ES; try discriminate. destruct (nfl s) eqn:F; injection E as <-; split; cbn [nw nfl nsl nag nh]; try apply V; try discriminate; auto.
    + pose proof (n_f _ V); congruence.
    + pose proof (n_f _ V); congruence.
    + intros X. apply (n_a _ V) in X. congruence.
  - destruct (nsl s) eqn:ES; try discriminate. injection E as <-. split; cbn [nw nfl nsl nag nh]; try apply V; try discriminate.
Qed.
Lemma ninv_run : forall ls s, run nstep ninit ls = Some s -> NInv s.
Proof. intros ls s R. refine (run_inv nstep NInv ninit _ _ ls R); [apply ninv_init|]. intros. eapply ninv_step; eauto. Qed.
