(** The scheduling decisions: the cached minimum, the scan, and the order within a priority. *)
From Coq Require Import List Arith Bool ZArith Lia.
From Verif Require Import Base SchedSpec SchedModel SchedProofs SchedHist.
Import ListNotations.

Lemma runnable_iff : forall cfg s c, SInv s -> HInv cfg s ->
  (runnable c (shi s) <-> loc (cx s c) = Here /\ can_schedule (cx s c) = true).
Proof.
  intros cfg s c HI HH. unfold runnable, can_schedule. rewrite (h_mem _ _ HH), (h_fin _ _ HH), (i_w _ HI). split.
  - intros (A&B&C). split; [destruct (loc (cx s c)); simpl in A; congruence|].
    assert (W : wset (cx s c) = []).
    { destruct (wset (cx s c)) as [|x l] eqn:W; auto. specialize (C x). rewrite (h_w _ _ HH), W in C. simpl in C.
      now rewrite Nat.eqb_refl in C. }
    rewrite W. destruct (stt (cx s c)); simpl in *; congruence.
  - intros [A B]. rewrite A. split; auto. split; [destruct (stt (cx s c)); simpl in *; congruence|].
    intros x. rewrite (h_w _ _ HH). destruct (wset (cx s c)); auto. destruct (stt (cx s c)); simpl in *; congruence.
Qed.

(** Some call that has made c runnable has still to lower the minimum for it. *)
Definition pend (s : sst) (c : nat) : Prop :=
  exists k, ag s k = AMoved c \/ ag s k = ALeft c \/ exists p, ag s k = AUpd p c /\ p <= pr (cx s c).

Record PInv (s : sst) : Prop := {
  p_min : forall c, loc (cx s c) = Here -> can_schedule (cx s c) = true -> pr (cx s c) < minp s -> pend s c;
  p_scn : forall i r c, scn s = Some (i, r) -> loc (cx s c) = Here -> can_schedule (cx s c) = true ->
    pr (cx s c) < i \/ (pr (cx s c) = i /\ ~ In c r) -> pend s c
}.

Lemma pend_busy : forall cfg s c, HInv cfg s -> pend s c -> busy c (shi s).
Proof.
  intros cfg s c HH (k&[A|[A|(p&A&_)]]); exists k; apply (h_ag _ _ HH); now rewrite A.
Qed.

(** A step that leaves a coroutine and the agents busy with it alone. *)
Lemma pend_frame : forall s s' c, pend s c -> pr (cx s' c) = pr (cx s c) ->
  (forall k, target (ag s k) = Some c -> ag s' k = ag s k) -> pend s' c.
Proof.
  intros s s' c (k&P) E A. exists k. rewrite E, A; auto. destruct P as [-> |[-> |(p&->&_)]]; auto.
Qed.

Lemma set_stt_cs : forall x t, t <> Fin -> can_schedule (set_stt x t) = can_schedule x.
Proof. intros x t H. unfold can_schedule, set_stt. destruct (stt x) eqn:E; simpl; rewrite ?E; auto; destruct t; congruence. Qed.

Lemma pinv_step : forall s l s', SInv s -> PInv s -> sstep_ok s l = Some s' -> PInv s'.
Proof.
  intros s l s' HI [P1 P2] E. destruct l.
  - (* SetEnv *)
    assert (X : (loc (cx s c) = Away \/ loc (cx s c) = Taken) /\ ag s k = ANone /\
      s' = setag (setcx s c (set_loc (cx s c) Coming)) k (ASet c)).
    { unfold sstep_ok, sstep in E. dm E; injection E as <-; auto. }
    clear E. destruct X as (L&A&->).
    assert (PF : forall d, d <> c -> pend s d -> pend (setag (setcx s c (set_loc (cx s c) Coming)) k (ASet c)) d).
    { intros d D H. eapply pend_frame; eauto; hs; [now rewrite upd_other|]. intros k' T. unfold upd. destruct (Nat.eqb_spec k' k); auto.
      subst. rewrite A in T. discriminate. }
    split; hs.
    + intros d. destruct (Nat.eq_dec d c) as [->|D]; [rewrite upd_same; discriminate|]. rewrite !upd_other by auto. auto.
    + intros i r d SC. destruct (Nat.eq_dec d c) as [->|D]; [rewrite upd_same; discriminate|]. rewrite !upd_other by auto. intros; apply PF; eauto.
  - (* Push *)
    unfold sstep_ok, sstep in E. destruct (ag s k) as [|c| | |] eqn:A; try discriminate. destruct (unlocked s) eqn:U; [|discriminate].
    injection E as <-. unfold unlocked in U. destruct (scn s) eqn:SC; [discriminate|]. split; hs; [|rewrite SC; discriminate].
    intros d. destruct (Nat.eq_dec d c) as [->|D].
    + intros _ _ _. exists k. hs. rewrite upd_same. auto.
    + rewrite !upd_other by auto. intros X Y Z. eapply pend_frame; [apply P1; eauto| |]; hs; [now rewrite upd_other|].
      intros k' T. unfold upd. destruct (Nat.eqb_spec k' k); auto. subst. rewrite A in T. discriminate.
  - (* Upd1 *)
    assert (X : exists c, (ag s k = AMoved c \/ ag s k = ALeft c) /\
      (s' = setag s k (AUpd (pr (cx s c)) c) \/
       ((wflag (cx s c) = true \/ loc (cx s c) = Away) /\ s' = log (VRet k) (setag s k ANone)))).
    { unfold sstep_ok, sstep in E. destruct (ag s k) as [| |c|c|] eqn:A; try discriminate; exists c.
      - dm E; injection E as <-; auto.
      - destruct (alive s c); [|discriminate]. destruct (wflag (cx s c)) eqn:W; simpl in E.
        + injection E as <-; auto.
        + destruct (loc (cx s c)) eqn:L; injection E as <-; auto. }
    clear E. destruct X as (c&A&[-> |(W&->)]).
    + assert (PF : forall d, pend s d -> pend (setag s k (AUpd (pr (cx s c)) c)) d).
      { intros d (k'&H). destruct (Nat.eq_dec k' k) as [->|N].
        - exists k. hs. rewrite upd_same. assert (d = c) by (destruct A as [A|A], H as [H|[H|(p&H&_)]]; congruence). subst d.
          right. right. eexists. split; eauto.
        - exists k'. hs. rewrite upd_other by auto. exact H. }
      split; hs; eauto.
    + assert (PF : forall d, loc (cx s d) = Here -> can_schedule (cx s d) = true -> pend s d -> pend (log (VRet k) (setag s k ANone)) d).
      { intros d L CS (k'&H). destruct (Nat.eq_dec k' k) as [->|N].
        - exfalso. assert (d = c) by (destruct A as [A|A], H as [H|[H|(p&H&_)]]; congruence). subst d.
          destruct W as [W|W]; [|congruence]. unfold can_schedule in CS. rewrite W in CS. destruct (stt (cx s c)); discriminate.
        - exists k'. hs. rewrite upd_other by auto. exact H. }
      split; hs; intros; apply PF; eauto.
  - (* Upd2 *)
    unfold sstep_ok, sstep in E. destruct (ag s k) as [| | | |p c] eqn:A; try discriminate. destruct (unlocked s) eqn:U; [|discriminate].
    injection E as <-. unfold unlocked in U. destruct (scn s) eqn:SC; [discriminate|]. split; hs; [|rewrite SC; discriminate].
    pose proof (lower_le (minp s) p) as [L1 L2].
    intros d L CS LT. destruct (P1 d L CS) as (k'&H); [lia|]. destruct (Nat.eq_dec k' k) as [->|N].
    + exfalso. destruct H as [H|[H|(q&H&Q)]]; rewrite A in H; try discriminate. injection H as <- <-. lia.
    + exists k'. hs. rewrite upd_other by auto. exact H.
  - (* Enter *)
    unfold sstep_ok, sstep in E. dm E; injection E as <-.
    assert (X : forall d, can_schedule (upd (cx s) c (enter_w (cx s c) r) d) = true -> d <> c).
    { intros d. destruct (Nat.eq_dec d c) as [->|]; auto. rewrite upd_same. unfold can_schedule. simpl. destruct (stt (cx s c)); discriminate. }
    split; hs.
    + intros d L CS. pose proof (X d CS). rewrite upd_other in * by auto. intros LT. eapply pend_frame; [apply P1; eauto| |]; hs; auto. now rewrite upd_other.
    + intros i q d SC L CS. pose proof (X d CS). rewrite upd_other in * by auto. intros LT. eapply pend_frame; [eapply P2; eauto| |]; hs; auto. now rewrite upd_other.
  - (* Leave *)
    unfold sstep_ok, sstep in E. destruct (ag s k) eqn:A; try discriminate. destruct (alive s c); [|discriminate]. injection E as <-.
    set (s1 := log _ _).
    assert (PC : pend s1 c) by (exists k; unfold s1; hs; rewrite upd_same; auto).
    assert (PF : forall d, d <> c -> pend s d -> pend s1 d).
    { intros d D H. eapply pend_frame; eauto; unfold s1; hs; [now rewrite upd_other|]. intros k' T. unfold upd. destruct (Nat.eqb_spec k' k); auto.
      subst. rewrite A in T. discriminate. }
    split; intros.
    + destruct (Nat.eq_dec c0 c) as [->|D]; auto. revert H H0 H1. unfold s1 at 1 2 3 4. hs. rewrite upd_other by auto. auto.
    + destruct (Nat.eq_dec c0 c) as [->|D]; auto. revert H H0 H1 H2. unfold s1 at 1 2 3 4 5. hs. rewrite upd_other by auto. eauto.
  - (* Prio *)
    unfold sstep_ok, sstep in E. destruct (alive s c && unlocked s) eqn:G; [|discriminate]. apply andb_true_iff in G as [_ U].
    destruct (Nat.eqb_spec (clamp z) (pr (cx s c))) as [|NE]; [injection E as <-; split; auto|].
    unfold unlocked in U. destruct (scn s) eqn:SC; [discriminate|].
    assert (X : exists q m, s' = mkS (upd (cx s) c (set_pr (cx s c) (clamp z))) q m (cur s) (count s) (scn s) (pnd s) (ag s)
                                     (VPrio c (clamp z) :: shi s) /\ m <= minp s /\ (loc (cx s c) = Here -> m <= clamp z)).
    { pose proof (lower_le (minp s) (clamp z)) as [? ?].
      dm E; injection E as <-; hs; do 2 eexists; (split; [reflexivity|]); split; auto; congruence. }
    destruct X as (q&m&->&M1&M2). clear E. split; hs; [|rewrite SC; discriminate].
    intros d. destruct (Nat.eq_dec d c) as [->|D].
    + rewrite upd_same. simpl. intros L _ LT. apply M2 in L. lia.
    + rewrite upd_other by auto. intros L CS LT. eapply pend_frame; [apply P1; auto; lia| |]; hs; auto. now rewrite upd_other.
  - (* Finish *)
    unfold sstep_ok, sstep in E. destruct (cur s) as [c|] eqn:C; [|discriminate]. destruct (stt (cx s c)) eqn:T; try discriminate.
    destruct (running s) eqn:R; [|discriminate]. injection E as <-.
    assert (X : forall d, can_schedule (upd (cx s) c (set_stt (cx s c) Fin) d) = true -> d <> c).
    { intros d. destruct (Nat.eq_dec d c) as [->|]; auto. rewrite upd_same. unfold can_schedule, set_stt. rewrite T. discriminate. }
    split; hs.
    + intros d L CS. pose proof (X d CS). rewrite upd_other in * by auto. intros LT. eapply pend_frame; [apply P1; eauto| |]; hs; auto. now rewrite upd_other.
    + intros i q d SC L CS. pose proof (X d CS). rewrite upd_other in * by auto. intros LT. eapply pend_frame; [eapply P2; eauto| |]; hs; auto. now rewrite upd_other.
  - (* Unlock *)
    unfold sstep_ok, sstep in E. dm E; injection E as <-.
    assert (F : forall d, let y := upd (cx s) c (unlock_d (cx s c)) d in loc y = loc (cx s d) /\ can_schedule y = can_schedule (cx s d) /\ pr y = pr (cx s d)).
    { intros d. cs; auto. }
    split; hs.
    + intros d. destruct (F d) as (->&->&->). intros. eapply pend_frame; [apply P1; eauto| |]; hs; auto. apply F.
    + intros i q d. destruct (F d) as (->&->&->). intros. eapply pend_frame; [eapply P2; eauto| |]; hs; auto. apply F.
  - (* PickB *)
    unfold sstep_ok, sstep in E. destruct (running s) eqn:R; [|discriminate]. injection E as <-. split; hs; [exact P1|].
    intros i r c X L CS [LT|[PE NI]]; injection X as <- <-; [now apply P1|].
    destruct NI. apply (i_q _ HI). auto.
  - (* PickS *)
    unfold sstep_ok, sstep in E. destruct (scn s) as [[i [|c r]]|] eqn:SC; [| |discriminate].
    + destruct (Nat.ltb_spec (S i) nprio) as [LT|GE]; injection E as <-.
      * split; hs; [exact P1|]. intros i' r c X L CS H. injection X as <- <-. apply (P2 i [] c eq_refl L CS).
        destruct H as [H|[H NI]].
        -- destruct (Nat.eq_dec (pr (cx s c)) i); [right; auto|left; lia].
        -- destruct NI. apply (i_q _ HI). auto.
      * split; hs; [exact P1|discriminate].
    + destruct (can_schedule (cx s c)) eqn:CS; injection E as <-.
      2:{ split; hs; [exact P1|]. intros i' r' d X L CD H. injection X as <- <-. apply (P2 i (c :: r) d eq_refl L CD).
          destruct H as [H|[H NI]]; auto. right. split; auto. simpl. intros [->|]; [congruence|auto]. }
      set (cx1 := match cur s with Some d => if d =? c then cx s else upd (cx s) d (set_stt (cx s d) Susp) | None => cx s end).
      assert (C2 : forall d, cx1 d = cx s d \/ cx1 d = set_stt (cx s d) Susp).
      { intros d. unfold cx1. destruct (cur s) as [e|]; auto. destruct (Nat.eqb_spec e c); auto. cs; auto. }
      assert (F1 : forall d, loc (cx1 d) = loc (cx s d) /\ can_schedule (cx1 d) = can_schedule (cx s d) /\ pr (cx1 d) = pr (cx s d)).
      { intros d. destruct (C2 d) as [-> | ->]; rewrite ?set_stt_loc, ?set_stt_pr, ?set_stt_cs; auto; discriminate. }
      assert (F : forall d, let y := upd cx1 c (set_stt (cx1 c) Runn) d in loc y = loc (cx s d) /\ can_schedule y = can_schedule (cx s d) /\ pr y = pr (cx s d)).
      { intros d. cs; rewrite ?set_stt_loc, ?set_stt_pr, ?set_stt_cs; try apply F1; discriminate. }
      split; hs; fold cx1; [|discriminate].
      intros d. destruct (F d) as (->&->&->). intros L CD LT. eapply pend_frame; [apply (P2 i (c :: r) d eq_refl L CD); auto| |]; hs; auto. apply F.
  - (* Mark *)
    unfold sstep_ok, sstep in E. destruct (pnd s) as [c|] eqn:PN; [|discriminate]. injection E as <-.
    assert (F : forall d, let y := upd (cx s) c (set_stt (cx s c) Susp) d in loc y = loc (cx s d) /\ can_schedule y = can_schedule (cx s d) /\ pr y = pr (cx s d)).
    { intros d. cs; rewrite ?set_stt_loc, ?set_stt_pr, ?set_stt_cs; auto; discriminate. }
    split; hs.
    + intros d. destruct (F d) as (->&->&->). intros. eapply pend_frame; [apply P1; eauto| |]; hs; auto. apply F.
    + intros i q d. destruct (F d) as (->&->&->). intros. eapply pend_frame; [eapply P2; eauto| |]; hs; auto. apply F.
  - (* Reap *)
    unfold sstep_ok, sstep in E. destruct (loc (cx s c)) eqn:L; try discriminate. destruct (stt (cx s c)) eqn:T; try discriminate.
    destruct (_ && _); [|discriminate]. injection E as <-. split; hs.
    + intros d. destruct (Nat.eq_dec d c) as [->|D]; [rewrite upd_same; discriminate|]. rewrite upd_other by auto. intros.
      eapply pend_frame; [apply P1; eauto| |]; hs; auto. now rewrite upd_other.
    + intros i q d SC. destruct (Nat.eq_dec d c) as [->|D]; [rewrite upd_same; discriminate|]. rewrite upd_other by auto. intros.
      eapply pend_frame; [eapply P2; eauto| |]; hs; auto. now rewrite upd_other.
  - (* Take *)
    unfold sstep_ok, sstep in E. destruct (unlocked s) eqn:U; [|discriminate].
    destruct (scan_mv _ _ _ _) as [[i c]|] eqn:SM; [|discriminate]. injection E as <-. split; hs.
    + intros d. destruct (Nat.eq_dec d c) as [->|D]; [rewrite upd_same; discriminate|]. rewrite upd_other by auto. intros.
      eapply pend_frame; [apply P1; eauto| |]; hs; auto. now rewrite upd_other.
    + intros j q d SC. destruct (Nat.eq_dec d c) as [->|D]; [rewrite upd_same; discriminate|]. rewrite upd_other by auto. intros.
      eapply pend_frame; [eapply P2; eauto| |]; hs; auto. now rewrite upd_other.
  - (* Depart *)
    unfold sstep_ok, sstep in E. destruct (loc (cx s c)) eqn:L; try discriminate. injection E as <-. split; hs.
    + intros d. destruct (Nat.eq_dec d c) as [->|D]; [rewrite upd_same; discriminate|]. rewrite upd_other by auto. intros.
      eapply pend_frame; [apply P1; eauto| |]; hs; auto. now rewrite upd_other.
    + intros j q d SC. destruct (Nat.eq_dec d c) as [->|D]; [rewrite upd_same; discriminate|]. rewrite upd_other by auto. intros.
      eapply pend_frame; [eapply P2; eauto| |]; hs; auto. now rewrite upd_other.
  - (* Other *)
    assert (X : loc (cx s c) = Away /\ exists H, s' = mkS (upd (cx s) c (set_stt (cx s c) t)) (qs s) (minp s) (cur s) (count s) (scn s) (pnd s) (ag s) H).
    { unfold sstep_ok, sstep in E. destruct (loc (cx s c)) eqn:L; try discriminate. split; auto. destruct (stt (cx s c)) eqn:T; try discriminate;
      injection E as <-; destruct t; hs; eexists; reflexivity. }
    destruct X as (L&H0&->).
    split; hs.
    + intros d. destruct (Nat.eq_dec d c) as [->|D]; [rewrite upd_same, set_stt_loc; congruence|]. rewrite upd_other by auto. intros.
      eapply pend_frame; [apply P1; eauto| |]; hs; auto. now rewrite upd_other.
    + intros j q d SC. destruct (Nat.eq_dec d c) as [->|D]; [rewrite upd_same, set_stt_loc; congruence|]. rewrite upd_other by auto. intros.
      eapply pend_frame; [eapply P2; eauto| |]; hs; auto. now rewrite upd_other.
Qed.

Lemma pinv_run : forall cfg ls s, run sstep_ok (sinit cfg) ls = Some s -> SInv s /\ HInv cfg s /\ PInv s.
Proof.
  intros cfg ls s R. apply (@run_inv _ _ sstep_ok (fun s => SInv s /\ HInv cfg s /\ PInv s) (sinit cfg)) with (ls := ls); auto.
  - split; [apply sinv_init|]. split; [apply hinv_init|]. split; unfold sinit; hs; [intros; lia|discriminate].
  - intros s0 l s1 (A&B&C) E. split; [eapply sinv_step|]; eauto. split; [eapply hinv_step|eapply pinv_step]; eauto.
Qed.

(** The history of a prefix of a run. *)
Lemma hist_prefix : forall cfg ls s, run sstep_ok (sinit cfg) ls = Some s -> forall post e pre, shi s = post ++ e :: pre ->
  exists ls1 l ls2 s1 s2, ls = ls1 ++ l :: ls2 /\ run sstep_ok (sinit cfg) ls1 = Some s1 /\ sstep_ok s1 l = Some s2 /\
    shi s1 = pre /\ shi s2 = e :: pre.
Proof.
  intros cfg ls. induction ls as [|l ls IH] using rev_ind; intros s R post e pre E.
  - injection R as <-. now destruct post.
  - rewrite run_app in R. destruct (run sstep_ok (sinit cfg) ls) as [s0|] eqn:E0; [|discriminate]. simpl in R.
    destruct (sstep_ok s0 l) as [s1|] eqn:E1; [|discriminate]. injection R as <-.
    assert (Y : shi s1 = shi s0 \/ exists f, shi s1 = f :: shi s0).
    { clear -E1. unfold sstep_ok, sstep in E1. destruct l; dm E1; injection E1 as <-; hs; eauto. }
    destruct Y as [Y|[f Y]]; rewrite Y in E.
    + destruct (IH s0 eq_refl _ _ _ E) as (a&b&c&d&f&->&X). exists a, b, (c ++ [l]), d, f. split; auto. now rewrite <- app_assoc.
    + apply scons_split in E as [(->&->&E)|(post'&->&E)].
      * exists ls, l, [], s0, s1. repeat split; auto. now rewrite Y, E.
      * destruct (IH s0 eq_refl _ _ _ E) as (a&b&c&d&g&->&X). exists a, b, (c ++ [l]), d, g. split; auto. now rewrite <- app_assoc.
Qed.

(** Which step makes which event. *)
Lemma ev_pick_some : forall s l s' c, sstep_ok s l = Some s' -> shi s' = VPick (Some c) :: shi s ->
  exists i r, scn s = Some (i, c :: r) /\ can_schedule (cx s c) = true.
Proof.
  intros s l s' c E H. unfold sstep_ok, sstep in E. destruct l; dm E; injection E as <-; cbn [shi setag setcx setq setmin setscn log do_pick do_idle] in H;
  try (apply (f_equal (@length sev)) in H; simpl in H; lia); try discriminate.
  injection H as <-. eauto.
Qed.
Lemma ev_pick_none : forall s l s', sstep_ok s l = Some s' -> shi s' = VPick None :: shi s ->
  exists i, scn s = Some (i, []) /\ ~ S i < nprio.
Proof.
  intros s l s' E H. unfold sstep_ok, sstep in E. destruct l; dm E; injection E as <-; cbn [shi setag setcx setq setmin setscn log do_pick do_idle] in H;
  try (apply (f_equal (@length sev)) in H; simpl in H; lia); try discriminate.
  eexists. split; eauto. now apply Nat.ltb_nlt.
Qed.
