(** The run queues and their history: what is in the queues is what the history says; decisions follow the priorities. *)
From Coq Require Import List Arith Bool ZArith Lia.
From Verif Require Import Base SchedSpec SchedModel SchedProofs.
Import ListNotations.

Lemma scons_split : forall (e : sev) H post f pre, e :: H = post ++ f :: pre ->
  (post = [] /\ e = f /\ H = pre) \/ (exists post', post = e :: post' /\ H = post' ++ f :: pre).
Proof. intros e H [|a post] f pre E; injection E as -> ->; eauto. Qed.

Definition isHere (x : place) : bool := match x with Here => true | _ => false end.
Definition isFin (x : cstate) : bool := match x with Fin => true | _ => false end.
(** The coroutine call k is at work on. *)
Definition target (a : apc) : option nat := match a with AMoved c | ALeft c | AUpd _ c => Some c | _ => None end.

Record HInv (cfg : nat -> Z * bool * bool * bool) (s : sst) : Prop := {
  h_mem : forall c, member c (shi s) = isHere (loc (cx s c));
  h_pr : forall c, loc (cx s c) = Here -> hprio c (shi s) = pr (cx s c);
  h_w : forall c x, waits c x (shi s) = existsb (Nat.eqb x) (wset (cx s c));
  h_fin : forall c, finished c (shi s) = isFin (stt (cx s c));
  h_ag : forall k c, target (ag s k) = Some c -> at_work k c (shi s) = true;
  h_cur : current (shi s) = cur s;
  h_cfg : forall c, bnd (cx s c) = snd (fst (cfg c)) /\ shr (cx s c) = snd (cfg c);
  h_lck : forall c, lockd (cx s c) = false -> snd (fst (fst (cfg c))) = false \/ In (VDet c) (shi s);
  h_dead : forall c, loc (cx s c) = Dead <-> In (VReap c) (shi s)
}.

Lemma wset_enter : forall x r y, existsb (Nat.eqb y) (wset (enter_w x r)) = (y =? r) || existsb (Nat.eqb y) (wset x).
Proof.
  intros x r y. simpl. destruct (existsb (Nat.eqb r) (wset x)) eqn:E; simpl; auto.
  destruct (Nat.eqb_spec y r) as [->|]; auto.
Qed.
Lemma wset_leave : forall x r y, existsb (Nat.eqb y) (wset (leave_w x r)) = negb (y =? r) && existsb (Nat.eqb y) (wset x).
Proof.
  intros x r y. simpl. induction (wset x) as [|a l IH]; simpl; [now rewrite andb_false_r|].
  destruct (Nat.eqb_spec r a); simpl; rewrite IH; destruct (Nat.eqb_spec y a), (Nat.eqb_spec y r); simpl; auto; congruence.
Qed.

Lemma hinv_init : forall cfg, HInv cfg (sinit cfg).
Proof.
  intros cfg. split; unfold sinit; cbn [cx qs minp cur count scn pnd ag shi]; try discriminate; auto;
  intros c; try (unfold fresh_cx; destruct (cfg c) as [[[z l] b] h]; simpl; auto; fail).
  - unfold fresh_cx. destruct (cfg c) as [[[z l] b] h]. discriminate.
  - unfold fresh_cx. destruct (cfg c) as [[[z l] b] h]. simpl. split; [discriminate|tauto].
Qed.

Ltac hs := cbn [cx qs minp cur count scn pnd ag shi setag setcx setq setmin setscn log do_pick do_idle
  member hprio waits finished at_work current].

(** Steps that only change agents, the minimum or the scan. *)
Lemma hinv_ag : forall cfg s k a, HInv cfg s -> (forall c, target a = Some c -> at_work k c (shi s) = true) -> HInv cfg (setag s k a).
Proof. intros cfg s k a [] T. split; hs; auto. intros k' c. cs; auto. Qed.
Lemma hinv_ret : forall cfg s k, HInv cfg s -> target (ag s k) = None -> HInv cfg (log (VRet k) s).
Proof.
  intros cfg s k [] T. split; hs; auto.
  - intros k' c H. destruct (Nat.eqb_spec k' k) as [->|]; [congruence|auto].
  - intros c H. destruct (h_lck0 c H); auto. right. now right.
  - intros c. rewrite h_dead0. simpl. intuition congruence.
Qed.

Lemma hinv_step : forall cfg s l s', SInv s -> HInv cfg s -> sstep_ok s l = Some s' -> HInv cfg s'.
Proof.
  intros cfg s l s' HI HH E. destruct l.
  - (* SetEnv *)
    assert (X : (loc (cx s c) = Away \/ loc (cx s c) = Taken) /\ stt (cx s c) = Susp /\ ag s k = ANone /\
      s' = setag (setcx s c (set_loc (cx s c) Coming)) k (ASet c)).
    { unfold sstep_ok, sstep in E. dm E; injection E as <-; auto. }
    clear E. destruct X as (L&T&A&->). apply hinv_ag; [|discriminate]. destruct HH. split; hs; auto.
    + intros d. rewrite h_mem0. cs; auto. destruct L as [-> | ->]; auto.
    + intros d. cs; auto; discriminate.
    + intros d x. rewrite h_w0. cs; auto.
    + intros d. rewrite h_fin0. cs; auto.
    + intros d. cs; auto.
    + intros d. cs; auto.
    + intros d. rewrite <- h_dead0. cs; [|tauto]. destruct L; split; congruence.
  - (* Push *)
    unfold sstep_ok, sstep in E. destruct (ag s k) as [|c| | |] eqn:A; try discriminate. destruct (unlocked s) eqn:U; [|discriminate].
    injection E as <-. pose proof (i_set _ HI _ _ A) as L. destruct HH. split; hs.
    + intros d. rewrite h_mem0. cs; auto.
    + intros d. cs; auto.
    + intros d x. rewrite h_w0. cs; auto.
    + intros d. rewrite h_fin0. cs; auto.
    + intros k' d. destruct (Nat.eqb_spec k' k) as [->|N]; [rewrite upd_same|rewrite upd_other; auto]. simpl. intros X. injection X as <-.
      apply Nat.eqb_refl.
    + auto.
    + intros d. cs; auto.
    + intros d H. assert (Y : lockd (cx s d) = false) by (cs; auto). destruct (h_lck0 d Y); auto. right. now right.
    + intros d. simpl. rewrite <- h_dead0. cs; [|intuition congruence]. split; [discriminate|intros [|]; congruence].
  - (* Upd1 *)
    unfold sstep_ok, sstep in E. destruct (ag s k) as [| |c|c|] eqn:A; try discriminate.
    + destruct (alive s c); [|discriminate]. injection E as <-. apply hinv_ag; auto. intros d D. apply (h_ag _ _ HH). now rewrite A.
    + destruct (alive s c); [|discriminate]. destruct (_ || _); injection E as <-.
      * apply hinv_ret; [apply hinv_ag; auto; discriminate|]. hs. now rewrite upd_same.
      * apply hinv_ag; auto. intros d D. apply (h_ag _ _ HH). now rewrite A.
  - (* Upd2 *)
    unfold sstep_ok, sstep in E. dm E; injection E as <-. apply hinv_ret; [|hs; now rewrite upd_same]. apply hinv_ag; [|discriminate].
    destruct HH. split; hs; auto.
  - (* Enter *)
    unfold sstep_ok, sstep in E. dm E; injection E as <-. destruct HH. split; hs; auto.
    + intros d. rewrite h_mem0. cs; auto.
    + intros d. cs; auto.
    + intros d x. rewrite h_w0. unfold upd. destruct (Nat.eqb_spec d c) as [->|]; [rewrite wset_enter|]; simpl; auto.
    + intros d. rewrite h_fin0. cs; auto.
    + intros d. cs; auto.
    + intros d H. assert (Y : lockd (cx s d) = false) by (cs; auto). destruct (h_lck0 d Y); auto. right. now right.
    + intros d. simpl. rewrite <- h_dead0. cs; intuition congruence.
  - (* Leave *)
    unfold sstep_ok, sstep in E. dm E; injection E as <-. destruct HH. split; hs.
    + intros d. rewrite h_mem0. cs; auto.
    + intros d. cs; auto.
    + intros d x. rewrite h_w0. unfold upd. destruct (Nat.eqb_spec d c) as [->|]; [rewrite wset_leave|]; simpl; auto.
    + intros d. rewrite h_fin0. cs; auto.
    + intros k' d. destruct (Nat.eqb_spec k' k) as [->|N]; [rewrite upd_same|rewrite upd_other; auto]. simpl. intros X. injection X as <-.
      apply Nat.eqb_refl.
    + auto.
    + intros d. cs; auto.
    + intros d H. assert (Y : lockd (cx s d) = false) by (cs; auto). destruct (h_lck0 d Y); auto. right. now right.
    + intros d. simpl. rewrite <- h_dead0. cs; intuition congruence.
  - (* Prio *)
    unfold sstep_ok, sstep in E. destruct (alive s c && unlocked s) eqn:G; [|discriminate].
    destruct (Nat.eqb_spec (clamp z) (pr (cx s c))) as [|NE]; [injection E as <-; auto|].
    assert (X : exists q m, s' = mkS (upd (cx s) c (set_pr (cx s c) (clamp z))) q m (cur s) (count s) (scn s) (pnd s) (ag s)
                                     (VPrio c (clamp z) :: shi s)).
    { dm E; injection E as <-; hs; do 2 eexists; reflexivity. }
    destruct X as (q&m&->). clear E. destruct HH. split; hs; auto.
    + intros d. rewrite h_mem0. cs; auto.
    + intros d. cs; auto.
    + intros d x. rewrite h_w0. cs; auto.
    + intros d. rewrite h_fin0. cs; auto.
    + intros d. cs; auto.
    + intros d H. assert (Y : lockd (cx s d) = false) by (cs; auto). destruct (h_lck0 d Y); auto. right. now right.
    + intros d. simpl. rewrite <- h_dead0. cs; intuition congruence.
  - (* Finish *)
    unfold sstep_ok, sstep in E. destruct (cur s) as [c|] eqn:C; [|discriminate]. destruct (stt (cx s c)) eqn:T; try discriminate.
    destruct (running s) eqn:R; [|discriminate]. injection E as <-. destruct HH. split; hs; auto.
    + intros d. rewrite h_mem0. cs; rewrite ?set_stt_loc; auto.
    + intros d. cs; rewrite ?set_stt_loc, ?set_stt_pr; auto.
    + intros d x. rewrite h_w0. cs; rewrite ?set_stt_wset; auto.
    + intros d. rewrite h_fin0. cs; auto. unfold set_stt. now rewrite T.
    + intros d. cs; auto. unfold set_stt. rewrite T. simpl. auto.
    + intros d H. assert (Y : lockd (cx s d) = false) by (cs; auto; unfold set_stt in H; rewrite T in H; auto). destruct (h_lck0 d Y); auto. right. now right.
    + intros d. simpl. rewrite <- h_dead0. cs; rewrite ?set_stt_loc; intuition congruence.
  - (* Unlock *)
    unfold sstep_ok, sstep in E. dm E; injection E as <-. destruct HH. split; hs; auto.
    + intros d. rewrite h_mem0. cs; auto.
    + intros d. cs; auto.
    + intros d x. rewrite h_w0. cs; auto.
    + intros d. rewrite h_fin0. cs; auto.
    + intros d. cs; auto.
    + intros d H. simpl. destruct (Nat.eq_dec d c) as [->|N]; auto. assert (Y : lockd (cx s d) = false) by (cs; auto; congruence).
      destruct (h_lck0 d Y); auto.
    + intros d. simpl. rewrite <- h_dead0. cs; intuition congruence.
  - (* PickB *)
    unfold sstep_ok, sstep in E. dm E; injection E as <-. destruct HH. split; hs; auto.
  - (* PickS *)
    unfold sstep_ok, sstep in E. destruct (scn s) as [[i [|c r]]|] eqn:SC; [| |discriminate].
    + destruct (S i <? nprio); injection E as <-; destruct HH; split; hs; auto.
      * intros d H. destruct (h_lck0 d H); auto. right. now right.
      * intros d. simpl. rewrite <- h_dead0. intuition congruence.
    + destruct (can_schedule (cx s c)) eqn:CS; injection E as <-; [|destruct HH; split; hs; auto].
      assert (T : stt (cx s c) <> Fin) by (unfold can_schedule in CS; destruct (stt (cx s c)); congruence).
      set (cx1 := match cur s with Some d => if d =? c then cx s else upd (cx s) d (set_stt (cx s d) Susp) | None => cx s end).
      assert (C1 : cx1 c = cx s c).
      { unfold cx1. destruct (cur s) as [d|]; auto. destruct (Nat.eqb_spec d c); auto. rewrite upd_other; auto. }
      assert (C2 : forall d, cx1 d = cx s d \/ cx1 d = set_stt (cx s d) Susp).
      { intros d. unfold cx1. destruct (cur s) as [e|]; auto. destruct (Nat.eqb_spec e c); auto. cs; auto. }
      assert (F1 : forall x t, t <> Fin -> isFin (stt (set_stt x t)) = isFin (stt x) /\ pr (set_stt x t) = pr x /\ loc (set_stt x t) = loc x /\
         wset (set_stt x t) = wset x /\ bnd (set_stt x t) = bnd x /\ shr (set_stt x t) = shr x /\ lockd (set_stt x t) = lockd x).
      { intros x t Ht. unfold set_stt. destruct (stt x) eqn:Ex; simpl; rewrite ?Ex; repeat split; auto; destruct t; simpl; congruence. }
      assert (F : forall d, let y := upd cx1 c (set_stt (cx1 c) Runn) d in isFin (stt y) = isFin (stt (cx s d)) /\ pr y = pr (cx s d) /\ loc y = loc (cx s d) /\
         wset y = wset (cx s d) /\ bnd y = bnd (cx s d) /\ shr y = shr (cx s d) /\ lockd y = lockd (cx s d)).
      { intros d. cs; [rewrite C1; apply F1; discriminate|]. destruct (C2 d) as [-> | ->]; [repeat split; auto|apply F1; discriminate]. }
      destruct HH. split; hs; fold cx1; auto.
      * intros d. destruct (F d) as (_&_&->&_). auto.
      * intros d. destruct (F d) as (_&->&->&_). auto.
      * intros d. destruct (F d) as (_&_&_&->&_). auto.
      * intros d. destruct (F d) as (->&_). auto.
      * intros d. destruct (F d) as (_&_&_&_&->&->&_). auto.
      * intros d. destruct (F d) as (_&_&_&_&_&_&->). intros H. destruct (h_lck0 d H); auto. right. now right.
      * intros d. destruct (F d) as (_&_&->&_). simpl. rewrite <- h_dead0. intuition congruence.
  - (* Mark *)
    unfold sstep_ok, sstep in E. destruct (pnd s) as [c|] eqn:PN; [|discriminate]. injection E as <-. destruct HH. split; hs; auto.
    + intros d. rewrite h_mem0. cs; rewrite ?set_stt_loc; auto.
    + intros d. cs; rewrite ?set_stt_loc, ?set_stt_pr; auto.
    + intros d x. rewrite h_w0. cs; rewrite ?set_stt_wset; auto.
    + intros d. rewrite h_fin0. cs; auto. unfold set_stt. destruct (stt (cx s c)) eqn:T; rewrite ?T; auto.
    + intros d. cs; auto. unfold set_stt. destruct (stt (cx s c)); simpl; auto.
    + intros d H. apply h_lck0. cs; auto. unfold set_stt in H. destruct (stt (cx s c)); auto.
    + intros d. simpl. rewrite <- h_dead0. cs; rewrite ?set_stt_loc; intuition congruence.
  - (* Reap *)
    unfold sstep_ok, sstep in E. destruct (loc (cx s c)) eqn:L; try discriminate. destruct (stt (cx s c)) eqn:T; try discriminate.
    destruct (_ && _); [|discriminate]. injection E as <-. destruct HH. split; hs; auto.
    + intros d. rewrite h_mem0. cs; auto. 
    + intros d. cs; auto; discriminate.
    + intros d x. rewrite h_w0. cs; auto.
    + intros d. rewrite h_fin0. cs; auto.
    + intros d. cs; auto.
    + intros d H. assert (Y : lockd (cx s d) = false) by (cs; auto). destruct (h_lck0 d Y); auto. right. now right.
    + intros d. simpl. rewrite <- h_dead0. cs; intuition congruence.
  - (* Take *)
    unfold sstep_ok, sstep in E. destruct (unlocked s) eqn:U; [|discriminate].
    destruct (scan_mv _ _ _ _) as [[i c]|] eqn:SM; [|discriminate]. injection E as <-.
    apply scan_mv_some in SM as (A&B&Q&CM). destruct (proj1 (i_q _ HI _ _) Q) as [L P]. destruct HH. split; hs; auto.
    + intros d. rewrite h_mem0. cs; auto.
    + intros d. cs; auto; discriminate.
    + intros d x. rewrite h_w0. cs; auto.
    + intros d. rewrite h_fin0. cs; auto.
    + intros d. cs; auto.
    + intros d H. assert (Y : lockd (cx s d) = false) by (cs; auto). destruct (h_lck0 d Y); auto. right. now right.
    + intros d. simpl. rewrite <- h_dead0. cs; intuition congruence.
  - (* Depart *)
    unfold sstep_ok, sstep in E. destruct (loc (cx s c)) eqn:L; try discriminate. injection E as <-. destruct HH. split; hs; auto.
    + intros d. rewrite h_mem0. cs; auto. now rewrite L.
    + intros d. cs; auto; discriminate.
    + intros d x. rewrite h_w0. cs; auto.
    + intros d. rewrite h_fin0. cs; auto.
    + intros d. cs; auto.
    + intros d H. apply h_lck0. cs; auto.
    + intros d. simpl. rewrite <- h_dead0. cs; intuition congruence.
  - (* Other *)
    assert (X : loc (cx s c) = Away /\ stt (cx s c) <> Fin /\ exists s1, s1 = setcx s c (set_stt (cx s c) t) /\
      ((t <> Fin /\ s' = s1) \/ (t = Fin /\ s' = log (VFin c) s1))).
    { unfold sstep_ok, sstep in E. destruct (loc (cx s c)) eqn:L; try discriminate. destruct (stt (cx s c)); try discriminate;
      injection E as <-; (split; auto; split; [discriminate|]; eexists; split; eauto; destruct t; auto; left; split; auto; discriminate). }
    destruct X as (L&NF&s1&->&X). destruct HH. pose proof (set_stt_fin (cx s c) t NF) as ST.
    assert (Lk : lockd (set_stt (cx s c) t) = lockd (cx s c)) by (unfold set_stt; now destruct (stt (cx s c))).
    assert (Bn : bnd (set_stt (cx s c) t) = bnd (cx s c) /\ shr (set_stt (cx s c) t) = shr (cx s c)) by (unfold set_stt; now destruct (stt (cx s c))).
    destruct X as [(NT&->)|(->&->)]; split; hs; auto.
    + intros d. rewrite h_mem0. cs; rewrite ?set_stt_loc; auto.
    + intros d. cs; rewrite ?set_stt_loc, ?set_stt_pr; auto.
    + intros d x. rewrite h_w0. cs; rewrite ?set_stt_wset; auto.
    + intros d. rewrite h_fin0. cs; auto. rewrite ST. destruct (stt (cx s c)), t; auto; congruence.
    + intros d. cs; auto. destruct Bn as [-> ->]; auto.
    + intros d H. apply h_lck0. cs; auto. congruence.
    + intros d. simpl. rewrite <- h_dead0. cs; rewrite ?set_stt_loc; intuition congruence.
    + intros d. rewrite h_mem0. cs; rewrite ?set_stt_loc; auto.
    + intros d. cs; rewrite ?set_stt_loc, ?set_stt_pr; auto.
    + intros d x. rewrite h_w0. cs; rewrite ?set_stt_wset; auto.
    + intros d. rewrite h_fin0. cs; auto. now rewrite ST.
    + intros d. cs; auto. destruct Bn as [-> ->]; auto.
    + intros d H. assert (Y : lockd (cx s d) = false) by (cs; auto; congruence). destruct (h_lck0 d Y); auto. right. now right.
    + intros d. simpl. rewrite <- h_dead0. cs; rewrite ?set_stt_loc; intuition congruence.
Qed.

Lemma hinv_run : forall cfg ls s, run sstep_ok (sinit cfg) ls = Some s -> SInv s /\ HInv cfg s.
Proof.
  intros cfg ls s R. apply (@run_inv _ _ sstep_ok (fun s => SInv s /\ HInv cfg s) (sinit cfg)) with (ls := ls); auto.
  - split; [apply sinv_init|apply hinv_init].
  - intros s0 l s1 [A B] E. split; [eapply sinv_step|eapply hinv_step]; eauto.
Qed.
