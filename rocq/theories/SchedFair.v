(** A coroutine that stays runnable: its place in the queue only gets better, and with each decision that is not in favour of a higher priority it does. *)
From Coq Require Import List Arith Bool ZArith Lia.
From Verif Require Import Base SchedSpec SchedModel SchedProofs SchedHist SchedPick FairSpec.
Import ListNotations.

Fixpoint ahead (d : nat) (q : list nat) : nat := match q with [] => 0 | x :: r => if x =? d then 0 else S (ahead d r) end.
Lemma ahead_app : forall d q l, In d q -> ahead d (q ++ l) = ahead d q.
Proof.
  intros d q l. induction q as [|x q IH]; [intros []|]. intros H. simpl. destruct (Nat.eqb_spec x d); auto. destruct H; [contradiction|]. now rewrite IH.
Qed.
Lemma ahead_skip : forall d l r, ~ In d l -> ahead d (l ++ r) = length l + ahead d r.
Proof. intros d l r. induction l as [|x l IH]; intros N; simpl; auto. destruct (Nat.eqb_spec x d) as [->|]; [destruct N; now left|]. rewrite IH; auto. intros H. apply N. now right. Qed.
Lemma ahead_rm : forall d c q, c <> d -> ahead d (rm c q) <= ahead d q.
Proof.
  intros d c q N. induction q as [|x q IH]; simpl; auto. destruct (Nat.eqb_spec c x) as [->|]; simpl.
  - destruct (Nat.eqb_spec x d); [contradiction|]. lia.
  - destruct (x =? d); lia.
Qed.
Lemma rm_mid : forall x l r, NoDup (l ++ x :: r) -> rm x (l ++ x :: r) = l ++ r.
Proof.
  intros x l r H. apply NoDup_remove_2 in H. unfold rm. rewrite filter_app. simpl. rewrite Nat.eqb_refl. simpl.
  fold (rm x l) (rm x r). rewrite !rm_notin; auto; intros X; apply H; apply in_or_app; auto.
Qed.
Lemma ahead_pick : forall d x l r, NoDup (l ++ x :: r) -> x <> d -> In d r -> ahead d (rm x (l ++ x :: r) ++ [x]) < ahead d (l ++ x :: r).
Proof.
  intros d x l r ND N I. rewrite rm_mid by auto. assert (Nl : ~ In d l).
  { intros X. apply in_split in X as (l1&l2&->). apply in_split in I as (r1&r2&->). rewrite <- app_assoc in ND. simpl in ND. apply NoDup_remove_2 in ND.
    apply ND. apply in_or_app. right. apply in_or_app. right. right. apply in_or_app. right. now left. }
  rewrite ahead_app by (apply in_or_app; now right). rewrite !ahead_skip by auto. simpl. destruct (Nat.eqb_spec x d); [contradiction|]. lia.
Qed.

Section One.
  Variables (cfg : nat -> Z * bool * bool * bool) (d p : nat).
  (** The coroutine can be picked at priority p; and the next decision takes it into account. *)
  Definition up (s : sst) : Prop := loc (cx s d) = Here /\ can_schedule (cx s d) = true /\ pr (cx s d) = p.
  Definition good (s : sst) : Prop := minp s <= p /\ forall i r, scn s = Some (i, r) -> i < p \/ i = p /\ In d r.
  Definition pos (s : sst) : nat := ahead d (qs s p).
  Definition decides (s s' : sst) (o : option nat) : Prop := shi s' = VPick o :: shi s.

  Lemma good_or_pend : forall s, PInv s -> up s -> good s \/ pend s d.
  Proof.
    intros s [P1 P2] (L&C&E). destruct (le_lt_dec (minp s) p) as [LE|LT]; [|right; apply P1; auto; lia].
    destruct (scn s) as [(i, r)|] eqn:SC; [|left; split; auto; intros i r H; congruence].
    destruct (lt_eq_lt_dec p i) as [[H|H]|H].
    - right. apply (P2 i r); auto. left. lia.
    - destruct (in_dec Nat.eq_dec d r) as [I|I]; [left; split; auto; intros i' r' X; rewrite SC in X; injection X as <- <-; auto|right; apply (P2 i r); auto; right; split; auto; lia].
    - left. split; auto. intros i' r' X. rewrite SC in X. injection X as <- <-. auto.
  Qed.

  Lemma cons_neq : forall (e : sev) h, h <> e :: h.
  Proof. intros e h E. apply (f_equal (@length _)) in E. simpl in E. lia. Qed.

  (** What a step does. *)
  Lemma good_step : forall s l s', SInv s -> HInv cfg s -> up s -> good s -> sstep_ok s l = Some s' -> up s' ->
    decides s s' (Some d) \/
    (good s' /\ pos s' <= pos s /\ forall o, decides s s' o -> exists x, o = Some x /\ (hprio x (shi s) < p \/ hprio x (shi s) = p /\ pos s' < pos s)).
  Proof.
    intros s l s' HI HH (L&C&E) (G1&G2) H (L'&C'&E').
    assert (Iq : In d (qs s p)) by (apply (i_q _ HI); auto).
    assert (Nd : forall o, shi s' <> VPick o :: shi s -> decides s s' o -> False) by (intros o X Y; contradiction).
    assert (Pp : p < nprio) by (rewrite <- E; apply (i_pr _ HI)).
    assert (K : forall c, d <> c -> forall x, In x (rm c (qs s p)) <-> In x (qs s p) /\ x <> c) by (intros; apply in_rm).
    unfold sstep_ok, sstep in H. destruct l.
    - dm H; injection H as <-; right; (split; [split; auto|split; [auto|intros o D; exfalso; exact (cons_neq _ _ D)]]).
    - destruct (ag s k) as [|c| | |] eqn:A; try discriminate. destruct (unlocked s) eqn:U; [|discriminate]. injection H as <-. right. split; [split; auto|].
      split; [|intros o D; discriminate]. unfold pos, log, setag, setcx, setq; cbn [qs]. unfold upd at 1. destruct (Nat.eqb_spec p (pr (cx s c))) as [Ep|]; auto. rewrite <- Ep. rewrite ahead_app; auto.
    - destruct (ag s k) as [| |c|c|] eqn:A; try discriminate; (destruct (alive s c); [|discriminate]).
      + injection H as <-. right. split; [split; auto|]. split; auto. intros o D. exfalso; exact (cons_neq _ _ D).
      + dm H; injection H as <-; right; (split; [split; auto|split; [auto|intros o D; first [discriminate D|exfalso; exact (cons_neq _ _ D)]]]).
    - destruct (ag s k) as [| | | |q c] eqn:A; try discriminate. destruct (unlocked s); [|discriminate]. injection H as <-. right. split; [split; auto|].
      + unfold log, setag, setmin; cbn [minp]. pose proof (lower_le (minp s) q). lia.
      + split; auto. intros o D. discriminate.
    - destruct (alive s c); [|discriminate]. injection H as <-. right. split; [split; auto|]. split; auto. intros o D. discriminate.
    - destruct (ag s k); try discriminate. destruct (alive s c); [|discriminate]. injection H as <-. right. split; [split; auto|]. split; auto. intros o D. discriminate.
    - destruct (alive s c && unlocked s) eqn:U; [|discriminate]. destruct (clamp z =? pr (cx s c)) eqn:Z0; [injection H as <-; right; split; [split; auto|split; auto; intros o D; exfalso; exact (cons_neq _ _ D)]|].
      apply Nat.eqb_neq in Z0.
      assert (Y : existsb (Nat.eqb c) (qs s (pr (cx s c))) = true -> s' = log (VPrio c (clamp z)) (setmin (setcx (setq (setq s (pr (cx s c)) (rm c (qs s (pr (cx s c)))) (count s)) (clamp z) (qs (setq s (pr (cx s c)) (rm c (qs s (pr (cx s c)))) (count s)) (clamp z) ++ [c]) (count s)) c (set_pr (cx s c) (clamp z))) (lower (minp s) (clamp z))) ->
                good s' /\ pos s' <= pos s /\ forall o, decides s s' o -> exists x, o = Some x /\ (hprio x (shi s) < p \/ hprio x (shi s) = p /\ pos s' < pos s)).
      { intros _ ->. assert (Nc : c <> d).
        { intros ->. unfold log, setmin, setcx in E'. cbn [cx] in E'. rewrite upd_same in E'. cbn [set_pr pr] in E'. apply Z0. now rewrite E'. }
        apply andb_true_iff in U as (_&U). unfold unlocked in U. destruct (scn s) eqn:SC; [discriminate|]. split; [split|split].
        - unfold log, setmin; cbn [minp]. pose proof (lower_le (minp s) (clamp z)). lia.
        - intros i r X. unfold log, setmin, setcx, setq in X. cbn [scn] in X. congruence.
        - unfold pos, log, setmin, setcx, setq. cbn [qs]. unfold upd. destruct (Nat.eqb_spec p (clamp z)) as [Ep|].
          + rewrite <- Ep. destruct (Nat.eqb_spec p (pr (cx s c))); [lia|]. rewrite ahead_app; auto.
          + destruct (Nat.eqb_spec p (pr (cx s c))) as [<-|]; auto. now apply ahead_rm.
        - intros o D. discriminate. }
      destruct (loc (cx s c)) eqn:Lc.
      1: { injection H as <-. right. split; [split; auto|]. split; auto. intros o D. discriminate. }
      all: destruct (existsb (Nat.eqb c) (qs s (pr (cx s c)))) eqn:Ex; [|discriminate]; injection H as H; right; apply Y; auto.
    - destruct (cur s) as [c|]; try discriminate. destruct (stt (cx s c)); try discriminate. destruct (running s); [|discriminate]. injection H as <-. right. split; [split; auto|]. split; auto. intros o D. discriminate.
    - destruct (alive s c); [|discriminate]. injection H as <-. right. split; [split; auto|]. split; auto. intros o D. discriminate.
    - destruct (running s); [|discriminate]. injection H as <-. right. split; [split; auto|split; auto; intros o D; exfalso; exact (cons_neq _ _ D)].
      intros i r X. unfold setscn in X. cbn [scn] in X. injection X as <- <-. destruct (Nat.eq_dec (minp s) p) as [->|]; auto. left. lia.
    - destruct (scn s) as [(i, q)|] eqn:SC; [|discriminate]. destruct (G2 i q eq_refl) as [Hi|(->&Id)].
      + destruct q as [|c r].
        * destruct (Nat.ltb_spec (S i) nprio) as [LT|GE]; [|lia]. injection H as <-. right. split; [split; auto|split; auto; intros o D; exfalso; exact (cons_neq _ _ D)].
          intros i' r X. unfold setscn in X. cbn [scn] in X. injection X as <- <-. destruct (Nat.eq_dec (S i) p) as [->|]; auto. left. lia.
        * destruct (can_schedule (cx s c)) eqn:Cc; injection H as <-.
          -- right. split; [split; cbn; [lia|intros ? ? X; discriminate]|]. split; [unfold pos; cbn [do_pick qs]; rewrite upd_other by lia; auto|].
             intros o D. injection D as <-. exists c. split; auto. left. destruct (i_scn _ HI _ _ SC) as (_&_&(l&Q)&_).
             assert (X : loc (cx s c) = Here /\ pr (cx s c) = i) by (apply (i_q _ HI); rewrite Q; apply in_elt). destruct X as (Lc&Pc). rewrite (h_pr _ _ HH _ Lc). lia.
          -- right. split; [split; auto|split; auto; intros o D; exfalso; exact (cons_neq _ _ D)]. intros i' r' X. injection X as <- <-. auto.
      + destruct q as [|c r]; [destruct Id|]. destruct (can_schedule (cx s c)) eqn:Cc; injection H as <-.
        * destruct (Nat.eq_dec c d) as [->|N]; [left; reflexivity|]. destruct Id as [->|Id]; [contradiction|]. right. destruct (i_scn _ HI _ _ SC) as (_&_&(l&Q)&_).
          pose proof (i_nd _ HI p) as ND. rewrite Q in ND. pose proof (ahead_pick d c l r ND N Id) as LT. rewrite <- Q in LT.
          assert (Ps : pos (do_pick s p c) < pos s) by (unfold pos; cbn [do_pick qs]; rewrite upd_same; exact LT).
          split; [split; cbn; [lia|intros ? ? X; discriminate]|]. split; [lia|].
          intros o D. injection D as <-. exists c. split; auto. right.
          assert (X : loc (cx s c) = Here /\ pr (cx s c) = p) by (apply (i_q _ HI); rewrite Q; apply in_elt). destruct X as (Lc&Pc). rewrite (h_pr _ _ HH _ Lc). auto.
        * destruct Id as [->|Id]; [congruence|]. right. split; [split; auto|split; auto; intros o D; exfalso; exact (cons_neq _ _ D)]. intros i' r' X. injection X as <- <-. auto.
    - destruct (pnd s); [|discriminate]. injection H as <-. right. split; [split; auto|]. split; auto. intros o D. exfalso; exact (cons_neq _ _ D).
    - destruct (loc (cx s c)) eqn:Lc; try discriminate. destruct (stt (cx s c)) eqn:Sc; try discriminate.
      destruct (running s && negb (lockd (cx s c)) && match cur s with Some d => negb (c =? d) | None => true end) eqn:U; [|discriminate]. injection H as <-.
      assert (N : c <> d) by (intros ->; unfold log, setcx in L'; cbn [cx] in L'; rewrite upd_same in L'; discriminate). right. split; [split; auto|]. split; [|intros o D; discriminate].
      unfold pos, log, setcx, setq. cbn [qs]. unfold upd. destruct (Nat.eqb_spec p (pr (cx s c))) as [<-|]; auto. now apply ahead_rm.
    - destruct (unlocked s); [|discriminate]. destruct (scan_mv (cx s) (qs s) (minp s) (nprio - minp s)) as [(i, c)|]; [|discriminate]. injection H as <-.
      assert (N : c <> d) by (intros ->; unfold log, setcx in L'; cbn [cx] in L'; rewrite upd_same in L'; discriminate). right. split; [split; auto|]. split; [|intros o D; discriminate].
      unfold pos, log, setcx, setq. cbn [qs]. unfold upd. destruct (Nat.eqb_spec p i) as [<-|]; auto. now apply ahead_rm.
    - destruct (loc (cx s c)); try discriminate. injection H as <-. right. split; [split; auto|]. split; auto. intros o D. exfalso; exact (cons_neq _ _ D).
    - destruct (loc (cx s c)); try discriminate. destruct (stt (cx s c)); try discriminate; destruct t; injection H as <-; right; (split; [split; auto|split; [auto|intros o D; first [discriminate D|exfalso; exact (cons_neq _ _ D)]]]).
  Qed.

  (** A call at work on the coroutine makes it known to the next decision. *)
  Definition working (k : nat) (s : sst) : Prop := ag s k = AMoved d \/ ag s k = ALeft d \/ exists q, ag s k = AUpd q d /\ q <= p.
  Lemma work_step : forall k s l s', up s -> working k s -> sstep_ok s l = Some s' -> up s' -> good s' \/ working k s' /\ shi s' <> VRet k :: shi s.
  Proof.
    intros k s l s' (L&C&E) W H (L'&C'&E'). unfold sstep_ok, sstep in H.
    assert (Wk : ag s k <> ANone /\ forall c, ag s k <> ASet c) by (destruct W as [W|[W|(q&W&_)]]; rewrite W; split; [|intros c| |intros c| |intros c]; discriminate).
    destruct Wk as (W1&W2).
    assert (Same : ag s' k = ag s k -> shi s' <> VRet k :: shi s -> good s' \/ working k s' /\ shi s' <> VRet k :: shi s).
    { intros X Y. right. split; auto. unfold working. now rewrite X. }
    assert (Oth : forall k' a, k' <> k -> upd (ag s) k' a k = ag s k) by (intros; apply upd_other; auto).
    destruct l.
    - destruct (ag s k0) eqn:A; try (dm H; discriminate). assert (N : k0 <> k) by (intros ->; congruence). dm H; injection H as <-; apply Same; cbn; auto; apply cons_neq.
    - destruct (ag s k0) as [|c| | |] eqn:A; try discriminate. assert (N : k0 <> k) by (intros ->; eapply W2; eauto). destruct (unlocked s); [|discriminate]. injection H as <-. apply Same; cbn; auto. discriminate.
    - destruct (Nat.eq_dec k0 k) as [->|N].
      + unfold can_schedule in C. destruct W as [W|[W|(q&W&_)]]; rewrite W in H; [| |discriminate].
        * destruct (alive s d); [|discriminate]. injection H as <-. right. split; [|cbn; apply cons_neq]. right. right. exists p. cbn. rewrite upd_same, E. auto.
        * destruct (alive s d); [|discriminate]. rewrite L in H. destruct (wflag (cx s d)) eqn:F; [destruct (stt (cx s d)); discriminate|]. simpl in H. injection H as <-.
          right. split; [|cbn; apply cons_neq]. right. right. exists p. cbn. rewrite upd_same, E. auto.
      + destruct (ag s k0) as [| |c|c|] eqn:A; try discriminate; (destruct (alive s c); [|discriminate]); dm H; injection H as <-; apply Same; cbn; auto; try apply cons_neq; congruence.
    - destruct (Nat.eq_dec k0 k) as [->|N].
      + destruct W as [W|[W|(q&W&Q)]]; rewrite W in H; try discriminate. destruct (unlocked s) eqn:U; [|discriminate]. injection H as <-. left. unfold unlocked in U. split; cbn.
        * pose proof (lower_le (minp s) q). lia.
        * intros i r X. rewrite X in U. discriminate.
      + destruct (ag s k0) as [| | | |q c] eqn:A; try discriminate. destruct (unlocked s); [|discriminate]. injection H as <-. apply Same; cbn; auto. congruence.
    - destruct (alive s c); [|discriminate]. injection H as <-. apply Same; cbn; auto. discriminate.
    - destruct (ag s k0) eqn:A; try discriminate. assert (N : k0 <> k) by (intros ->; congruence). destruct (alive s c); [|discriminate]. injection H as <-. apply Same; cbn; auto. discriminate.
    - dm H; injection H as <-; apply Same; cbn; auto; first [discriminate|apply cons_neq].
    - dm H; injection H as <-; apply Same; cbn; auto; first [discriminate|apply cons_neq].
    - dm H; injection H as <-; apply Same; cbn; auto; first [discriminate|apply cons_neq].
    - dm H; injection H as <-; apply Same; cbn; auto; first [discriminate|apply cons_neq].
    - dm H; injection H as <-; apply Same; cbn; auto; first [discriminate|apply cons_neq].
    - dm H; injection H as <-; apply Same; cbn; auto; first [discriminate|apply cons_neq].
    - dm H; injection H as <-; apply Same; cbn; auto; first [discriminate|apply cons_neq].
    - dm H; injection H as <-; apply Same; cbn; auto; first [discriminate|apply cons_neq].
    - dm H; injection H as <-; apply Same; cbn; auto; first [discriminate|apply cons_neq].
    - dm H; injection H as <-; apply Same; cbn; auto; first [discriminate|apply cons_neq].
  Qed.

  Section Run.
    Variables (st : nat -> sst) (lb : nat -> option slbl).
    Hypothesis EX : execution _ _ sstep_ok (sinit cfg) st lb.
    Lemma st_inv : forall n, SInv (st n) /\ HInv cfg (st n) /\ PInv (st n).
    Proof.
      induction n as [|n (A&B&C)]; [rewrite (proj1 EX); split; [apply sinv_init|split; [apply hinv_init|apply (pinv_run cfg [] _ eq_refl)]]|].
      pose proof (proj2 EX n) as Hs. destruct (lb n) as [l|]; [|now rewrite Hs]. split; [eapply sinv_step; eauto|]. split; [eapply hinv_step; eauto|eapply pinv_step; eauto].
    Qed.
    Variable n0 : nat.
    Hypothesis UP : forall m, n0 <= m -> up (st m).
    Hypothesis CR : forall k n, at_work k d (shi (st n)) = true -> exists m, n <= m /\ shi (st (S m)) = VRet k :: shi (st m).
    Lemma work_good : forall k j n, n0 <= n -> working k (st n) -> shi (st (S (n + j))) = VRet k :: shi (st (n + j)) -> exists m, n <= m /\ good (st m).
    Proof.
      intros k j. induction j as [|j IH]; intros n L W H.
      - rewrite Nat.add_0_r in H. pose proof (proj2 EX n) as Hs. destruct (lb n) as [l|]; [|rewrite Hs in H; exfalso; exact (cons_neq _ _ H)].
        destruct (work_step k _ _ _ (UP n L) W Hs (UP (S n) ltac:(lia))) as [G|(_&N)]; [exists (S n); split; [lia|auto]|contradiction].
      - pose proof (proj2 EX n) as Hs. rewrite Nat.add_succ_r, <- Nat.add_succ_l in H. destruct (lb n) as [l|].
        + destruct (work_step k _ _ _ (UP n L) W Hs (UP (S n) ltac:(lia))) as [G|(W'&_)]; [exists (S n); split; [lia|auto]|].
          destruct (IH (S n) ltac:(lia) W' H) as (m&M&G). exists m. split; [lia|auto].
        + destruct (IH (S n) ltac:(lia) ltac:(now rewrite Hs) H) as (m&M&G). exists m. split; [lia|auto].
    Qed.
    Lemma gets_good : exists m, n0 <= m /\ good (st m).
    Proof.
      destruct (st_inv n0) as (_&HH&PI). destruct (good_or_pend _ PI (UP n0 (le_n _))) as [G|(k&P)]; [eauto|].
      assert (W : working k (st n0)).
      { destruct (UP n0 (le_n _)) as (_&_&E). rewrite E in P. exact P. }
      assert (Aw : at_work k d (shi (st n0)) = true) by (apply (h_ag _ _ HH); destruct W as [W|[W|(q&W&_)]]; rewrite W; reflexivity).
      destruct (CR k n0 Aw) as (m&M&H). apply (work_good k (m - n0) n0 (le_n _) W). now replace (n0 + (m - n0)) with m by lia.
    Qed.
    Hypothesis DE : forall n, exists m o, n <= m /\ decides (st m) (st (S m)) o /\ match o with Some x => p <= hprio x (shi (st m)) | None => True end.
    Lemma walk : forall n m, n0 <= n -> good (st n) -> n <= m -> (exists j, n <= j /\ decides (st j) (st (S j)) (Some d)) \/ good (st m) /\ pos (st m) <= pos (st n).
    Proof.
      intros n m L G M. induction M as [|m M [IH|(IH&P)]]; auto. destruct (st_inv m) as (HI&HH&_). pose proof (proj2 EX m) as Hs. destruct (lb m) as [l|]; [|rewrite Hs; auto].
      destruct (good_step _ _ _ HI HH (UP m ltac:(lia)) IH Hs (UP (S m) ltac:(lia))) as [D|(G'&P'&_)]; [left; eauto|]. right. split; auto. lia.
    Qed.
    Lemma picked_from : forall k n, n0 <= n -> good (st n) -> pos (st n) <= k -> exists j, n <= j /\ decides (st j) (st (S j)) (Some d).
    Proof.
      induction k as [k IH] using (well_founded_induction lt_wf). intros n L G P. destruct (DE n) as (m&o&M&D&O).
      destruct (walk n m L G M) as [X|(Gm&Pm)]; auto. destruct (st_inv m) as (HI&HH&_). pose proof (proj2 EX m) as Hs. destruct (lb m) as [l|]; [|exfalso; unfold decides in D; rewrite Hs in D; exact (cons_neq _ _ D)].
      destruct (good_step _ _ _ HI HH (UP m ltac:(lia)) Gm Hs (UP (S m) ltac:(lia))) as [X|(G'&P'&Z)]; [exists m; auto|].
      destruct (Z o D) as (x&->&[Q|(_&Q)]); [lia|]. destruct (IH (pos (st (S m))) ltac:(lia) (S m) ltac:(lia) G' (le_n _)) as (j&J&X). exists j. split; [lia|auto].
    Qed.
    Lemma picked : exists j, n0 <= j /\ decides (st j) (st (S j)) (Some d).
    Proof. destruct gets_good as (m&M&G). destruct (picked_from (pos (st m)) m M G (le_n _)) as (j&J&X). exists j. split; [lia|auto]. Qed.
  End Run.
End One.
