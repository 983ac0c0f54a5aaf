(** Invariants of the run queues (SchedModel.v). *)
From Coq Require Import List Arith Bool ZArith Lia.
From Verif Require Import Base SchedSpec SchedModel.
Import ListNotations.

Ltac dm E := repeat (match type of E with
  | context [match ?x with _ => _ end] =>
      lazymatch x with context [match _ with _ => _ end] => fail | _ => idtac end; let X := fresh "M" in destruct x eqn:X; try discriminate E
  end); try discriminate E.

(** Inversion of a step. *)
Ltac sinv E := unfold sstep_ok, sstep in E; dm E; injection E as <-;
  cbn [cx qs minp cur count scn pnd ag shi setcx setag setq setmin setscn log do_pick do_idle] in *.

Lemma in_rm : forall c l x, In x (rm c l) <-> In x l /\ x <> c.
Proof.
  intros c l x. unfold rm. rewrite filter_In. split; intros [A B]; split; auto.
  - intros ->. now rewrite Nat.eqb_refl in B.
  - apply negb_true_iff, Nat.eqb_neq. auto.
Qed.
Lemma nd_rm : forall c l, NoDup l -> NoDup (rm c l).
Proof. intros. now apply NoDup_filter. Qed.
Lemma rm_notin : forall c l, ~ In c l -> rm c l = l.
Proof.
  intros c l. induction l as [|a l IH]; simpl; auto. intros H. destruct (Nat.eqb_spec c a); [subst; tauto|].
  simpl. f_equal. tauto.
Qed.
Lemma len_rm : forall c l, NoDup l -> In c l -> S (length (rm c l)) = length l.
Proof.
  intros c l. induction l as [|a l IH]; simpl; [tauto|]. intros N H. inversion N; subst.
  destruct (Nat.eqb_spec c a) as [->|]; simpl.
  - f_equal. f_equal. now apply rm_notin.
  - destruct H; [congruence|]. f_equal. auto.
Qed.
Lemma nd_snoc : forall (c : nat) l, NoDup l -> ~ In c l -> NoDup (l ++ [c]).
Proof.
  intros c l N I.
  induction l as [|a l IH]; simpl; [repeat constructor; auto|]. inversion N; subst. constructor.
  - rewrite in_app_iff. simpl. simpl in I. intuition.
  - apply IH; auto. simpl in I. tauto.
Qed.
Lemma existsb_in : forall c l, existsb (Nat.eqb c) l = true <-> In c l.
Proof.
  intros c l. rewrite existsb_exists. split.
  - intros (x&A&B). apply Nat.eqb_eq in B. now subst.
  - intros A. exists c. split; auto. apply Nat.eqb_refl.
Qed.
Lemma clamp_lt : forall z, clamp z < nprio.
Proof. intros z. unfold clamp, nprio. destruct (Z.leb_spec 100 z); [lia|]. destruct (Z.ltb_spec z 0); lia. Qed.
Lemma scan_mv_some : forall cxs q n i j c, scan_mv cxs q i n = Some (j, c) -> i <= j /\ j < i + n /\ In c (q j) /\ can_move (cxs c) = true.
Proof.
  intros cxs q n. induction n as [|n IH]; intros i j c E; simpl in E; [discriminate|].
  destruct (find _ (q i)) as [d|] eqn:F.
  - injection E as <- <-. apply find_some in F as [A B]. repeat split; auto; lia.
  - apply IH in E. intuition lia.
Qed.

(** ** Structure *)
Record SInv (s : sst) : Prop := {
  i_pr : forall c, pr (cx s c) < nprio;
  i_w : forall c, wflag (cx s c) = match wset (cx s c) with [] => false | _ => true end;
  i_q : forall c i, In c (qs s i) <-> loc (cx s c) = Here /\ pr (cx s c) = i;
  i_nd : forall i, NoDup (qs s i);
  i_set : forall k c, ag s k = ASet c -> loc (cx s c) = Coming;
  i_uni : forall k k' c, ag s k = ASet c -> ag s k' = ASet c -> k = k';
  i_min : minp s < nprio;
  i_scn : forall i r, scn s = Some (i, r) -> minp s <= i /\ i < nprio /\ (exists l, qs s i = l ++ r) /\ pnd s = None;
  i_cur : forall c, cur s = Some c -> loc (cx s c) = Here /\ stt (cx s c) <> Susp;
  i_pnd : forall c, pnd s = Some c -> loc (cx s c) = Here /\ stt (cx s c) <> Susp /\ cur s = None;
  i_run : forall c, loc (cx s c) = Here -> stt (cx s c) = Runn -> cur s = Some c \/ pnd s = Some c;
  i_com : forall c, loc (cx s c) = Coming -> stt (cx s c) = Susp;
  i_tkn : forall c, loc (cx s c) = Taken -> stt (cx s c) = Susp;
  i_cnt : exists l, NoDup l /\ (forall c, In c l <-> loc (cx s c) = Here) /\ length l = count s
}.

Ltac cs := unfold upd in *; repeat match goal with
  | |- context [Nat.eqb ?a ?b] => destruct (Nat.eqb_spec a b); try subst
  | H : context [Nat.eqb ?a ?b] |- _ => destruct (Nat.eqb_spec a b); try subst
  end; simpl in *.

Lemma set_stt_loc : forall x t, loc (set_stt x t) = loc x.
Proof. intros x t. unfold set_stt. now destruct (stt x). Qed.
Lemma set_stt_pr : forall x t, pr (set_stt x t) = pr x.
Proof. intros x t. unfold set_stt. now destruct (stt x). Qed.
Lemma set_stt_wset : forall x t, wset (set_stt x t) = wset x.
Proof. intros x t. unfold set_stt. now destruct (stt x). Qed.
Lemma set_stt_wflag : forall x t, wflag (set_stt x t) = wflag x.
Proof. intros x t. unfold set_stt. now destruct (stt x). Qed.
Lemma set_stt_fin : forall x t, stt x <> Fin -> stt (set_stt x t) = t.
Proof. intros x t. unfold set_stt. destruct (stt x) eqn:E; auto. congruence. Qed.
Lemma set_stt_stays : forall x t, stt x = Fin -> stt (set_stt x t) = Fin.
Proof. intros x t E. unfold set_stt. now rewrite E. Qed.

(** Steps that change one coroutine in nothing but its waits, lock flag or (when it is not here) state. *)
Lemma sinv_init : forall cfg, SInv (sinit cfg).
Proof.
  intros cfg. split; unfold sinit; cbn [cx qs minp cur count scn pnd ag shi]; try discriminate; auto.
  - intros c. unfold fresh_cx. destruct (cfg c) as [[[z l] b] h]. apply clamp_lt.
  - intros c. unfold fresh_cx. now destruct (cfg c) as [[[z l] b] h].
  - intros c i. unfold fresh_cx. destruct (cfg c) as [[[z l] b] h]. simpl. split; [tauto|intros [X _]; discriminate].
  - intros i. constructor.
  - unfold nprio. lia.
  - intros c. unfold fresh_cx. destruct (cfg c) as [[[z l] b] h]. discriminate.
  - intros c. unfold fresh_cx. destruct (cfg c) as [[[z l] b] h]. discriminate.
  - intros c. unfold fresh_cx. destruct (cfg c) as [[[z l] b] h]. discriminate.
  - exists []. split; [constructor|]. split; auto. intros c. unfold fresh_cx. destruct (cfg c) as [[[z l] b] h]. simpl. split; [tauto|discriminate].
Qed.

(** A new record x for coroutine c that leaves place, priority and the meaning of its state alone. *)
Lemma sinv_frame : forall s c x, SInv s -> loc x = loc (cx s c) -> pr x = pr (cx s c) ->
  (stt x = stt (cx s c) \/ loc x = Away) -> wflag x = match wset x with [] => false | _ => true end ->
  SInv (setcx s c x).
Proof.
  intros s c x [] L P T W. split; cbn [cx qs minp cur count scn pnd ag shi setcx]; auto.
  - intros d. cs; auto. rewrite P. auto.
  - intros d. cs; auto.
  - intros d i. cs; auto. rewrite L, P. auto.
  - intros k d H. apply i_set0 in H. cs; auto. now rewrite L.
  - intros d H. destruct (i_cur0 d H) as [A B]. cs; auto. rewrite L. split; auto. destruct T as [->|T]; auto. congruence.
  - intros d H. destruct (i_pnd0 d H) as (A&B&C). cs; auto. rewrite L. split; auto. split; auto. destruct T as [->|T]; auto. congruence.
  - intros d. cs; auto. rewrite L. intros A B. destruct T as [T|T]; [|congruence]. apply i_run0; auto. congruence.
  - intros d. cs; auto. rewrite L. intros A. destruct T as [->|T]; [auto|congruence].
  - intros d. cs; auto. rewrite L. intros A. destruct T as [->|T]; [auto|congruence].
  - destruct i_cnt0 as (l&A&B&C). exists l. split; auto. split; auto. intros d. rewrite B. cs; [now rewrite L|tauto].
Qed.
Lemma sinv_ag : forall s k a, SInv s -> (forall c, a <> ASet c) -> SInv (setag s k a).
Proof.
  intros s k a [] N. split; cbn [cx qs minp cur count scn pnd ag shi setag]; auto.
  - intros k0 c. cs; [intros X; now destruct (N c)|eauto].
  - intros k1 k2 c. cs; intros X Y; try (now destruct (N c)). eauto.
Qed.
Lemma sinv_log : forall s e, SInv s -> SInv (log e s).
Proof. intros s e []. split; cbn [cx qs minp cur count scn pnd ag shi log]; auto. Qed.

Lemma enter_w_ok : forall x r, wflag (enter_w x r) = match wset (enter_w x r) with [] => false | _ => true end.
Proof. intros x r. simpl. destruct (existsb (Nat.eqb r) (wset x)) eqn:E; auto. destruct (wset x); auto; discriminate. Qed.
Lemma leave_w_ok : forall x r, wflag x = match wset x with [] => false | _ => true end ->
  wflag (leave_w x r) = match wset (leave_w x r) with [] => false | _ => true end.
Proof.
  intros x r H. simpl. destruct (filter _ (wset x)) as [|a l] eqn:E; auto. rewrite H.
  destruct (wset x); [discriminate|auto].
Qed.

Lemma lower_le : forall m p, lower m p <= m /\ lower m p <= p.
Proof. intros m p. unfold lower. destruct (Nat.ltb_spec p m); lia. Qed.

Lemma sinv_step : forall s l s', SInv s -> sstep_ok s l = Some s' -> SInv s'.
Proof.
  intros s l s' HI E. destruct l.
  - (* SetEnv *)
    assert (X : (loc (cx s c) = Away \/ loc (cx s c) = Taken) /\ stt (cx s c) = Susp /\ ag s k = ANone /\
      s' = setag (setcx s c (set_loc (cx s c) Coming)) k (ASet c)).
    { unfold sstep_ok, sstep in E. dm E; injection E as <-; auto. }
    clear E. destruct X as (L&T&A&->). destruct HI.
    split; cbn [cx qs minp cur count scn pnd ag shi setag setcx]; auto.
    + intros d. cs; auto.
    + intros d. cs; auto.
    + intros d i. cs; auto. rewrite i_q0. destruct L; split; intros [X Y]; congruence.
    + intros k0 d. cs; try congruence; eauto.
    + intros k1 k2 d. cs; eauto; intros X Y; try injection X as <-; try injection Y as <-; try congruence.
      * apply i_set0 in Y. destruct L; congruence.
      * apply i_set0 in X. destruct L; congruence.
    + intros d H. apply i_cur0 in H. cs; auto. destruct L, H; congruence.
    + intros d H. apply i_pnd0 in H. cs; auto. destruct L, H; congruence.
    + intros d. cs; auto; discriminate.
    + intros d. cs; auto.
    + intros d. cs; auto.
    + destruct i_cnt0 as (l&X&Y&Z). exists l. split; auto. split; auto. intros d. rewrite Y. cs; [|tauto]. destruct L; split; congruence.
  - (* Push *)
    unfold sstep_ok, sstep in E. destruct (ag s k) as [|c| | |] eqn:A; try discriminate. destruct (unlocked s) eqn:U; [|discriminate].
    injection E as <-. apply sinv_log. destruct HI. pose proof (i_set0 _ _ A) as L.
    unfold unlocked in U. destruct (scn s) eqn:SC; [discriminate|].
    assert (NI : forall i, ~ In c (qs s i)) by (intros i X; apply i_q0 in X; destruct X; congruence).
    split; cbn [cx qs minp cur count scn pnd ag shi setag setcx setq]; auto; try (rewrite SC; discriminate).
    + intros d. cs; auto.
    + intros d. cs; auto.
    + intros d i. cs; rewrite ?in_app_iff, ?i_q0; simpl; intuition congruence.
    + intros i. cs; auto. apply nd_snoc; auto.
    + intros k0 d. cs; try congruence; eauto. intros X. pose proof (i_uni0 _ _ _ A X). congruence.
    + intros k1 k2 d. cs; eauto; congruence.
    + intros d H. apply i_cur0 in H. cs; auto. destruct H; congruence.
    + intros d H. apply i_pnd0 in H. cs; auto. destruct H; congruence.
    + intros d. cs; auto. intros _ X. rewrite (i_com0 _ L) in X. discriminate.
    + intros d. cs; auto; discriminate.
    + intros d. cs; auto; discriminate.
    + destruct i_cnt0 as (l&X&Y&Z). exists (c :: l). split; [constructor; auto; rewrite Y; congruence|]. split; [|simpl; auto].
      intros d. simpl. rewrite Y. cs; intuition congruence.
  - (* Upd1 *)
    unfold sstep_ok, sstep in E. dm E; injection E as <-; try apply sinv_log; apply sinv_ag; auto; discriminate.
  - (* Upd2 *)
    unfold sstep_ok, sstep in E. dm E; injection E as <-. apply sinv_log, sinv_ag; [|discriminate].
    unfold unlocked in *. destruct (scn s) eqn:SC; [discriminate|].
    pose proof (lower_le (minp s) p) as [X Y]. destruct HI.
    split; cbn [cx qs minp cur count scn pnd ag shi setmin]; auto; [lia|rewrite SC; discriminate].
  - unfold sstep_ok, sstep in E. dm E; injection E as <-. apply sinv_log, sinv_frame; auto. apply enter_w_ok.
  - unfold sstep_ok, sstep in E. dm E; injection E as <-. apply sinv_log, sinv_ag; [|discriminate].
    apply sinv_frame; auto. apply leave_w_ok, i_w. auto.
  - (* Prio *)
    unfold sstep_ok, sstep in E. destruct (alive s c && unlocked s) eqn:G; [|discriminate]. apply andb_true_iff in G as [AL U].
    destruct (Nat.eqb_spec (clamp z) (pr (cx s c))) as [|NE]; [injection E as <-; auto|].
    unfold unlocked in U. destruct (scn s) eqn:SC; [discriminate|]. pose proof (clamp_lt z) as CL.
    assert (X : (loc (cx s c) = Away /\ s' = log (VPrio c (clamp z)) (setcx s c (set_pr (cx s c) (clamp z)))) \/
      (In c (qs s (pr (cx s c))) /\
       s' = let s1 := setq s (pr (cx s c)) (rm c (qs s (pr (cx s c)))) (count s) in
            let s2 := setq s1 (clamp z) (qs s1 (clamp z) ++ [c]) (count s) in
            log (VPrio c (clamp z)) (setmin (setcx s2 c (set_pr (cx s c) (clamp z))) (lower (minp s) (clamp z))))).
    { destruct (loc (cx s c)) eqn:L; try (injection E as <-; auto; fail);
      (destruct (existsb _ _) eqn:Q; [|discriminate]); apply existsb_in in Q; injection E as <-; auto. }
    clear E. destruct X as [(L&->)|(Q&->)].
    + apply sinv_log. destruct HI. split; cbn [cx qs minp cur count scn pnd ag shi setcx]; auto.
      * intros d. cs; auto.
      * intros d. cs; auto.
      * intros d i. cs; auto. rewrite i_q0. split; intros [? ?]; congruence.
      * intros k d H. apply i_set0 in H. cs; auto.
      * intros d H. apply i_cur0 in H. cs; auto.
      * intros d H. apply i_pnd0 in H. cs; auto.
      * intros d. cs; auto.
      * intros d. cs; auto.
      * intros d. cs; auto.
      * destruct i_cnt0 as (l&X&Y&Z). exists l. split; auto. split; auto. intros d. rewrite Y. cs; tauto.
    + apply sinv_log. destruct HI. pose proof (proj1 (i_q0 _ _) Q) as [L _]. pose proof (lower_le (minp s) (clamp z)) as [? ?].
      split; cbn [cx qs minp cur count scn pnd ag shi setcx setq setmin]; auto; try (rewrite SC; discriminate); try lia.
      * intros d. cs; auto.
      * intros d. cs; auto.
      * intros d i. cs; rewrite ?in_app_iff, ?in_rm, ?i_q0; simpl; intuition congruence.
      * intros i. assert (~ In c (qs s (clamp z))) by (rewrite i_q0; intros [_ ?]; congruence).
        cs; auto; try congruence; [|apply nd_rm; auto]. now apply nd_snoc.
      * intros k d H1. apply i_set0 in H1. cs; auto.
      * intros d H1. apply i_cur0 in H1. cs; auto.
      * intros d H1. apply i_pnd0 in H1. cs; auto.
      * intros d. cs; auto.
      * intros d. cs; auto.
      * intros d. cs; auto.
      * destruct i_cnt0 as (l&X&Y&Z). exists l. split; auto. split; auto. intros d. rewrite Y. cs; tauto.
  - (* Finish *)
    unfold sstep_ok, sstep in E. destruct (cur s) as [c|] eqn:C; [|discriminate]. destruct (stt (cx s c)) eqn:T; try discriminate.
    destruct (running s) eqn:R; [|discriminate]. injection E as <-. apply sinv_log. unfold running, unlocked in R.
    destruct (scn s) eqn:SC; [discriminate|]. destruct (pnd s) eqn:PN; [discriminate|].
    destruct HI. destruct (i_cur0 _ C) as [L _].
    assert (T' : stt (set_stt (cx s c) Fin) = Fin) by (apply set_stt_fin; congruence).
    split; cbn [cx qs minp cur count scn pnd ag shi setcx]; auto; try (rewrite SC; discriminate); try (rewrite PN; discriminate).
    + intros d. cs; rewrite ?set_stt_pr; auto.
    + intros d. cs; rewrite ?set_stt_wset, ?set_stt_wflag; auto.
    + intros d i. cs; rewrite ?set_stt_pr, ?set_stt_loc; auto.
    + intros k d H. apply i_set0 in H. cs; rewrite ?set_stt_loc; auto.
    + intros d H. pose proof (i_cur0 _ H). cs; auto. rewrite set_stt_loc, T'. split; congruence.
    + intros d. cs; auto; rewrite T'; discriminate.
    + intros d. cs; auto; rewrite set_stt_loc; congruence.
    + intros d. cs; auto; rewrite set_stt_loc; congruence.
    + destruct i_cnt0 as (l&X&Y&Z). exists l. split; auto. split; auto. intros d. rewrite Y. cs; rewrite ?set_stt_loc; tauto.
  - unfold sstep_ok, sstep in E. dm E; injection E as <-. apply sinv_log, sinv_frame; auto. simpl. apply i_w. auto.
  - (* PickB *)
    unfold sstep_ok, sstep in E. destruct (running s) eqn:R; [|discriminate]. injection E as <-. unfold running, unlocked in R.
    destruct (scn s) eqn:SC; [discriminate|]. destruct (pnd s) eqn:PN; [discriminate|]. destruct HI.
    split; cbn [cx qs minp cur count scn pnd ag shi setscn]; auto.
    + intros i r X. injection X as <- <-. repeat split; auto. now exists [].
  - (* PickS *)
    unfold sstep_ok, sstep in E. destruct (scn s) as [[i [|c r]]|] eqn:SC; [| |discriminate].
    + destruct (Nat.ltb_spec (S i) nprio) as [LT|GE]; injection E as <-.
      * destruct HI. destruct (i_scn0 _ _ SC) as (X&Y&Z&P). split; cbn [cx qs minp cur count scn pnd ag shi setscn]; auto.
        intros i' r' Q. injection Q as <- <-. split; [lia|]. repeat split; auto. now exists [].
      * destruct HI. destruct (i_scn0 _ _ SC) as (X&Y&Z&P). split; cbn [cx qs minp cur count scn pnd ag shi do_idle]; auto; try discriminate.
        -- intros c H. apply i_cur0 in H. tauto.
        -- intros c H T. destruct (i_run0 c H T) as [C|C]; auto. congruence.
    + destruct (can_schedule (cx s c)) eqn:CS; injection E as <-.
      2:{ destruct HI. destruct (i_scn0 _ _ SC) as (X&Y&(l&Z)&P). split; cbn [cx qs minp cur count scn pnd ag shi setscn]; auto.
          intros i' r' Q. injection Q as <- <-. repeat split; auto. exists (l ++ [c]). rewrite Z, <- app_assoc. reflexivity. }
      destruct HI. destruct (i_scn0 _ _ SC) as (X&Y&(l&Z)&P).
      assert (Hc : loc (cx s c) = Here /\ pr (cx s c) = i) by (apply i_q0; rewrite Z; apply in_elt). destruct Hc as [L PR].
      assert (T : stt (cx s c) <> Fin) by (unfold can_schedule in CS; destruct (stt (cx s c)); congruence).
      set (cx1 := match cur s with Some d => if d =? c then cx s else upd (cx s) d (set_stt (cx s d) Susp) | None => cx s end).
      assert (C1 : cx1 c = cx s c).
      { unfold cx1. destruct (cur s) as [d|]; auto. destruct (Nat.eqb_spec d c); auto. rewrite upd_other; auto. }
      assert (C2 : forall d, d <> c -> cx1 d = cx s d \/ (cur s = Some d /\ cx1 d = set_stt (cx s d) Susp)).
      { intros d D. unfold cx1. destruct (cur s) as [e|]; auto. destruct (Nat.eqb_spec e c); auto. cs; auto. }
      assert (F : forall d, let y := upd cx1 c (set_stt (cx1 c) Runn) d in pr y = pr (cx s d) /\ loc y = loc (cx s d) /\
         wset y = wset (cx s d) /\ wflag y = wflag (cx s d)).
      { intros d. cs; [rewrite C1|]; [|destruct (C2 d n) as [-> |[_ ->]]]; rewrite ?set_stt_pr, ?set_stt_loc, ?set_stt_wset, ?set_stt_wflag; auto. }
      assert (Cs : stt (set_stt (cx1 c) Runn) = Runn) by (rewrite C1; now apply set_stt_fin).
      split; cbn [cx qs minp cur count scn pnd ag shi do_pick]; fold cx1; try discriminate; auto; try congruence.
      * intros d. destruct (F d) as (->&_). auto.
      * intros d. destruct (F d) as (_&_&->&->). auto.
      * intros d j. destruct (F d) as (->&->&_). unfold upd at 1. destruct (Nat.eqb_spec j i) as [->|]; auto.
        rewrite in_app_iff, in_rm, i_q0. simpl. destruct (Nat.eq_dec d c) as [->|]; intuition congruence.
      * intros j. cs; auto. apply nd_snoc; [apply nd_rm; auto|]. rewrite in_rm. tauto.
      * intros k d H. destruct (F d) as (_&->&_). eauto.
      * intros d H. injection H as <-. destruct (F c) as (_&->&_). rewrite upd_same, Cs. split; auto. discriminate.
      * intros d LD TD. destruct (F d) as (_&LL&_). rewrite LL in LD. left. destruct (Nat.eq_dec d c) as [->|D]; auto.
        rewrite upd_other in TD by auto. destruct (C2 d D) as [C3|[CU C3]]; rewrite C3 in TD.
        -- destruct (i_run0 d LD TD) as [CU|CU]; [|congruence]. unfold cx1 in C3. rewrite CU in C3. destruct (Nat.eqb_spec d c); [congruence|].
           rewrite upd_same in C3. rewrite <- C3 in TD. rewrite set_stt_fin in TD; [discriminate|]. intros Q.
           rewrite set_stt_stays in TD; auto. discriminate.
        -- exfalso. destruct (stt (cx s d)) eqn:TT; [| |rewrite set_stt_stays in TD; congruence]; rewrite set_stt_fin in TD; congruence.
      * intros d LD. destruct (F d) as (_&LL&_). rewrite LL in LD. destruct (Nat.eq_dec d c) as [->|D]; [congruence|].
        rewrite upd_other by auto. destruct (C2 d D) as [-> |[CU _]]; auto. apply i_cur0 in CU. destruct CU; congruence.
      * intros d LD. destruct (F d) as (_&LL&_). rewrite LL in LD. destruct (Nat.eq_dec d c) as [->|D]; [congruence|].
        rewrite upd_other by auto. destruct (C2 d D) as [-> |[CU _]]; auto. apply i_cur0 in CU. destruct CU; congruence.
      * destruct i_cnt0 as (l0&A&B&C). exists l0. split; auto. split; auto. intros d. destruct (F d) as (_&->&_). auto.
  - (* Mark *)
    unfold sstep_ok, sstep in E. destruct (pnd s) as [c|] eqn:PN; [|discriminate]. injection E as <-. destruct HI.
    destruct (i_pnd0 _ PN) as (L&T&C). cbn [cx qs minp cur count scn pnd ag shi setcx].
    assert (SC : scn s = None) by (destruct (scn s) as [[i r]|] eqn:SC; auto; destruct (i_scn0 _ _ eq_refl) as (_&_&_&X); congruence).
    split; cbn [cx qs minp cur count scn pnd ag shi]; auto; try discriminate.
    + intros d. cs; rewrite ?set_stt_pr; auto.
    + intros d. cs; rewrite ?set_stt_wset, ?set_stt_wflag; auto.
    + intros d i. cs; rewrite ?set_stt_pr, ?set_stt_loc; auto.
    + intros k d H. apply i_set0 in H. cs; rewrite ?set_stt_loc; auto.
    + rewrite SC. discriminate.
    + rewrite C. discriminate.
    + intros d. cs.
      * intros _ TT. exfalso. destruct (stt (cx s c)) eqn:T1; [| |rewrite set_stt_stays in TT; congruence]; rewrite set_stt_fin in TT; congruence.
      * intros LD TD. destruct (i_run0 d LD TD); congruence.
    + intros d. cs; auto; rewrite set_stt_loc; congruence.
    + intros d. cs; auto; rewrite set_stt_loc; congruence.
    + destruct i_cnt0 as (l&X&Y&Z). exists l. split; auto. split; auto. intros d. rewrite Y. cs; rewrite ?set_stt_loc; tauto.
  - (* Reap *)
    unfold sstep_ok, sstep in E. destruct (loc (cx s c)) eqn:L; try discriminate. destruct (stt (cx s c)) eqn:T; try discriminate.
    destruct (running s && negb (lockd (cx s c)) && match cur s with Some d => negb (c =? d) | None => true end) eqn:G; [|discriminate].
    injection E as <-. apply sinv_log. apply andb_true_iff in G as [G CU]. apply andb_true_iff in G as [R _]. unfold running, unlocked in R.
    destruct (scn s) eqn:SC; [discriminate|]. destruct (pnd s) eqn:PN; [discriminate|].
    assert (CN : cur s <> Some c) by (intros X; rewrite X, Nat.eqb_refl in CU; discriminate). destruct HI.
    split; cbn [cx qs minp cur count scn pnd ag shi setcx setq]; auto; try (rewrite SC; discriminate); try (rewrite PN; discriminate).
    + intros d. cs; auto.
    + intros d. cs; auto.
    + intros d i. cs; rewrite ?in_rm, ?i_q0; simpl; intuition congruence.
    + intros i. cs; auto. now apply nd_rm.
    + intros k d H. apply i_set0 in H. cs; auto; congruence.
    + intros d H. pose proof (i_cur0 _ H). cs; auto; congruence.
    + intros d. cs; auto; discriminate.
    + intros d. cs; auto; discriminate.
    + intros d. cs; auto; discriminate.
    + destruct i_cnt0 as (l&X&Y&Z). exists (rm c l). split; [now apply nd_rm|]. split.
      * intros d. rewrite in_rm, Y. cs; intuition congruence.
      * pose proof (len_rm c l X (proj2 (Y c) L)). lia.
  - (* Take *)
    unfold sstep_ok, sstep in E. destruct (unlocked s) eqn:U; [|discriminate].
    destruct (scan_mv _ _ _ _) as [[i c]|] eqn:SM; [|discriminate]. injection E as <-. apply sinv_log.
    apply scan_mv_some in SM as (A&B&Q&CM). unfold unlocked in U. destruct (scn s) eqn:SC; [discriminate|]. destruct HI.
    destruct (proj1 (i_q0 _ _) Q) as [L P].
    assert (T : stt (cx s c) = Susp) by (unfold can_move in CM; destruct (stt (cx s c)); congruence).
    split; cbn [cx qs minp cur count scn pnd ag shi setcx setq]; auto; try (rewrite SC; discriminate).
    + intros d. cs; auto.
    + intros d. cs; auto.
    + intros d j. cs; rewrite ?in_rm, ?i_q0; simpl; intuition congruence.
    + intros j. cs; auto. now apply nd_rm.
    + intros k d H. apply i_set0 in H. cs; auto; congruence.
    + intros d H. pose proof (i_cur0 _ H). cs; auto. destruct H0; congruence.
    + intros d H. pose proof (i_pnd0 _ H). cs; auto. destruct H0 as (?&?&?); congruence.
    + intros d. cs; auto; discriminate.
    + intros d. cs; auto.
    + intros d. cs; auto.
    + destruct i_cnt0 as (l&X&Y&Z). exists (rm c l). split; [now apply nd_rm|]. split.
      * intros d. rewrite in_rm, Y. cs; intuition congruence.
      * pose proof (len_rm c l X (proj2 (Y c) L)). lia.
  - (* Depart *)
    unfold sstep_ok, sstep in E. destruct (loc (cx s c)) eqn:L; try discriminate. injection E as <-. destruct HI.
    split; cbn [cx qs minp cur count scn pnd ag shi setcx]; auto.
    + intros d. cs; auto.
    + intros d. cs; auto.
    + intros d j. cs; rewrite ?i_q0; simpl; intuition congruence.
    + intros k d H. apply i_set0 in H. cs; auto; congruence.
    + intros d H. pose proof (i_cur0 _ H). cs; auto. destruct H0; congruence.
    + intros d H. pose proof (i_pnd0 _ H). cs; auto. destruct H0 as (?&?&?); congruence.
    + intros d. cs; auto; discriminate.
    + intros d. cs; auto; discriminate.
    + intros d. cs; auto; discriminate.
    + destruct i_cnt0 as (l&X&Y&Z). exists l. split; auto. split; auto. intros d. rewrite Y. cs; intuition congruence.
  - (* Other *)
    assert (X : loc (cx s c) = Away /\ exists s1, s1 = setcx s c (set_stt (cx s c) t) /\ (s' = s1 \/ s' = log (VFin c) s1)).
    { unfold sstep_ok, sstep in E. destruct (loc (cx s c)) eqn:L; try discriminate. destruct (stt (cx s c)); try discriminate;
      injection E as <-; split; auto; eexists; split; eauto; destruct t; auto. }
    destruct X as (L&s1&->&X).
    assert (Y : SInv (setcx s c (set_stt (cx s c) t))).
    { apply sinv_frame; auto; rewrite ?set_stt_loc, ?set_stt_pr, ?set_stt_wset, ?set_stt_wflag; auto. now apply i_w. }
    destruct X as [-> | ->]; auto. now apply sinv_log.
Qed.
