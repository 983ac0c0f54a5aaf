(** Invariants of the scheduling loop (SwitchModel.v). *)
From Coq Require Import List Arith Bool Lia.
From Verif Require Import Base SwitchSpec SwitchModel.
Import ListNotations.

(** Executions in which a signal finds the thread in code of the user (or in the loop of the idle context with nothing
    pending): what curr_ctx__ names is what runs. *)
Definition quiet (s : wst) (l : wlab) : bool :=
  match l with
  | LSignal _ => match at_ (now s) with PUser => (own (now s) =? curr s) && match info s with None => true | _ => false end | _ => false end
  | _ => true
  end.
Definition wstep_q (sh : nat -> bool) (s : wst) (l : wlab) : option wst := if quiet s l then wstep sh s l else None.
(** Executions without signals. *)
Definition coop (l : wlab) : bool := match l with LSignal _ => false | _ => true end.
Definition wstep_c (sh : nat -> bool) (s : wst) (l : wlab) : option wst := if coop l then wstep sh s l else None.

Lemma inq_in : forall s c, inq s c = true <-> In c (queue s).
Proof.
  intros. unfold inq. rewrite existsb_exists. split.
  - intros (x&I&E). apply Nat.eqb_eq in E. now subst.
  - intros I. exists c. split; auto. apply Nat.eqb_refl.
Qed.

(** What the place of the code that runs says about curr_ctx__ and the pending switch. *)
Definition settled (s : wst) : Prop :=
  (own (now s) = curr s /\ info s = None) \/ (own (now s) = 0 /\ exists f, info s = Some (f, curr s) /\ f <> curr s).
Definition ctl (s : wst) : Prop :=
  match at_ (now s) with
  | PUser | PPost => settled s
  | PPostS => own (now s) = 0 /\ settled s
  | PEnd => own (now s) = curr s /\ info s = None /\ curr s <> 0
  | PSleep f => f = own (now s) /\ curr s = 0 /\ info s = None
  | PWin f t => f = own (now s) /\ f <> t /\
                ((t = curr s /\ info s = None) \/ (t = 0 /\ f <> curr s /\ info s = Some (f, curr s)))
  | PShared t => own (now s) = 0 /\ t = curr s /\ info s = None
  | PFresh => False
  end.
Definition slot_ok (c : nat) (p : pc) : Prop :=
  match p with PFresh => c <> 0 | PUser | PPost => True | PPostS => c = 0 | _ => False end.

Record SB (sh : nat -> bool) (s : wst) : Prop := {
  sb_own : forall c, own (regs s c) = c;
  sb_slot : forall c, (c = 0 -> own (now s) <> 0) -> slot_ok c (at_ (regs s c));
  sb_z : ~ In 0 (queue s) /\ freed s 0 = false /\ fin s 0 = false;
  sb_nd : NoDup (queue s);
  sb_cur : curr s = 0 \/ In (curr s) (queue s);
  sb_run : own (now s) = 0 \/ In (own (now s)) (queue s);
  sb_fr : forall c, freed s c = true -> ~ In c (queue s);
  sb_info : forall f t, info s = Some (f, t) -> sh f || sh t = true }.
Record SI (sh : nat -> bool) (s : wst) : Prop := {
  si_b : SB sh s;
  si_ctl : ctl s;
  si_fin : fin s (curr s) = true -> at_ (now s) = PEnd;
  si_fino : fin s (own (now s)) = true -> match at_ (now s) with PEnd | PSleep _ | PWin _ _ => True | _ => False end }.

Lemma si_init : forall sh, SI sh winit.
Proof.
  intros sh. constructor.
  - constructor; simpl; auto; try discriminate; try constructor; auto.
  - unfold ctl, settled. simpl. auto.
  - discriminate.
  - discriminate.
Qed.

Lemma goto_SB : forall sh s p, SB sh s -> SB sh (goto p s).
Proof. intros sh s p []. constructor; simpl; auto. Qed.
Lemma victim_in : forall s c, victim s c = true <-> In c (queue s) /\ fin s c = true /\ det s c = true /\ c <> curr s.
Proof.
  intros. unfold victim. rewrite !andb_true_iff, inq_in, negb_true_iff, Nat.eqb_neq. tauto.
Qed.
Lemma reap_SB : forall sh s, SB sh s -> own (now s) = curr s \/ own (now s) = 0 -> SB sh (reap s).
Proof.
  intros sh s [] H. constructor; simpl; auto.
  - destruct sb_z0 as (A&B&C). rewrite filter_In. split; [tauto|]. split; auto. rewrite B. simpl.
    destruct (victim s 0) eqn:V; auto. apply victim_in in V. tauto.
  - now apply NoDup_filter.
  - destruct sb_cur0 as [E|I]; auto. right. apply filter_In. split; auto. apply negb_true_iff.
    destruct (victim s (curr s)) eqn:V; auto. apply victim_in in V. tauto.
  - destruct sb_run0 as [E|I]; auto. destruct H as [H|H]; auto. right. apply filter_In. split; auto. apply negb_true_iff.
    destruct (victim s (own (now s))) eqn:V; auto. apply victim_in in V. tauto.
  - intros c F I. apply filter_In in I as [I V]. apply orb_true_iff in F as [F|F]; [now apply (sb_fr0 c)|].
    rewrite F in V. discriminate.
Qed.
Lemma tail_SI : forall sh s s', SB sh s -> settled s -> fin s (own (now s)) = false -> fin s (curr s) = false ->
  tail s = WOk s' -> SI sh s'.
Proof.
  intros sh s s' B S F1 F2 E. unfold tail in E. destruct (freed s (curr s)); [discriminate|].
  assert (X : exists p q, s' = goto PUser (set_pre p (set_whist q s))).
  { destruct (pre s (curr s)) as [p|]; [|injection E as <-; exists (pre s), (whist s); now destruct s].
    destruct (freed s p); [discriminate|]. injection E as <-. eexists. eexists. reflexivity. }
  destruct X as (p&q&->). constructor; simpl.
  - destruct B. constructor; simpl; auto.
  - exact S.
  - congruence.
  - congruence.
Qed.
Lemma pick_ok : forall s n, ~ In 0 (queue s) -> fin s 0 = false -> pick s n = true ->
  fin s n = false /\ (n = 0 \/ In n (queue s)) /\ (n = 0 -> forall c, In c (queue s) -> can s c = false).
Proof.
  intros s n Z F P. unfold pick in P. destruct (Nat.eqb_spec n 0) as [->|N].
  - split; auto. split; auto. intros _ c I. apply negb_true_iff in P. destruct (can s c) eqn:C; auto.
    assert (existsb (can s) (queue s) = true) by (apply existsb_exists; eauto). congruence.
  - apply andb_true_iff in P as [I C]. apply inq_in in I. unfold can in C. apply andb_true_iff in C as [C _].
    apply negb_true_iff in C. split; auto. split; auto. intros; contradiction.
Qed.
Lemma chosen_SB : forall sh s n, SB sh s -> pick s n = true -> SB sh (chosen n s).
Proof.
  intros sh s n B P. destruct B. destruct sb_z0 as (Z&F0&F). destruct (pick_ok s n Z F P) as (A&I&_).
  unfold chosen. destruct (n =? 0); constructor; simpl; auto.
Qed.
Lemma load_SI : forall sh s t, SB sh s -> (forall c, slot_ok c (at_ (regs s c))) ->
  ((t = curr s /\ info s = None) \/ (t = 0 /\ exists f, info s = Some (f, curr s) /\ f <> curr s)) ->
  fin s (curr s) = false -> SI sh (load t s).
Proof.
  intros sh s t B L C F. pose proof (L t) as Lt. destruct B. destruct sb_z0 as (Z&F0&F1). unfold load.
  assert (Ft : fin s t = false) by (destruct C as [[-> _]|[-> _]]; auto).
  assert (At : t = 0 \/ In t (queue s)) by (destruct C as [[-> _]|[-> _]]; auto).
  destruct (regs s t) as [o a] eqn:R. assert (o = t) by (pose proof (sb_own0 t) as Q; rewrite R in Q; exact Q). subst o.
  simpl in *. assert (K : own (match a with PFresh => mkK t PUser | _ => mkK t a end) = t) by now destruct a.
  constructor; simpl.
  - constructor; simpl; auto. now rewrite K.
  - unfold ctl, settled. simpl. rewrite K. destruct a; simpl in *; try contradiction; auto.
  - congruence.
  - rewrite K. congruence.
Qed.

(** The saved registers after a switch or a signal. *)
Lemma saved_slots : forall sh s k, SB sh s -> own k = own (now s) -> slot_ok (own k) (at_ k) ->
  forall c, slot_ok c (at_ (upd (regs s) (own (now s)) k c)).
Proof.
  intros sh s k B E K c. destruct B. unfold upd. destruct (Nat.eqb_spec c (own (now s))) as [->|N].
  - now rewrite <- E.
  - apply sb_slot0. congruence.
Qed.
Lemma saved_own : forall s k, (forall c, own (regs s c) = c) -> forall c, own (upd (regs s) (own k) k c) = c.
Proof. intros s k H c. unfold upd. destruct (Nat.eqb_spec c (own k)) as [->|N]; auto. Qed.

Lemma prepare_SI : forall sh s cu n, SB sh s -> info s = None -> curr s = n -> fin s n = false -> cu = 0 \/ In cu (queue s) ->
  match prepare sh s cu n with
  | Stay s' => SB sh s' /\ now s' = now s /\ fin s' = fin s /\ curr s' = n /\ freed s' = freed s /\ regs s' = regs s /\
               pre s' = pre s /\ whist s' = whist s /\ queue s' = queue s /\ det s' = det s /\ cnt s' = cnt s /\ gds s' = gds s /\
               ((cu = n /\ info s' = None) \/ (cu = 0 /\ n <> 0 /\ info s' = Some (0, n)))
  | Swap s' f t => SB sh s' /\ now s' = now s /\ fin s' = fin s /\ curr s' = n /\ freed s' = freed s /\ regs s' = regs s /\
               pre s' = pre s /\ whist s' = whist s /\ queue s' = queue s /\ det s' = det s /\ cnt s' = cnt s /\ gds s' = gds s /\
               f = cu /\ f <> n /\ f <> t /\ ((t = n /\ info s' = None) \/ (t = 0 /\ f <> 0 /\ info s' = Some (f, n)))
  end.
Proof.
  intros sh s cu n B I C F A. unfold prepare. destruct (Nat.eqb_spec cu n) as [->|N].
  - repeat (split; [auto|]). left. auto.
  - destruct (sh cu || sh n) eqn:H.
    + assert (X : SB sh (set_info (Some (cu, n)) s)).
      { destruct B. constructor; simpl; auto. intros f t Q. injection Q as <- <-. exact H. }
      destruct (Nat.eqb_spec cu 0) as [->|N0]; (split; [exact X|]); simpl; repeat (split; [auto|]); auto.
    + split; [exact B|]. repeat (split; [auto|]). left. auto.
Qed.

Lemma finish_prepare_SI : forall sh s cu n s', SB sh s -> info s = None -> curr s = n -> fin s n = false ->
  cu = own (now s) -> (fin s cu = true -> cu <> n) ->
  finish_prepare sh s cu n = WOk s' -> SI sh s'.
Proof.
  intros sh s cu n s' B I C F A G E. unfold finish_prepare in E. destruct (freed s cu); [discriminate|].
  assert (Acu : cu = 0 \/ In cu (queue s)) by (destruct B; rewrite A; auto).
  pose proof (prepare_SI sh s cu n B I C F Acu) as P. destruct (prepare sh s cu n) as [s1|s1 f t].
  - destruct P as (B1&E1&E2&E3&E4&_&_&_&_&_&_&_&D). eapply tail_SI; [exact B1| | | |exact E].
    + unfold settled. rewrite E1, E3, <- A. destruct D as [[D1 D2]|(D1&D2&D3)]; [auto|].
      right. split; auto. exists 0. split; auto.
    + rewrite E1, E2, <- A. destruct (fin s cu) eqn:Q; auto. exfalso. destruct D as [[D1 _]|(D1&_)]; [now apply G|].
      destruct B, sb_z0 as (_&_&Z). rewrite D1 in Q. congruence.
    + now rewrite E3, E2.
  - destruct P as (B1&E1&E2&E3&E4&_&_&_&_&_&_&_&Ef&Ne&Nt&D). injection E as <-. constructor.
    + now apply goto_SB.
    + unfold ctl. simpl. rewrite E1. split; [congruence|]. split; auto. rewrite E3. destruct D as [[D1 D2]|(D1&D2&D3)]; auto.
    + simpl. rewrite E3, E2. congruence.
    + simpl. auto.
Qed.

Lemma snoc_nd : forall (c : nat) l, NoDup l -> ~ In c l -> NoDup (l ++ [c]).
Proof.
  intros c l N I. induction N as [|x l X N IH]; simpl; [repeat constructor; auto|]. constructor.
  - rewrite in_app_iff. simpl in *. intuition.
  - apply IH. simpl in I. intuition.
Qed.
Lemma SB_same : forall sh s s', SB sh s -> regs s' = regs s -> now s' = now s -> queue s' = queue s -> freed s' = freed s ->
  fin s' = fin s -> curr s' = curr s -> info s' = info s -> SB sh s'.
Proof. intros sh s s' [] E1 E2 E3 E4 E5 E6 E7. constructor; rewrite ?E1, ?E2, ?E3, ?E4, ?E5, ?E6, ?E7; auto. Qed.
Lemma SI_same : forall sh s s', SI sh s -> regs s' = regs s -> now s' = now s -> queue s' = queue s -> freed s' = freed s ->
  fin s' = fin s -> curr s' = curr s -> info s' = info s -> SI sh s'.
Proof.
  intros sh s s' [B C F1 F2] E1 E2 E3 E4 E5 E6 E7. constructor.
  - now apply (SB_same sh s).
  - unfold ctl, settled in *. now rewrite E2, E6, E7.
  - now rewrite E2, E5, E6.
  - now rewrite E2, E5.
Qed.

Lemma wstep_q_SI : forall sh s l s', SI sh s -> wstep_q sh s l = Some s' -> SI sh s'.
Proof.
  intros sh s l s' H E. unfold wstep_q in E. destruct (quiet s l) eqn:Q; [|discriminate]. unfold wstep in E.
  destruct (wstep_res sh s l) as [[s1|c]|] eqn:W; try discriminate. injection E as <-. unfold wstep_res in W.
  pose proof H as H0. destruct H as [B C F1 F2]. destruct l as [c|c| |c| | | | |n| | | |n].
  - destruct ((c =? 0) || inq s c || freed s c) eqn:G; [discriminate|]. injection W as <-.
    apply orb_false_iff in G as [G G3]. apply orb_false_iff in G as [G1 G2]. apply Nat.eqb_neq in G1.
    assert (NI : ~ In c (queue s)) by (intros I; apply inq_in in I; congruence).
    constructor; simpl; auto. destruct B. destruct sb_z0 as (Z&Z1&Z2). constructor; simpl; auto.
    + rewrite in_app_iff. simpl. intuition.
    + apply snoc_nd; auto.
    + rewrite in_app_iff. intuition.
    + rewrite in_app_iff. intuition.
    + intros d D I. apply in_app_iff in I as [I|[<-|[]]]; [now apply (sb_fr0 d)|congruence].
  - destruct (inq s c); [|discriminate]. injection W as <-. now apply (SI_same sh s).
  - destruct (inuser s); [|discriminate]. injection W as <-. now apply (SI_same sh s).
  - injection W as <-. now apply (SI_same sh s).
  - destruct (inuser s); [|discriminate]. injection W as <-. now apply (SI_same sh s).
  - destruct (inuser s && _); [|discriminate]. injection W as <-. now apply (SI_same sh s).
  - destruct (busy s && _ && _); injection W as <-; now apply (SI_same sh s).
  - destruct (inuser s) eqn:U; [|discriminate]. injection W as <-. unfold inuser in U. unfold ctl in C.
    destruct (at_ (now s)) eqn:A; try discriminate. apply negb_true_iff, Nat.eqb_neq in U.
    destruct C as [[C1 C2]|[C1 _]]; [|contradiction]. constructor; simpl.
    + destruct B, sb_z0 as (Z&Z1&Z2). constructor; simpl; auto. split; auto. split; auto. rewrite upd_other; auto.
    + unfold ctl. simpl. split; auto. split; auto. congruence.
    + auto.
    + auto.
  - assert (X : own (now s) = curr s \/ own (now s) = 0).
    { unfold ctl, settled in C. destruct (at_ (now s)); try discriminate; tauto. }
    assert (AU : at_ (now s) = PUser \/ at_ (now s) = PEnd) by (destruct (at_ (now s)); try discriminate; auto).
    assert (Y : yield sh s n = Some (WOk s1)) by (destruct (at_ (now s)); try discriminate; exact W). clear W.
    unfold yield in Y.
    set (s0 := match info s with None => if own (now s) =? 0 then set_busy false s else s | Some _ => s end) in *.
    assert (E0 : now s0 = now s /\ info s0 = info s /\ curr s0 = curr s /\ fin s0 = fin s /\ queue s0 = queue s /\ SB sh s0).
    { unfold s0. destruct (info s) eqn:I; [repeat (split; [auto|]); exact B|].
      destruct (own (now s) =? 0); simpl; repeat (split; [auto|]); [now apply (SB_same sh s)|exact B]. }
    destruct E0 as (N0&I0&C0&Fi0&Q0&B0). clearbody s0.
    assert (B1 : SB sh (reap s0)) by (apply reap_SB; auto; rewrite N0, C0; exact X).
    assert (P1 : now (reap s0) = now s /\ info (reap s0) = info s /\ curr (reap s0) = curr s /\ fin (reap s0) = fin s) by (simpl; auto).
    remember (reap s0) as r eqn:Er. destruct P1 as (N1&I1&C1&Fi1). rewrite I1 in Y. clear Er.
    destruct (info s) as [[f t]|] eqn:I.
    + destruct (n =? 0); [|discriminate]. destruct (freed r f); [discriminate|]. destruct (freed r t); [discriminate|].
      simpl in Y. injection Y as <-.
      assert (Z : at_ (now s) = PUser /\ own (now s) = 0 /\ t = curr s).
      { unfold ctl, settled in C. destruct AU as [AU|AU]; rewrite AU in C; [|destruct C as (_&C&_); congruence].
        split; auto. destruct C as [[_ C]|(C&g&G&_)]; [congruence|]. split; auto. congruence. }
      destruct Z as (Z1&Z2&Z3). constructor; simpl.
      * destruct B1. constructor; simpl; auto. discriminate.
      * unfold ctl. simpl. rewrite N1, C1. auto.
      * rewrite C1, Fi1. intros V. apply F1 in V. congruence.
      * rewrite N1, Fi1, Z2. destruct B, sb_z0 as (_&_&V). congruence.
    + destruct (pick r n) eqn:P; [|discriminate]. simpl in Y.
      assert (Z : own (now s) = curr s).
      { unfold ctl, settled in C. destruct AU as [AU|AU]; rewrite AU in C; [|tauto].
        destruct C as [[Z _]|(_&g&G&_)]; [exact Z|congruence]. }
      pose proof (chosen_SB sh r n B1 P) as B2. destruct B1 as [_ _ (K1&K2&K3) _ _ _ _ _].
      destruct (pick_ok r n K1 K3 P) as (Fn&_&_).
      assert (E2 : now (chosen n r) = now r /\ curr (chosen n r) = n /\ info (chosen n r) = info r /\ fin (chosen n r) = fin r)
        by (unfold chosen; destruct (n =? 0); simpl; auto).
      destruct E2 as (E21&E22&E23&E24). remember (chosen n r) as r2 eqn:Er2. clear Er2. destruct (Nat.eqb_spec n 0) as [->|Nz].
      * injection Y as <-. constructor; simpl; rewrite ?E21, ?E22, ?E23, ?E24, ?N1.
        -- now apply goto_SB.
        -- unfold ctl. simpl. rewrite E21, E22, E23, N1. split; [congruence|auto].
        -- congruence.
        -- auto.
      * injection Y as Y. eapply finish_prepare_SI; [exact B2| | | | | |exact Y]; try congruence.
  - unfold ctl in C. destruct (at_ (now s)) as [| | |f| | | |] eqn:A; try discriminate. destruct C as (C1&C2&C3).
    destruct (existsb (can s) (queue s) || negb (wt s f)); [|discriminate]. injection W as W.
    assert (Z : fin s 0 = false) by (destruct B; tauto).
    eapply finish_prepare_SI; [exact B| | | | | |exact W]; auto. intros V ->. congruence.
  - unfold ctl in C. destruct (at_ (now s)) as [| | | |f t|t| |] eqn:A; try discriminate; injection W as W;
      unfold switch in W.
    + destruct C as (C1&C2&C3). destruct (freed s f); [discriminate|]. destruct (freed s t); [discriminate|]. injection W as <-.
      apply load_SI; simpl; subst f.
      * destruct B. constructor; simpl; auto.
        -- apply (saved_own s (mkK (own (now s)) PPost)). auto.
        -- intros c _. apply saved_slots with (sh := sh); simpl; auto. constructor; auto.
      * apply saved_slots with (sh := sh); simpl; auto.
      * destruct C3 as [C3|(C3&C4&C5)]; auto. right. split; auto. eauto.
      * destruct (fin s (curr s)); auto. specialize (F1 eq_refl). congruence.
    + destruct C as (C1&C2&C3). destruct (freed s 0); [discriminate|]. destruct (freed s t); [discriminate|]. injection W as <-.
      assert (SL : forall c, slot_ok c (at_ (upd (regs s) 0 (mkK (own (now s)) PPostS) c))).
      { intros c. pose proof (saved_slots sh s (mkK (own (now s)) PPostS) B) as V. simpl in V. rewrite C1 in *. apply V; auto. }
      apply load_SI; simpl; auto.
      * destruct B. constructor; simpl; auto.
        pose proof (saved_own s (mkK (own (now s)) PPostS) sb_own0) as V. simpl in V. rewrite C1 in *. exact V.
      * destruct (fin s (curr s)); auto. specialize (F1 eq_refl). congruence.
  - unfold ctl in C. destruct (at_ (now s)) eqn:A; try discriminate; injection W as W.
    + eapply tail_SI; [exact B|exact C| | |exact W].
      * destruct (fin s (own (now s))); auto. now destruct F2.
      * destruct (fin s (curr s)); auto. specialize (F1 eq_refl). congruence.
    + destruct C as [_ C]. eapply tail_SI; [| | | |exact W]; simpl.
      * now apply (SB_same sh s).
      * exact C.
      * destruct (fin s (own (now s))); auto. now destruct F2.
      * destruct (fin s (curr s)); auto. specialize (F1 eq_refl). congruence.
  - unfold signal in W. destruct (pend s); [|discriminate]. simpl in W. destruct (Nat.eqb_spec (cnt s) 0) as [Cn|Cn].
    2:{ simpl in W. destruct (n =? 0); [|discriminate]. injection W as <-. now apply (SI_same sh s). }
    simpl in Q. simpl in W. destruct (at_ (now s)) eqn:A; try discriminate. apply andb_true_iff in Q as [Q I].
    apply Nat.eqb_eq in Q. destruct (info s) eqn:I0; [discriminate|]. clear I.
    destruct (sigpoint PUser && pick s n) eqn:P; [|discriminate]. simpl in P. injection W as W.
    destruct (freed s (curr s)); [discriminate|].
    pose proof (chosen_SB sh s n B P) as B2. pose proof B as [_ _ (K1&K2&K3) _ _ _ _ _].
    destruct (pick_ok s n K1 K3 P) as (Fn&_&_).
    set (s2 := chosen n (set_pend false s)) in *.
    assert (E2 : now s2 = now s /\ curr s2 = n /\ info s2 = None /\ fin s2 = fin s /\ queue s2 = queue s /\ SB sh s2).
    { unfold s2, chosen in *. destruct (n =? 0); simpl; repeat (split; [auto|]); now apply (SB_same _ _ _ B2). }
    destruct E2 as (E21&E22&E23&E24&E25&B3). clearbody s2. clear B2.
    assert (Acu : curr s = 0 \/ In (curr s) (queue s2)) by (rewrite E25; now destruct B).
    pose proof (prepare_SI sh s2 (curr s) n B3 E23 E22) as R. rewrite E24 in R. specialize (R Fn Acu).
    destruct (prepare sh s2 (curr s) n) as [s3|s3 f t].
    + destruct R as (B4&R1&R2&R3&_&_&_&_&_&_&_&_&D). injection W as <-. constructor; auto.
      * unfold ctl, settled. rewrite R1, E21, A, R3. destruct D as [[D1 D2]|(D1&D2&D3)].
        -- left. split; congruence.
        -- right. split; [congruence|]. eauto.
      * rewrite R3, R2. rewrite ?E24. congruence.
      * rewrite R1, R2, ?E24, E21, A. exact F2.
    + destruct R as (B4&R1&R2&R3&_&_&_&_&_&_&_&_&D1&D2&D3&D4). injection W as <-.
      assert (O : f = own (now s3)) by (rewrite R1, E21; congruence).
      assert (SL : forall c, slot_ok c (at_ (upd (regs s3) f (now s3) c))).
      { intros c. pose proof (saved_slots sh s3 (now s3) B4 eq_refl) as V. rewrite <- O in V. apply V. rewrite R1, E21, A. exact I. }
      apply load_SI; simpl; auto.
      * destruct B4. constructor; simpl; auto. rewrite O. now apply saved_own.
      * rewrite R3. destruct D4 as [D4|(D4&D5&D6)]; auto. right. split; auto. eauto.
      * now rewrite R3, R2, ?E24.
Qed.
Lemma si_run : forall sh ls s, run (wstep_q sh) winit ls = Some s -> SI sh s.
Proof. intros sh. apply run_inv; [apply si_init|apply wstep_q_SI]. Qed.

(** ** Histories *)
Definition okh (h : list wev) : Prop := forall post e pre, h = post ++ e :: pre -> event_ok e pre.
Lemma okh_cons : forall e h, event_ok e h -> okh h -> okh (e :: h).
Proof.
  intros e h A B post e' pre' E. destruct post as [|x post]; simpl in E; injection E as -> ->; auto.
  apply (B post e' pre'). reflexivity.
Qed.

Record HI (s : wst) : Prop := {
  h_ok : okh (whist s);
  h_new : forall c, In (WNew c) (whist s) <-> In c (queue s) \/ freed s c = true;
  h_fin : forall c, In (WFin c) (whist s) <-> fin s c = true;
  h_det : forall c, In (WDet c) (whist s) <-> det s c = true;
  h_reap : forall c, In (WReap c) (whist s) <-> freed s c = true;
  h_run : last_run (whist s) = own (now s) }.

Lemma hi_init : HI winit.
Proof.
  constructor; simpl; try (intros; split; intros; intuition discriminate); auto.
  intros post e pre E. destruct post; discriminate.
Qed.

(** Reaping. *)
Lemma map_reap_in : forall e L, In e (map WReap L) -> exists c, e = WReap c /\ In c L.
Proof. intros e L I. apply in_map_iff in I as (c&<-&I). eauto. Qed.
Lemma last_run_reap : forall L h, last_run (map WReap L ++ h) = last_run h.
Proof. induction L; simpl; auto. Qed.
Lemma okh_reap : forall L h, NoDup L -> okh h ->
  (forall c, In c L -> In (WFin c) h /\ In (WDet c) h /\ ~ In (WReap c) h /\ last_run h <> c) -> okh (map WReap L ++ h).
Proof.
  induction L as [|c L IH]; intros h N O A; simpl; auto. inversion N as [|? ? N1 N2]; subst. apply okh_cons.
  - destruct (A c) as (A1&A2&A3&A4); [now left|]. simpl. rewrite !in_app_iff, last_run_reap. repeat split; auto.
    intros [I|I]; auto. apply in_map_iff in I as (d&E&I). injection E as ->. auto.
  - apply IH; auto. intros; apply A; now right.
Qed.
Lemma reap_HI : forall sh s, SB sh s -> HI s -> own (now s) = curr s \/ own (now s) = 0 -> HI (reap s).
Proof.
  intros sh s B H X. pose proof B as []. destruct H. constructor; simpl.
  - apply okh_reap; auto; [now apply NoDup_filter|]. intros c I. apply filter_In in I as [I V]. apply victim_in in V as (V1&V2&V3&V4).
    split; [now apply h_fin0|]. split; [now apply h_det0|]. split.
    + rewrite h_reap0. intros F. now apply (sb_fr0 c).
    + rewrite h_run0. destruct X as [X|X]; [congruence|]. rewrite X. intros <-. tauto.
  - intros c. rewrite in_app_iff, h_new0, filter_In, orb_true_iff, negb_true_iff. split.
    + intros [I|[I|I]]; auto; [apply map_reap_in in I as (d&E&_); discriminate|].
      destruct (victim s c); auto.
    + intros [I|[I|I]]; [tauto|auto|]. right. left. now apply victim_in in I.
  - intros c. rewrite in_app_iff, h_fin0. split; auto. intros [I|I]; auto. apply map_reap_in in I as (d&E&_); discriminate.
  - intros c. rewrite in_app_iff, h_det0. split; auto. intros [I|I]; auto. apply map_reap_in in I as (d&E&_); discriminate.
  - intros c. rewrite in_app_iff, h_reap0, orb_true_iff. split.
    + intros [I|I]; auto. right. apply in_map_iff in I as (d&E&I). injection E as ->. now apply filter_In in I.
    + intros [I|I]; auto. left. apply in_map. apply filter_In. split; auto. now apply victim_in in I.
  - rewrite last_run_reap. exact h_run0.
Qed.
(** An event that is neither a creation, an end, a detach, a destruction nor a start. *)
Definition plain (e : wev) : bool := match e with WShrink _ _ | WSwitch _ _ | WSig _ => true | _ => false end.
Lemma HI_same : forall s s', HI s -> whist s' = whist s -> queue s' = queue s -> freed s' = freed s -> fin s' = fin s ->
  det s' = det s -> own (now s') = own (now s) -> HI s'.
Proof. intros s s' [] E1 E2 E3 E4 E5 E6. constructor; rewrite ?E1, ?E2, ?E3, ?E4, ?E5, ?E6; auto. Qed.
Lemma HI_plain : forall s s' e, HI s -> plain e = true -> event_ok e (whist s) -> whist s' = e :: whist s -> queue s' = queue s ->
  freed s' = freed s -> fin s' = fin s -> det s' = det s -> own (now s') = own (now s) -> HI s'.
Proof.
  intros s s' e [] P O E1 E2 E3 E4 E5 E6. constructor; rewrite ?E1, ?E2, ?E3, ?E4, ?E5, ?E6; auto; simpl.
  - now apply okh_cons.
  - intros c. rewrite <- h_new0. split; auto. intros [->|I]; auto. discriminate.
  - intros c. rewrite <- h_fin0. split; auto. intros [->|I]; auto. discriminate.
  - intros c. rewrite <- h_det0. split; auto. intros [->|I]; auto. discriminate.
  - intros c. rewrite <- h_reap0. split; auto. intros [->|I]; auto. discriminate.
  - destruct e; simpl; auto. discriminate.
Qed.
Lemma tail_HI : forall s s', HI s -> tail s = WOk s' -> HI s'.
Proof.
  intros s s' H E. unfold tail in E. destruct (freed s (curr s)); [discriminate|]. destruct (pre s (curr s)) as [p|].
  - destruct (freed s p) eqn:F; [discriminate|]. injection E as <-.
    apply (HI_plain s _ (WShrink p (loc s p))); auto. simpl. rewrite (h_reap _ H). congruence.
  - injection E as <-. now apply (HI_same s).
Qed.
Lemma load_HI : forall s t, HI s -> own (regs s t) = t -> t = 0 \/ (In t (queue s) /\ fin s t = false /\ freed s t = false) ->
  HI (load t s).
Proof.
  intros s t H O A. assert (K : own (match at_ (regs s t) with PFresh => mkK (own (regs s t)) PUser | _ => regs s t end) = t).
  { destruct (at_ (regs s t)); auto. }
  pose proof H as []. unfold load. constructor; simpl; rewrite ?K, ?O; auto.
  - apply okh_cons; auto. simpl. destruct A as [->|(A1&A2&A3)]; auto. right. rewrite h_new0, h_fin0, h_reap0. split; auto. split; congruence.
  - intros c. rewrite <- h_new0. split; auto. intros [E|I]; auto. discriminate.
  - intros c. rewrite <- h_fin0. split; auto. intros [E|I]; auto. discriminate.
  - intros c. rewrite <- h_det0. split; auto. intros [E|I]; auto. discriminate.
  - intros c. rewrite <- h_reap0. split; auto. intros [E|I]; auto. discriminate.
Qed.
Lemma prepare_keeps : forall sh s cu n,
  match prepare sh s cu n with
  | Stay s' | Swap s' _ _ => whist s' = whist s /\ queue s' = queue s /\ freed s' = freed s /\ fin s' = fin s /\ det s' = det s /\
      now s' = now s /\ cnt s' = cnt s /\ gds s' = gds s /\ pre s' = pre s /\ regs s' = regs s /\ loc s' = loc s /\ curr s' = curr s
  end.
Proof.
  intros. unfold prepare. destruct (cu =? n); [auto 20|]. destruct (sh cu || sh n); [|auto 20].
  destruct (cu =? 0); simpl; auto 20.
Qed.
Lemma finish_prepare_HI : forall sh s cu n s', HI s -> finish_prepare sh s cu n = WOk s' -> HI s'.
Proof.
  intros sh s cu n s' H E. unfold finish_prepare in E. destruct (freed s cu); [discriminate|].
  pose proof (prepare_keeps sh s cu n) as P. destruct (prepare sh s cu n) as [s1|s1 f t];
    destruct P as (P1&P2&P3&P4&P5&P6&_); (assert (H1 : HI s1) by (apply (HI_same s); congruence)).
  - now apply (tail_HI s1).
  - injection E as <-. now apply (HI_same s1).
Qed.
Lemma switch_HI : forall sh s f t p s', SB sh s -> HI s -> own (now s) = f -> fin s t = false -> t = 0 \/ In t (queue s) ->
  switch s f t p = WOk s' -> HI s'.
Proof.
  intros sh s f t p s' B H O F A E. unfold switch in E. destruct (freed s f) eqn:F1; [discriminate|].
  destruct (freed s t) eqn:F2; [discriminate|]. injection E as <-. destruct B. apply load_HI; simpl.
  - apply (HI_plain s _ (WSwitch f t)); auto. simpl. rewrite (h_run _ H), (h_reap _ H). split; congruence.
  - rewrite <- O. now apply (saved_own s (mkK (own (now s)) p)).
  - tauto.
Qed.
Lemma wstep_q_HI : forall sh s l s', SI sh s -> HI s -> wstep_q sh s l = Some s' -> HI s'.
Proof.
  intros sh s l s' S H E. unfold wstep_q in E. destruct (quiet s l) eqn:Q; [|discriminate]. unfold wstep in E.
  destruct (wstep_res sh s l) as [[s1|c]|] eqn:W; try discriminate. injection E as <-. unfold wstep_res in W.
  destruct S as [B C F1 F2]. pose proof B as [_ _ (K1&K2&K3) _ _ _ _ _]. destruct l as [c|c| |c| | | | |n| | | |n].
  - destruct ((c =? 0) || inq s c || freed s c) eqn:G; [discriminate|]. injection W as <-.
    apply orb_false_iff in G as [G G3]. apply orb_false_iff in G as [G1 G2]. apply Nat.eqb_neq in G1.
    assert (NI : ~ In c (queue s)) by (intros I; apply inq_in in I; congruence).
    destruct H. constructor; simpl; auto.
    + apply okh_cons; auto. simpl. split; auto. rewrite h_new0. intros [I|I]; congruence.
    + intros d. rewrite in_app_iff, h_new0. simpl. split.
      * intros [I|I]; [injection I as ->; auto|tauto].
      * intros [[I|[I|[]]]|I]; subst; auto.
    + intros d. rewrite <- h_fin0. split; auto. intros [I|I]; auto. discriminate.
    + intros d. rewrite <- h_det0. split; auto. intros [I|I]; auto. discriminate.
    + intros d. rewrite <- h_reap0. split; auto. intros [I|I]; auto. discriminate.
  - destruct (inq s c) eqn:G; [|discriminate]. injection W as <-. apply inq_in in G.
    destruct H. constructor; simpl; auto.
    + apply okh_cons; auto. simpl. rewrite h_new0, h_reap0. split; auto. intros F. now apply (sb_fr _ _ B c).
    + intros d. rewrite <- h_new0. split; auto. intros [I|I]; auto. discriminate.
    + intros d. rewrite <- h_fin0. split; auto. intros [I|I]; auto. discriminate.
    + intros d. unfold upd. destruct (Nat.eqb_spec d c) as [->|N]; [tauto|]. rewrite <- h_det0.
      split; auto. intros [I|I]; auto. congruence.
    + intros d. rewrite <- h_reap0. split; auto. intros [I|I]; auto. discriminate.
  - destruct (inuser s); [|discriminate]. injection W as <-. now apply (HI_same s).
  - injection W as <-. now apply (HI_same s).
  - destruct (inuser s); [|discriminate]. injection W as <-. now apply (HI_same s).
  - destruct (inuser s && _); [|discriminate]. injection W as <-. now apply (HI_same s).
  - destruct (busy s && _ && _); injection W as <-; now apply (HI_same s).
  - destruct (inuser s) eqn:U; [|discriminate]. injection W as <-. unfold inuser in U.
    destruct (at_ (now s)) eqn:A; try discriminate. apply negb_true_iff, Nat.eqb_neq in U.
    assert (NF : fin s (own (now s)) = false) by (destruct (fin s (own (now s))); auto; now destruct F2).
    destruct H. constructor; simpl; auto.
    + apply okh_cons; auto. simpl. rewrite h_fin0, h_run0. intuition congruence.
    + intros d. rewrite <- h_new0. split; auto. intros [I|I]; auto. discriminate.
    + intros d. unfold upd. destruct (Nat.eqb_spec d (own (now s))) as [->|N]; [tauto|]. rewrite <- h_fin0.
      split; auto. intros [I|I]; auto. congruence.
    + intros d. rewrite <- h_det0. split; auto. intros [I|I]; auto. discriminate.
    + intros d. rewrite <- h_reap0. split; auto. intros [I|I]; auto. discriminate.
  - assert (X : own (now s) = curr s \/ own (now s) = 0).
    { unfold ctl, settled in C. destruct (at_ (now s)); try discriminate; tauto. }
    assert (Y : yield sh s n = Some (WOk s1)) by (destruct (at_ (now s)); try discriminate; exact W). clear W.
    unfold yield in Y.
    set (s0 := match info s with None => if own (now s) =? 0 then set_busy false s else s | Some _ => s end) in *.
    assert (H1 : HI (reap s0)).
    { apply (reap_HI sh); unfold s0; destruct (info s); auto; destruct (own (now s) =? 0); auto.
      - now apply (SB_same sh s). - now apply (HI_same s). }
    remember (reap s0) as r eqn:Er. clear Er. destruct (info r) as [[f t]|] eqn:I.
    + destruct (n =? 0); [|discriminate]. destruct (freed r f); [discriminate|]. destruct (freed r t); [discriminate|].
      simpl in Y. injection Y as <-. now apply (HI_same r).
    + destruct (pick r n) eqn:P; [|discriminate]. simpl in Y. 
      assert (H2 : HI (chosen n r)) by (unfold chosen; destruct (n =? 0); now apply (HI_same r)).
      destruct (n =? 0); injection Y as Y.
      * rewrite <- Y. now apply (HI_same (chosen n r)).
      * now apply finish_prepare_HI in Y.
  - unfold ctl in C. destruct (at_ (now s)) as [| | |f| | | |] eqn:A; try discriminate.
    destruct (existsb (can s) (queue s) || negb (wt s f)); [|discriminate]. injection W as W. now apply finish_prepare_HI in W.
  - assert (FC : at_ (now s) <> PEnd -> fin s (curr s) = false) by (intros; destruct (fin s (curr s)); auto; now specialize (F1 eq_refl)).
    unfold ctl in C. destruct (at_ (now s)) as [| | | |f t|t| |] eqn:A; try discriminate; injection W as W.
    + destruct C as (C1&C2&C3). apply (switch_HI sh) in W; auto.
      * destruct C3 as [[-> _]|(->&_)]; auto. apply FC. discriminate.
      * destruct C3 as [[-> _]|(->&_)]; auto. now destruct B.
    + destruct C as (C1&C2&C3). apply (switch_HI sh) in W; auto; subst t; [|now destruct B].
      apply FC. discriminate.
  - destruct (at_ (now s)) eqn:A; try discriminate; injection W as W.
    + now apply tail_HI in W.
    + apply tail_HI in W; auto. now apply (HI_same s).
  - unfold signal in W. destruct (pend s); [|discriminate]. simpl in W. destruct (Nat.eqb_spec (cnt s) 0) as [Cn|Cn].
    2:{ simpl in W. destruct (n =? 0); [|discriminate]. injection W as <-. now apply (HI_same s). }
    simpl in Q. simpl in W. destruct (at_ (now s)) eqn:A; try discriminate. apply andb_true_iff in Q as [Q I].
    apply Nat.eqb_eq in Q. destruct (info s) eqn:I0; [discriminate|]. clear I.
    destruct (sigpoint PUser && pick s n) eqn:P; [|discriminate]. simpl in P. injection W as W.
    destruct (freed s (curr s)) eqn:Fc; [discriminate|]. destruct (pick_ok s n K1 K3 P) as (Fn&An&_).
    set (s2 := chosen n (set_pend false s)) in *.
    assert (E2 : now s2 = now s /\ curr s2 = n /\ info s2 = None /\ fin s2 = fin s /\ queue s2 = queue s /\ freed s2 = freed s /\ SB sh s2 /\ HI s2).
    { unfold s2, chosen in *. pose proof (chosen_SB sh s n B P) as B2. unfold chosen in B2.
      destruct (n =? 0); simpl; repeat (split; [auto|]); try (now apply (HI_same s)); now apply (SB_same _ _ _ B2). }
    destruct E2 as (E21&E22&E23&E24&E25&E26&B3&H3). clearbody s2.
    assert (Acu : curr s = 0 \/ In (curr s) (queue s2)) by (rewrite E25; now destruct B).
    pose proof (prepare_SI sh s2 (curr s) n B3 E23 E22) as R. rewrite E24 in R. specialize (R Fn Acu).
    destruct (prepare sh s2 (curr s) n) as [s3|s3 f t].
    + destruct R as (B4&R1&R2&R3&R4&_&_&R5&R6&R7&_&_&D). injection W as <-. apply (HI_same s2); auto; congruence.
    + destruct R as (B4&R1&R2&R3&R4&_&_&R5&R6&R7&_&_&D1&D2&D3&D4). injection W as <-.
      assert (O : f = own (now s3)) by (rewrite R1, E21; congruence).
      assert (H4 : HI s3) by (apply (HI_same s2); auto; congruence).
      assert (T : t = n \/ t = 0) by (destruct D4 as [[-> _]|(->&_)]; auto).
      apply load_HI; simpl.
      * apply (HI_plain s3 _ (WSig (own (now s3)))); auto. simpl. now rewrite (h_run _ H4).
      * rewrite O. apply saved_own. now destruct B4.
      * destruct (Nat.eq_dec t 0) as [->|Nt]; auto. right. destruct T as [->|T]; [|contradiction]. destruct An as [An|An]; [contradiction|].
        rewrite R6, R2, ?E24, R4, E25, E26. split; auto. split; auto. destruct (freed s n) eqn:V; auto. now apply (sb_fr _ _ B n) in V.
Qed.
Lemma si_hi_run : forall sh ls s, run (wstep_q sh) winit ls = Some s -> SI sh s /\ HI s.
Proof.
  intros sh ls s R. refine (run_inv (wstep_q sh) (fun s => SI sh s /\ HI s) winit _ _ ls R).
  - split; [apply si_init|apply hi_init].
  - intros a l b [A B] E. split; [now apply (wstep_q_SI sh a l)|now apply (wstep_q_HI sh a l)].
Qed.

(** ** Executions without signals: what pre_ctx can be *)
Record CI (s : wst) : Prop := {
  c_turn : forall c, c <> 0 -> c <> own (now s) -> (at_ (regs s c) = PFresh <-> turns c (whist s) = 0);
  c_own : own (now s) <> 0 -> 1 <= turns (own (now s)) (whist s);
  c_slot : forall c, (c = 0 -> own (now s) <> 0) -> at_ (regs s c) <> PUser;
  c_prea : forall c, c <> 0 -> turns c (whist s) = 0 -> pre s c = None;
  c_preb : forall c, c <> 0 -> 2 <= turns c (whist s) -> (c = own (now s) -> at_ (now s) <> PPost) -> pre s c = None;
  c_prec : forall c p, c <> 0 -> turns c (whist s) = 1 -> pre s c = Some p -> In (WSwitch p c) (whist s);
  c_post : at_ (now s) = PPost \/ at_ (now s) = PPostS -> exists p, pre s (own (now s)) = Some p /\ freed s p = false;
  c_idle : own (now s) = 0 -> info s = None -> at_ (now s) = PUser \/ (exists f, at_ (now s) = PSleep f) -> pre s 0 = None }.
Lemma ci_init : CI winit.
Proof.
  constructor; simpl; auto; try discriminate; try congruence; try lia.
  - split; auto.
  - intros [H|H]; discriminate.
Qed.
Lemma turns_cons : forall c e h, turns c (e :: h) = (if is_run c e then 1 else 0) + turns c h.
Proof. intros. unfold turns. simpl. destruct (is_run c e); reflexivity. Qed.
Lemma turns_reap : forall c L h, turns c (map WReap L ++ h) = turns c h.
Proof. induction L; intros; simpl; auto. rewrite turns_cons. simpl. auto. Qed.

(** Nothing that matters changed, except that more may be destroyed while no switch is half done. *)
Lemma CI_same : forall s s', CI s -> regs s' = regs s -> now s' = now s -> pre s' = pre s ->
  (forall c, turns c (whist s') = turns c (whist s)) -> (forall e, In e (whist s) -> In e (whist s')) ->
  (at_ (now s) = PPost \/ at_ (now s) = PPostS -> freed s' = freed s) -> (info s' = None -> info s = None) -> CI s'.
Proof.
  intros s s' [] E1 E2 E3 E4 E5 E6 E7. constructor; rewrite ?E1, ?E2, ?E3; intros; rewrite ?E4 in *; auto.
  - rewrite E6; auto.
Qed.
(** The code that runs moves on inside schedule_switch. *)
Lemma CI_goto : forall s p, CI s -> at_ (now s) <> PPost -> p <> PUser -> p <> PPost -> p <> PPostS ->
  (forall f, p = PSleep f -> own (now s) = 0 -> info s = None -> pre s 0 = None) -> CI (goto p s).
Proof.
  intros s p [] A P1 P2 P3 P4. constructor; simpl; auto.
  - intros [H|H]; contradiction.
  - intros O I [H|[f H]]; [contradiction|]. eauto.
Qed.
Lemma tail_CI : forall s s', CI s -> settled s -> tail s = WOk s' -> CI s'.
Proof.
  intros s s' H S E. unfold tail in E. destruct (freed s (curr s)); [discriminate|]. destruct (pre s (curr s)) as [p|] eqn:P.
  - destruct (freed s p) eqn:F; [discriminate|]. injection E as <-. destruct H. constructor; simpl; auto.
    + intros c N T. rewrite turns_cons in T. simpl in T. unfold upd. destruct (c =? curr s); auto.
    + intros c N T _. rewrite turns_cons in T. simpl in T. unfold upd. destruct (Nat.eqb_spec c (curr s)) as [->|Nc]; auto.
      apply c_preb0; auto. intros ->. destruct S as [[S _]|[S _]]; congruence.
    + intros c q N T Q. rewrite turns_cons in T. simpl in T. unfold upd in Q. destruct (c =? curr s); [discriminate|]. right. eauto.
    + intros [Q|Q]; discriminate.
    + intros O I _. unfold upd. destruct (Nat.eqb_spec 0 (curr s)) as [Ec|Nc]; auto.
      destruct S as [[S _]|(_&f&S&_)]; congruence.
  - injection E as <-. destruct H. constructor; simpl; auto.
    + intros c N T _. destruct (Nat.eq_dec c (curr s)) as [->|Nc]; auto. apply c_preb0; auto. intros ->.
      destruct S as [[S _]|[S _]]; congruence.
    + intros [Q|Q]; discriminate.
    + intros O I _. destruct S as [[S _]|(_&f&S&_)]; congruence.
Qed.
Lemma switch_CI : forall sh s f t p s', SB sh s -> CI s -> own (now s) = f -> at_ (now s) <> PPost -> (p = PPost \/ p = PPostS) ->
  f <> t \/ f = 0 -> switch s f t p = WOk s' -> CI s'.
Proof.
  intros sh s f t p s' B H O A P N E. unfold switch in E. destruct (freed s f) eqn:Ff; [discriminate|].
  destruct (freed s t) eqn:Ft; [discriminate|]. injection E as <-. destruct B. destruct H. unfold load. simpl.
  set (k := upd (regs s) f (mkK (own (now s)) p) t).
  assert (Ok : own k = t). { unfold k. rewrite <- O. now apply (saved_own s (mkK (own (now s)) p)). }
  assert (Kat : at_ k <> PUser).
  { unfold k, upd. destruct (Nat.eqb_spec t f) as [->|Nt]; simpl; [destruct P as [-> | ->]; discriminate|].
    apply c_slot0. congruence. }
  set (k' := match at_ k with PFresh => mkK (own k) PUser | _ => k end).
  assert (Ok' : own k' = t) by (unfold k'; destruct (at_ k); auto).
  assert (Tt : forall c, turns c (WRun (own k) :: WSwitch f t :: whist s) = (if t =? c then 1 else 0) + turns c (whist s)).
  { intros c. rewrite !turns_cons. simpl. now rewrite Ok. }
  assert (Kf : t <> 0 -> at_ k = PFresh -> turns t (whist s) = 0).
  { intros T0 Q. unfold k, upd in Q. destruct (Nat.eqb_spec t f) as [->|Nt]; [destruct N; contradiction|].
    apply c_turn0; auto. congruence. }
  constructor; simpl; fold k; fold k'; rewrite ?Ok'.
  - intros c Nc Nt. rewrite Tt. destruct (Nat.eqb_spec t c) as [->|_]; [contradiction|]. simpl. unfold upd.
    destruct (Nat.eqb_spec c f) as [->|Ncf]; simpl.
    + subst f. specialize (c_own0 Nc). split; [destruct P as [-> | ->]; discriminate|lia].
    + apply c_turn0; auto. congruence.
  - intros T0. rewrite Tt, Nat.eqb_refl. lia.
  - intros c Cz. unfold upd. destruct (Nat.eqb_spec c f) as [->|Ncf]; simpl; [destruct P as [-> | ->]; discriminate|].
    apply c_slot0. congruence.
  - intros c Nc T. rewrite Tt in T. unfold upd. destruct (Nat.eqb_spec t c) as [->|Nt]; [discriminate|]. simpl in T.
    destruct (Nat.eqb_spec c t) as [->|_]; [contradiction|]. auto.
  - intros c Nc T R. rewrite Tt in T. unfold upd. destruct (Nat.eqb_spec t c) as [->|Nt].
    + exfalso. specialize (R eq_refl).
      assert (at_ k = PFresh).
      { unfold k, upd in *. destruct (Nat.eqb_spec c f) as [->|Ncf]; [destruct N; contradiction|].
        unfold k' in R. pose proof (sb_slot0 c) as L. specialize (L (fun e => False_ind _ (Nc e))).
        destruct (at_ (regs s c)) eqn:Q; simpl in *; try contradiction; try congruence. }
      specialize (Kf Nc H). lia.
    + simpl in T. destruct (Nat.eqb_spec c t) as [->|_]; [contradiction|]. apply c_preb0; auto.
  - intros c q Nc T Q. rewrite Tt in T. right. unfold upd in Q. destruct (Nat.eqb_spec c t) as [->|Nt].
    + injection Q as <-. now left.
    + destruct (Nat.eqb_spec t c) as [->|_]; [contradiction|]. right. simpl in T. auto.
  - intros _. exists f. rewrite upd_same. auto.
  - intros -> I [Q|[g Q]]; exfalso.
    + unfold k' in Q. destruct (at_ k) eqn:Z; try (rewrite Z in Q; discriminate); try contradiction.
      unfold k, upd in Z. destruct (Nat.eqb_spec 0 f) as [E0|E0]; simpl in Z; [destruct P as [-> | ->]; discriminate|].
      pose proof (sb_slot0 0) as L. rewrite Z in L. apply L; auto. congruence.
    + unfold k' in Q. assert (Q' : at_ k = PSleep g) by (destruct (at_ k) eqn:Z; try (rewrite Z in Q); try discriminate; auto).
      unfold k, upd in Q'. destruct (Nat.eqb_spec 0 f) as [E0|E0]; simpl in Q'; [destruct P as [-> | ->]; discriminate|].
      pose proof (sb_slot0 0) as L. rewrite Q' in L. apply L. congruence.
Qed.
Lemma tail_freed : forall sh s p, SB sh s -> CI s -> settled s ->
  at_ (now s) = PPost \/ at_ (now s) = PPostS \/ (curr s = 0 -> info s = None /\ (at_ (now s) = PUser \/ exists f, at_ (now s) = PSleep f)) ->
  tail s = WFreed p -> freed s p = true /\ curr s <> 0 /\ first_turn (curr s) (whist s) /\ In (WSwitch p (curr s)) (whist s).
Proof.
  intros sh s p B C S A E. unfold tail in E. destruct (freed s (curr s)) eqn:Fc.
  { exfalso. destruct B. destruct sb_cur0 as [Q|Q]; [rewrite Q in Fc; destruct sb_z0 as (_&Z&_); congruence|].
    now apply (sb_fr0 (curr s)). }
  destruct (pre s (curr s)) as [q|] eqn:P; [|discriminate]. destruct (freed s q) eqn:Fq; [|discriminate]. injection E as <-.
  split; auto. pose proof C as []. destruct (Nat.eq_dec (curr s) 0) as [Z|Z].
  - exfalso. assert (O : own (now s) = 0) by (destruct S as [[S _]|[S _]]; congruence).
    destruct A as [A|[A|A]].
    + destruct c_post0 as (p&P1&P2); auto. rewrite O, <- Z in P1. congruence.
    + destruct c_post0 as (p&P1&P2); auto. rewrite O, <- Z in P1. congruence.
    + destruct (A Z) as [A1 A2]. rewrite Z in P. rewrite c_idle0 in P; auto. discriminate.
  - split; auto. destruct (turns (curr s) (whist s)) as [|[|m]] eqn:T.
    + rewrite c_prea0 in P; auto. discriminate.
    + split; [exact T|]. eauto.
    + exfalso. assert (Q : ~ (curr s = own (now s) -> at_ (now s) <> PPost)).
      { intros Q. rewrite c_preb0 in P; auto; [discriminate|lia]. }
      destruct (Nat.eq_dec (curr s) (own (now s))) as [O|O]; [|now apply Q].
      assert (X : at_ (now s) = PPost) by (destruct (at_ (now s)); auto; exfalso; apply Q; discriminate).
      destruct c_post0 as (p&P1&P2); auto. rewrite <- O in P1. congruence.
Qed.

(** The states in which schedule_switch chooses. *)
Definition choosing (s : wst) : Prop := at_ (now s) = PUser \/ at_ (now s) = PEnd \/ exists f, at_ (now s) = PSleep f.
Lemma finish_prepare_CI : forall sh s cu n r, SB sh s -> CI s -> info s = None -> curr s = n -> fin s n = false ->
  cu = own (now s) -> choosing s -> (n = 0 -> at_ (now s) <> PEnd) ->
  finish_prepare sh s cu n = r ->
  match r with
  | WOk s' => CI s'
  | WFreed p => freed s p = true /\ curr s <> 0 /\ first_turn (curr s) (whist s) /\ In (WSwitch p (curr s)) (whist s)
  end.
Proof.
  intros sh s cu n r B C I Cu F O A NE E. unfold finish_prepare in E.
  assert (Acu : cu = 0 \/ In cu (queue s)) by (destruct B; rewrite O; auto).
  destruct (freed s cu) eqn:Fcu.
  { exfalso. destruct B. destruct Acu as [-> |Acu]; [destruct sb_z0 as (_&Z&_); congruence|]. now apply (sb_fr0 cu). }
  pose proof (prepare_SI sh s cu n B I Cu F Acu) as P. destruct (prepare sh s cu n) as [s1|s1 f t].
  - destruct P as (B1&E1&E2&E3&E4&E5&E6&E7&_&_&_&_&D).
    assert (C1 : CI s1).
    { apply (CI_same s); auto; rewrite ?E7; auto. }
    assert (S1 : settled s1).
    { unfold settled. rewrite E1, E3, <- O. destruct D as [[D1 D2]|(D1&D2&D3)]; [auto|]. right. split; auto. eauto. }
    destruct r as [s'|p].
    + apply (tail_CI s1); auto.
    + pose proof (tail_freed sh s1 p B1 C1 S1) as T. rewrite E1, E3, E4, E7 in T. rewrite Cu. apply T; auto. right. right.
      intros Z. destruct D as [[D1 D2]|(D1&D2&_)]; [|contradiction]. split; auto.
      destruct A as [A|[A|A]]; auto. now apply NE in Z.
  - destruct P as (B1&E1&E2&E3&E4&E5&E6&E7&_&_&_&_&Ef&Ne&Nt&D). subst r. apply CI_goto; try discriminate.
    + apply (CI_same s); auto; rewrite ?E7; auto.
    + rewrite E1. destruct A as [A|[A|[g A]]]; rewrite A; discriminate.
Qed.

(** What a touch of a destroyed coroutine means when no signal was involved. *)
Definition touch (sh : nat -> bool) (s : wst) (p : nat) : Prop :=
  (exists c, c <> 0 /\ first_turn c (whist s) /\ In (WSwitch p c) (whist s)) \/
  (exists t, info s = Some (p, t) /\ own (now s) = 0 /\ sh p || sh t = true).
Lemma wstep_c_CI : forall sh s l r, SI sh s -> HI s -> CI s -> coop l = true -> wstep_res sh s l = Some r ->
  match r with
  | WOk s' => CI s'
  | WFreed p => In (WFin p) (whist s) /\ In (WDet p) (whist s) /\ touch sh s p
  end.
Proof.
  intros sh s l r S H C Co W. unfold wstep_res in W.
  destruct S as [B Ct F1 F2]. pose proof B as [_ _ (K1&K2&K3) _ _ _ _ _].
  assert (DEAD : forall p, freed s p = true -> In (WFin p) (whist s) /\ In (WDet p) (whist s)).
  { intros p P. apply (h_reap _ H) in P. apply in_split in P as (x&y&P). pose proof (h_ok _ H x _ y P) as Q. simpl in Q.
    rewrite P, !in_app_iff. simpl. tauto. }
  destruct l as [c|c| |c| | | | |n| | | |n]; try discriminate.
  - destruct ((c =? 0) || inq s c || freed s c) eqn:G; [discriminate|]. injection W as <-.
    apply (CI_same s); simpl; auto.
  - destruct (inq s c) eqn:G; [|discriminate]. injection W as <-. apply (CI_same s); simpl; auto.
  - destruct (inuser s); [|discriminate]. injection W as <-. now apply (CI_same s).
  - injection W as <-. now apply (CI_same s).
  - destruct (inuser s); [|discriminate]. injection W as <-. now apply (CI_same s).
  - destruct (inuser s && _); [|discriminate]. injection W as <-. now apply (CI_same s).
  - destruct (busy s && _ && _); injection W as <-; now apply (CI_same s).
  - destruct (inuser s) eqn:U; [|discriminate]. injection W as <-. unfold inuser in U.
    destruct (at_ (now s)) eqn:A; try discriminate. apply CI_goto; try discriminate.
    + apply (CI_same s); simpl; auto.
    + simpl. congruence.
  - assert (AU : at_ (now s) = PUser \/ at_ (now s) = PEnd) by (destruct (at_ (now s)); try discriminate; auto).
    assert (X : own (now s) = curr s \/ own (now s) = 0).
    { unfold ctl, settled in Ct. destruct AU as [AU|AU]; rewrite AU in Ct; tauto. }
    assert (Y : yield sh s n = Some r) by (destruct AU as [AU|AU]; rewrite AU in W; exact W). clear W.
    unfold yield in Y.
    set (s0 := match info s with None => if own (now s) =? 0 then set_busy false s else s | Some _ => s end) in *.
    assert (E0 : now s0 = now s /\ info s0 = info s /\ curr s0 = curr s /\ fin s0 = fin s /\ queue s0 = queue s /\ det s0 = det s /\
                 whist s0 = whist s /\ SB sh s0 /\ HI s0 /\ CI s0).
    { unfold s0. destruct (info s) eqn:I; [repeat (split; [auto|]); auto|].
      destruct (own (now s) =? 0); simpl; repeat (split; [auto; fail|]); auto.
      split; [now apply (SB_same sh s)|]. split; [now apply (HI_same s)|now apply (CI_same s)]. }
    destruct E0 as (N0&I0&C0&Fi0&Q0&D0&W0&B0&H0&CI0). clearbody s0.
    assert (B1 : SB sh (reap s0)) by (apply reap_SB; auto; rewrite N0, C0; exact X).
    assert (H1 : HI (reap s0)) by (apply (reap_HI sh); auto; rewrite N0, C0; exact X).
    assert (CI1 : CI (reap s0)).
    { apply (CI_same s0); auto; simpl.
      - intros c. apply turns_reap.
      - intros e I. rewrite in_app_iff. auto.
      - rewrite N0. destruct AU as [AU|AU]; rewrite AU; intros [Z|Z]; discriminate. }
    assert (P1 : now (reap s0) = now s /\ info (reap s0) = info s /\ curr (reap s0) = curr s /\ fin (reap s0) = fin s /\ det (reap s0) = det s) by (simpl; auto).
    assert (T1 : forall c, turns c (whist (reap s0)) = turns c (whist s)) by (intros; simpl; rewrite turns_reap; congruence).
    assert (L1 : forall f t, In (WSwitch f t) (whist (reap s0)) -> In (WSwitch f t) (whist s)).
    { intros f t I. simpl in I. rewrite W0 in I. apply in_app_iff in I as [I|I]; auto. apply map_reap_in in I as (d&Z&_). discriminate. }
    remember (reap s0) as q eqn:Er. destruct P1 as (N1&I1&C1&Fi1&D1). clear Er.
    assert (DEAD1 : forall p, freed q p = true -> In (WFin p) (whist s) /\ In (WDet p) (whist s)).
    { intros p P. apply (h_reap _ H1) in P. apply in_split in P as (x&y&P). pose proof (h_ok _ H1 x _ y P) as Q. simpl in Q.
      rewrite (h_fin _ H), (h_det _ H), <- Fi1, <- D1, <- (h_fin _ H1), <- (h_det _ H1).
      rewrite P, !in_app_iff. simpl. tauto. }
    rewrite I1 in Y. destruct (info s) as [[f t]|] eqn:I.
    + destruct (n =? 0); [|discriminate]. simpl in Y.
      assert (Z : at_ (now s) = PUser /\ own (now s) = 0 /\ t = curr s).
      { unfold ctl, settled in Ct. destruct AU as [AU|AU]; rewrite AU in Ct; [|destruct Ct as (_&Z&_); congruence].
        split; auto. destruct Ct as [[_ Z]|(Z&g&G&_)]; [congruence|]. split; auto. congruence. }
      destruct Z as (Z1&Z2&Z3).
      destruct (freed q f) eqn:Ff; [injection Y as <-|].
      { destruct (DEAD1 f Ff) as [X1 X2]. split; auto. split; auto. right. exists t. split; auto. split; auto.
        apply (sb_info _ _ B f t). exact I. }
      destruct (freed q t) eqn:Ft; injection Y as <-.
      { exfalso. destruct B1. subst t. rewrite C1 in sb_cur0. destruct sb_cur0 as [Z|Z]; [|now apply (sb_fr0 (curr s))].
        rewrite Z in Ft. destruct sb_z0 as (_&Z3&_). congruence. }
      destruct CI1. constructor; simpl; auto.
      * intros c Nc T _. apply c_preb0; auto. rewrite N1, Z2. congruence.
      * intros [Z|Z]; discriminate.
      * intros _ _ [Z|[g Z]]; discriminate.
    + destruct (pick q n) eqn:P; [|discriminate]. simpl in Y.
      assert (Z : own (now s) = curr s).
      { unfold ctl, settled in Ct. destruct AU as [AU|AU]; rewrite AU in Ct; [|tauto].
        destruct Ct as [[Z _]|(_&g&G&_)]; [exact Z|congruence]. }
      pose proof (chosen_SB sh q n B1 P) as B2. destruct B1 as [_ _ (J1&J2&J3) _ _ _ _ _].
      destruct (pick_ok q n J1 J3 P) as (Fn&_&_).
      assert (E2 : now (chosen n q) = now q /\ curr (chosen n q) = n /\ info (chosen n q) = info q /\ fin (chosen n q) = fin q /\
                   whist (chosen n q) = whist q /\ freed (chosen n q) = freed q /\ CI (chosen n q))
        by (unfold chosen; destruct (n =? 0); simpl; repeat (split; [auto; fail|]); now apply (CI_same q)).
      destruct E2 as (E21&E22&E23&E24&E25&E26&CI2). remember (chosen n q) as r2 eqn:Er2. clear Er2. destruct (Nat.eqb_spec n 0) as [->|Nz].
      * injection Y as <-. apply CI_goto; auto; try discriminate.
        -- rewrite E21, N1. destruct AU as [AU|AU]; rewrite AU; discriminate.
        -- intros f _ O I2. destruct AU as [AU|AU]; [|unfold ctl in Ct; rewrite AU in Ct; exfalso; rewrite E21, N1 in O; destruct Ct as (Ct1&_&Ct2); congruence].
           apply (c_idle _ CI2); auto. left. congruence.
      * injection Y as Y.
        pose proof (finish_prepare_CI sh r2 (curr q) n r B2 CI2) as V. rewrite E23, E24, E21, N1, E22, C1 in V.
        assert (V' := V I1 eq_refl Fn (eq_sym Z)). clear V. rewrite C1 in Y.
        assert (CH : choosing r2) by (unfold choosing; rewrite E21, N1; tauto).
        specialize (V' CH (fun e => False_ind _ (Nz e)) Y). destruct r as [s'|p]; auto.
        rewrite E26, E25 in V'. destruct V' as (V1&V2&V3&V4). destruct (DEAD1 p V1) as [X1 X2]. split; auto. split; auto.
        left. exists n. split; auto. split; auto. unfold first_turn in *. rewrite <- T1. exact V3.
  - destruct (at_ (now s)) as [| | |f| | | |] eqn:A; try discriminate.
    destruct (existsb (can s) (queue s) || negb (wt s f)); [|discriminate]. injection W as W.
    unfold ctl in Ct. rewrite A in Ct. destruct Ct as (C1&C2&C3).
    assert (CH : choosing s) by (unfold choosing; eauto).
    assert (V := finish_prepare_CI sh s f 0 r B C C3 C2 K3 C1 CH). rewrite A in V. specialize (V ltac:(discriminate) W).
    destruct r as [s'|p]; auto. destruct V as (_&V&_). congruence.
  - destruct (at_ (now s)) as [| | | |f t|t| |] eqn:A; try discriminate; injection W as W; unfold ctl in Ct; rewrite A in Ct.
    + destruct Ct as (C1&C2&C3). destruct r as [s'|p].
      * apply (switch_CI sh s f t PPost s'); auto. congruence.
      * exfalso. unfold switch in W.
        assert (Af : freed s f = false).
        { destruct (freed s f) eqn:Z; auto. destruct B. subst f. destruct sb_run0 as [Q|Q]; [congruence|]. now apply (sb_fr0 (own (now s))) in Z. }
        assert (At : freed s t = false).
        { destruct (freed s t) eqn:Z; auto. destruct B. destruct C3 as [[-> _]|(->&_)]; [|congruence].
          destruct sb_cur0 as [Q|Q]; [congruence|]. now apply (sb_fr0 (curr s)) in Z. }
        rewrite Af, At in W. discriminate.
    + destruct Ct as (C1&C2&C3). destruct r as [s'|p].
      * apply (switch_CI sh s 0 t PPostS s'); auto. congruence.
      * exfalso. unfold switch in W. rewrite K2 in W.
        assert (At : freed s t = false).
        { destruct (freed s t) eqn:Z; auto. destruct B. subst t. 
          destruct sb_cur0 as [Q|Q]; [congruence|]. now apply (sb_fr0 (curr s)) in Z. }
        rewrite At in W. discriminate.
  - destruct (at_ (now s)) eqn:A; try discriminate; injection W as W; unfold ctl in Ct; rewrite A in Ct.
    + destruct r as [s'|p]; [now apply (tail_CI s)|].
      destruct (tail_freed sh s p B C Ct (or_introl A) W) as (V1&V2&V3&V4). destruct (DEAD p V1) as [X1 X2]. split; auto. split; auto.
      left. exists (curr s). auto.
    + destruct Ct as [_ Ct]. set (s2 := set_cnt (cnt s - 1) s) in *.
      assert (C2 : CI s2) by (now apply (CI_same s)). assert (B2 : SB sh s2) by (now apply (SB_same sh s)).
      destruct r as [s'|p]; [now apply (tail_CI s2)|].
      destruct (tail_freed sh s2 p B2 C2 Ct (or_intror (or_introl A)) W) as (V1&V2&V3&V4). destruct (DEAD p V1) as [X1 X2]. split; auto. split; auto.
      left. exists (curr s). auto.
Qed.
Lemma coop_quiet : forall s l, coop l = true -> quiet s l = true.
Proof. intros s [] H; auto. discriminate. Qed.
Lemma ci_run : forall sh ls s, run (wstep_c sh) winit ls = Some s -> SI sh s /\ HI s /\ CI s.
Proof.
  intros sh ls s R. refine (run_inv (wstep_c sh) (fun s => SI sh s /\ HI s /\ CI s) winit _ _ ls R).
  - split; [apply si_init|]. split; [apply hi_init|apply ci_init].
  - intros a l b (A&B&C) E. unfold wstep_c in E. destruct (coop l) eqn:Co; [|discriminate].
    assert (Eq : wstep_q sh a l = Some b) by (unfold wstep_q; now rewrite coop_quiet).
    split; [now apply (wstep_q_SI sh a l)|]. split; [now apply (wstep_q_HI sh a l)|].
    unfold wstep in E. destruct (wstep_res sh a l) as [[s1|]|] eqn:W; try discriminate. injection E as <-.
    apply (wstep_c_CI sh a l (WOk s1) A B C Co W).
Qed.

(** ** Where the stacks are *)
Definition in_place (sh : nat -> bool) (e : wev) : Prop :=
  match e with WShrink p l => l = (if sh p then OnShared else Own) | _ => True end.
Record PI (sh : nat -> bool) (s : wst) : Prop := {
  p_loc : forall c, sh c = false -> loc s c = Own;
  p_run : sh (own (now s)) = true -> loc s (own (now s)) = OnShared;
  p_shared : forall t, at_ (now s) = PShared t -> sh t = true -> loc s t = OnShared;
  p_win : forall f t, at_ (now s) = PWin f t -> t <> 0 -> sh f = false /\ sh t = false;
  p_pre : forall c p, c <> 0 -> pre s c = Some p -> sh p = false;
  p_prez : forall p, at_ (now s) = PPost \/ at_ (now s) = PPostS -> own (now s) = 0 -> pre s 0 = Some p -> sh p = true -> loc s p = OnShared;
  p_hist : forall e, In e (whist s) -> in_place sh e }.
Lemma pi_init : forall sh, sh 0 = false -> PI sh winit.
Proof.
  intros sh Z. constructor; simpl; auto; try discriminate; try contradiction; try congruence.
Qed.
Lemma PI_same : forall sh s s', PI sh s -> now s' = now s -> pre s' = pre s -> loc s' = loc s ->
  (forall e, In e (whist s') -> in_place sh e) -> PI sh s'.
Proof. intros sh s s' [] E1 E2 E3 E4. constructor; rewrite ?E1, ?E2, ?E3; auto. Qed.
Lemma PI_goto : forall sh s p, PI sh s -> p <> PPost -> p <> PPostS -> (forall t, p <> PShared t) ->
  (forall f t, p = PWin f t -> t <> 0 -> sh f = false /\ sh t = false) -> PI sh (goto p s).
Proof.
  intros sh s p [] A B C D. constructor; simpl; auto; try contradiction.
  - intros t E. now apply C in E.
  - intros q [E|E]; contradiction.
Qed.
Lemma tail_PI : forall sh s s', PI sh s -> CI s -> settled s ->
  at_ (now s) = PPost \/ at_ (now s) = PPostS \/ (curr s = 0 -> info s = None /\ (at_ (now s) = PUser \/ exists f, at_ (now s) = PSleep f)) ->
  tail s = WOk s' -> PI sh s'.
Proof.
  intros sh s s' H C S A E. unfold tail in E. destruct (freed s (curr s)); [discriminate|]. destruct (pre s (curr s)) as [p|] eqn:P.
  - destruct (freed s p) eqn:F; [discriminate|]. injection E as <-.
    assert (IP : in_place sh (WShrink p (loc s p))).
    { simpl. destruct H. destruct (sh p) eqn:Sp; [|now apply p_loc0].
      destruct (Nat.eq_dec (curr s) 0) as [Z|Z]; [|specialize (p_pre0 _ _ Z P); congruence].
      rewrite Z in P. assert (O : own (now s) = 0) by (destruct S as [[S _]|[S _]]; congruence).
      destruct A as [A|[A|A]]; [apply p_prez0; auto|apply p_prez0; auto|].
      destruct (A Z) as [A1 A2]. rewrite (c_idle _ C) in P; auto. discriminate. }
    apply PI_goto; try discriminate. destruct H. constructor; simpl; auto.
    + intros c q N Q. unfold upd in Q. destruct (c =? curr s); [discriminate|]. eauto.
    + intros q Q O Q1. unfold upd in Q1. destruct (0 =? curr s); [discriminate|]. auto.
    + intros e [<-|I]; auto.
  - injection E as <-. apply PI_goto; auto; discriminate.
Qed.
Lemma switch_PI : forall sh s f t p s', SI sh s -> PI sh s -> sh 0 = false -> own (now s) = f -> (p = PPost \/ p = PPostS) ->
  (t <> 0 -> sh f = false) -> (sh t = true -> loc s t = OnShared) -> (t <> 0 -> slot_ok t (at_ (regs s t))) ->
  switch s f t p = WOk s' -> PI sh s'.
Proof.
  intros sh s f t p s' SI0 H Z O P Q1 Q2 Q3 E. unfold switch in E. destruct (freed s f); [discriminate|]. destruct (freed s t); [discriminate|].
  injection E as <-. unfold load. simpl. set (k := upd (regs s) f (mkK (own (now s)) p) t).
  destruct SI0 as [B _ _ _]. destruct B.
  assert (Ok : own k = t). { unfold k. rewrite <- O. now apply (saved_own s (mkK (own (now s)) p)). }
  assert (Kat : slot_ok t (at_ k) \/ at_ k = p).
  { unfold k, upd. destruct (Nat.eqb_spec t f) as [->|Nt]; [now right|]. left. apply sb_slot0. congruence. }
  set (k' := match at_ k with PFresh => mkK (own k) PUser | _ => k end).
  assert (Ok' : own k' = t) by (unfold k'; destruct (at_ k); auto).
  assert (K1 : forall x, at_ k' <> PShared x).
  { intros x. unfold k'. destruct P as [-> | ->]; destruct Kat as [Kat|Kat]; destruct (at_ k) eqn:V; simpl in *; try contradiction; try (rewrite V); try discriminate. }
  assert (K2 : forall x y, at_ k' <> PWin x y).
  { intros x y. unfold k'. destruct P as [-> | ->]; destruct Kat as [Kat|Kat]; destruct (at_ k) eqn:V; simpl in *; try contradiction; try (rewrite V); try discriminate. }
  destruct H. constructor; simpl; fold k; fold k'; rewrite ?Ok'; auto.
  - intros x V. now apply K1 in V.
  - intros x y V. now apply K2 in V.
  - intros c q N V. unfold upd in V. destruct (Nat.eqb_spec c t) as [->|Nc]; [|eauto]. injection V as <-. auto.
  - intros q _ -> V Sq. rewrite upd_same in V. injection V as <-. rewrite <- O in *. auto.
  - intros e [<-|[<-|I]]; simpl; auto.
Qed.
Lemma wstep_c_PI : forall sh s l s', sh 0 = false -> SI sh s -> HI s -> CI s -> PI sh s -> wstep_c sh s l = Some s' -> PI sh s'.
Proof.
  intros sh s l s' Z S H C P E. unfold wstep_c in E. destruct (coop l) eqn:Co; [|discriminate]. unfold wstep in E.
  destruct (wstep_res sh s l) as [[s1|c]|] eqn:W; try discriminate. injection E as <-. unfold wstep_res in W.
  pose proof S as [B Ct F1 F2]. pose proof P as [_ _ _ _ _ _ PH].
  assert (FP : forall q cu n r, SB sh q -> CI q -> PI sh q -> info q = None -> curr q = n -> fin q n = false -> cu = own (now q) ->
    choosing q -> (n = 0 -> at_ (now q) <> PEnd) -> finish_prepare sh q cu n = WOk r -> PI sh r).
  { clear - Z. intros q cu n r B C P I Cu F O A NE E. unfold finish_prepare in E. destruct (freed q cu); [discriminate|].
    assert (Acu : cu = 0 \/ In cu (queue q)) by (destruct B; rewrite O; auto).
    pose proof (prepare_SI sh q cu n B I Cu F Acu) as R. pose proof (prepare_keeps sh q cu n) as R'.
    destruct (prepare sh q cu n) as [s1|s1 f t] eqn:Pq; destruct R' as (_&_&_&_&_&_&_&_&_&_&L1&_).
    - destruct R as (B1&E1&E2&E3&E4&E5&E6&E7&_&_&_&_&D).
      assert (C1 : CI s1) by (apply (CI_same q); auto; rewrite ?E7; auto).
      assert (P1 : PI sh s1) by (apply (PI_same sh q); auto; rewrite E7; now destruct P).
      assert (S1 : settled s1).
      { unfold settled. rewrite E1, E3, <- O. destruct D as [[D1 D2]|(D1&D2&D3)]; [auto|]. right. split; auto. eauto. }
      eapply tail_PI; eauto. right. right. rewrite E3, E1. intros V. destruct D as [[D1 D2]|(D1&D2&_)]; [|contradiction]. split; auto.
      destruct A as [A|[A|A]]; auto. now apply NE in V.
    - destruct R as (B1&E1&E2&E3&E4&E5&E6&E7&_&_&_&_&Ef&Ne&Nt&D). injection E as <-. apply PI_goto; try discriminate.
      + apply (PI_same sh q); auto. rewrite E7. now destruct P.
      + intros f' t' V T0. injection V as <- <-. unfold prepare in Pq. destruct (cu =? n); [discriminate|].
        destruct (sh cu || sh n) eqn:V; [destruct (cu =? 0); [discriminate|]; injection Pq as <- <- <-; congruence|].
        injection Pq as <- <- <-. now apply orb_false_iff in V. }
  destruct l as [c|c| |c| | | | |n| | | |n]; try discriminate.
  - destruct ((c =? 0) || inq s c || freed s c) eqn:G; [discriminate|]. injection W as <-. apply (PI_same sh s); simpl; auto.
    intros e [<-|I]; simpl; auto.
  - destruct (inq s c) eqn:G; [|discriminate]. injection W as <-. apply (PI_same sh s); simpl; auto. intros e [<-|I]; simpl; auto.
  - destruct (inuser s); [|discriminate]. injection W as <-. now apply (PI_same sh s).
  - injection W as <-. now apply (PI_same sh s).
  - destruct (inuser s); [|discriminate]. injection W as <-. now apply (PI_same sh s).
  - destruct (inuser s && _); [|discriminate]. injection W as <-. now apply (PI_same sh s).
  - destruct (busy s && _ && _); injection W as <-; now apply (PI_same sh s).
  - destruct (inuser s) eqn:U; [|discriminate]. injection W as <-. apply PI_goto; try discriminate.
    apply (PI_same sh s); simpl; auto. intros e [<-|I]; simpl; auto.
  - assert (AU : at_ (now s) = PUser \/ at_ (now s) = PEnd) by (destruct (at_ (now s)); try discriminate; auto).
    assert (X : own (now s) = curr s \/ own (now s) = 0).
    { unfold ctl, settled in Ct. destruct AU as [AU|AU]; rewrite AU in Ct; tauto. }
    assert (Y : yield sh s n = Some (WOk s1)) by (destruct AU as [AU|AU]; rewrite AU in W; exact W). clear W.
    unfold yield in Y.
    set (s0 := match info s with None => if own (now s) =? 0 then set_busy false s else s | Some _ => s end) in *.
    assert (E0 : now s0 = now s /\ info s0 = info s /\ curr s0 = curr s /\ SB sh s0 /\ CI s0 /\ PI sh s0).
    { unfold s0. destruct (info s) eqn:I; [repeat (split; [auto|]); auto|].
      destruct (own (now s) =? 0); simpl; repeat (split; [auto; fail|]); auto.
      split; [now apply (SB_same sh s)|]. split; [now apply (CI_same s)|now apply (PI_same sh s)]. }
    destruct E0 as (N0&I0&C0&B0&CI0&PI0). clearbody s0.
    assert (B1 : SB sh (reap s0)) by (apply reap_SB; auto; rewrite N0, C0; exact X).
    assert (CI1 : CI (reap s0)).
    { apply (CI_same s0); auto; simpl.
      - intros c. apply turns_reap.
      - intros e I. rewrite in_app_iff. auto.
      - rewrite N0. destruct AU as [AU|AU]; rewrite AU; intros [V|V]; discriminate. }
    assert (PI1 : PI sh (reap s0)).
    { apply (PI_same sh s0); auto. simpl. intros e I. apply in_app_iff in I as [I|I]; [|now destruct PI0; auto].
      apply map_reap_in in I as (d&->&_). exact I. }
    assert (P1 : now (reap s0) = now s /\ info (reap s0) = info s /\ curr (reap s0) = curr s) by (simpl; auto).
    remember (reap s0) as q eqn:Er. destruct P1 as (N1&I1&C1). clear Er.
    rewrite I1 in Y. destruct (info s) as [[f t]|] eqn:I.
    + destruct (n =? 0); [|discriminate]. simpl in Y. destruct (freed q f); [discriminate|]. destruct (freed q t); [discriminate|].
      injection Y as <-.
      assert (V : at_ (now s) = PUser /\ own (now s) = 0 /\ t = curr s /\ f <> t).
      { unfold ctl, settled in Ct. destruct AU as [AU|AU]; rewrite AU in Ct; [|destruct Ct as (_&V&_); congruence].
        split; auto. destruct Ct as [[_ V]|(V&g&G&G2)]; [congruence|]. rewrite I in G. injection G as -> ->. auto. }
      destruct V as (V1&V2&V3&V4). destruct PI1. constructor; simpl; auto; try discriminate.
      * intros c Sc. destruct (sh t) eqn:St.
        -- unfold upd at 1. destruct (Nat.eqb_spec c t) as [->|_]; [congruence|].
           destruct (sh f) eqn:Sf; auto. unfold upd. destruct (Nat.eqb_spec c f) as [->|_]; [congruence|auto].
        -- destruct (sh f) eqn:Sf; auto. unfold upd. destruct (Nat.eqb_spec c f) as [->|_]; [congruence|auto].
      * rewrite N1, V2. congruence.
      * intros x Vx Sx. injection Vx as <-. rewrite Sx. apply upd_same.
      * intros x [Vx|Vx]; discriminate.
    + destruct (pick q n) eqn:Pk; [|discriminate]. simpl in Y.
      assert (V : own (now s) = curr s).
      { unfold ctl, settled in Ct. destruct AU as [AU|AU]; rewrite AU in Ct; [|tauto].
        destruct Ct as [[V _]|(_&g&G&_)]; [exact V|congruence]. }
      pose proof (chosen_SB sh q n B1 Pk) as B2. destruct B1 as [_ _ (J1&J2&J3) _ _ _ _ _].
      destruct (pick_ok q n J1 J3 Pk) as (Fn&_&_).
      assert (E2 : now (chosen n q) = now q /\ curr (chosen n q) = n /\ info (chosen n q) = info q /\ fin (chosen n q) = fin q /\
                   CI (chosen n q) /\ PI sh (chosen n q)).
      { unfold chosen; destruct (n =? 0); simpl; repeat (split; [auto; fail|]); (split; [now apply (CI_same q)|]);
          destruct PI1; apply (PI_same sh q); auto; constructor; auto. }
      destruct E2 as (E21&E22&E23&E24&CI2&PI2). remember (chosen n q) as r2 eqn:Er2. clear Er2. destruct (Nat.eqb_spec n 0) as [->|Nz].
      * injection Y as <-. apply PI_goto; auto; discriminate.
      * injection Y as Y. apply (FP r2 (curr q) n); auto; try congruence. unfold choosing. rewrite E21, N1. tauto.
  - destruct (at_ (now s)) as [| | |f| | | |] eqn:A; try discriminate.
    destruct (existsb (can s) (queue s) || negb (wt s f)); [|discriminate]. injection W as W.
    unfold ctl in Ct. rewrite A in Ct. destruct Ct as (C1&C2&C3).
    apply (FP s f 0); auto; try congruence.
    + destruct B; tauto.
    + unfold choosing; eauto.
  - destruct (at_ (now s)) as [| | | |f t|t| |] eqn:A; try discriminate; injection W as W; unfold ctl in Ct; rewrite A in Ct.
    + destruct Ct as (C1&C2&C3). eapply (switch_PI sh s f t PPost); eauto.
      * intros T0. now destruct (p_win _ _ P f t A T0).
      * intros St. destruct (Nat.eq_dec t 0) as [->|T0]; [congruence|]. destruct (p_win _ _ P f t A T0). congruence.
      * intros T0. destruct B. apply sb_slot0. congruence.
    + destruct Ct as (C1&C2&C3). eapply (switch_PI sh s 0 t PPostS); eauto.
      * intros St. now apply (p_shared _ _ P t A).
      * intros T0. destruct B. apply sb_slot0. congruence.
  - destruct (at_ (now s)) eqn:A; try discriminate; injection W as W; unfold ctl in Ct; rewrite A in Ct.
    + eapply (tail_PI sh s); eauto.
    + destruct Ct as [_ Ct]. eapply (tail_PI sh (set_cnt (cnt s - 1) s)); eauto.
      * now apply (PI_same sh s).
      * now apply (CI_same s).
Qed.
Lemma pi_run : forall sh ls s, sh 0 = false -> run (wstep_c sh) winit ls = Some s -> PI sh s.
Proof.
  intros sh ls s Z R. refine (proj2 (run_inv (wstep_c sh) (fun s => (SI sh s /\ HI s /\ CI s) /\ PI sh s) winit _ _ ls R)).
  - split; [|now apply pi_init]. split; [apply si_init|]. split; [apply hi_init|apply ci_init].
  - intros a l b ((A&B&C)&D) E. assert (RC : SI sh b /\ HI b /\ CI b).
    { unfold wstep_c in E. destruct (coop l) eqn:Co; [|discriminate].
      assert (Eq : wstep_q sh a l = Some b) by (unfold wstep_q; now rewrite coop_quiet).
      split; [now apply (wstep_q_SI sh a l)|]. split; [now apply (wstep_q_HI sh a l)|].
      unfold wstep in E. destruct (wstep_res sh a l) as [[s1|]|] eqn:W; try discriminate. injection E as <-.
      apply (wstep_c_CI sh a l (WOk s1) A B C Co W). }
    split; auto. destruct RC as (A1&B1&C1). now apply (wstep_c_PI sh a l).
Qed.

(** ** The counter of the schedule lock *)
Fixpoint tot (f : nat -> nat) (n : nat) : nat := match n with 0 => 0 | S m => f m + tot f m end.
Lemma tot_upd : forall f c v n, c < n -> tot (upd f c v) n + f c = tot f n + v.
Proof.
  intros f c v n. induction n as [|n IH]; intros L; [lia|]. simpl. destruct (Nat.eq_dec c n) as [->|N].
  - rewrite upd_same. assert (E : forall m, m <= n -> tot (upd f n v) m = tot f m).
    { induction m as [|m IHm]; intros Lm; simpl; auto. rewrite IHm by lia. rewrite upd_other by lia. lia. }
    rewrite E by lia. lia.
  - rewrite upd_other by lia. lia.
Qed.
Lemma tot_more : forall f n m, n <= m -> (forall c, n <= c -> f c = 0) -> tot f m = tot f n.
Proof. intros f n m L H. induction L as [|m L IH]; auto. simpl. rewrite IH, (H m); auto. Qed.
(** Coroutines that have ended. *)
Definition is_fin (e : wev) : bool := match e with WFin _ => true | _ => false end.
Definition fins (h : list wev) : nat := length (filter is_fin h).
(** The guard of switch_shared_stack_ctx__ (co_env.cpp 369) is held. *)
Definition shg (s : wst) : nat :=
  match at_ (now s) with
  | PShared _ | PPostS => 1
  | _ => if own (now s) =? 0 then 0 else match at_ (regs s 0) with PPostS => 1 | _ => 0 end
  end.
Definition KI (s : wst) : Prop :=
  (exists N, (forall c, N <= c -> gds s c = 0) /\ cnt s = fins (whist s) + tot (gds s) N + shg s) /\
  (curr s <> 0 -> busy s = true).
Lemma ki_init : KI winit.
Proof. split; [exists 0; auto|]. simpl. congruence. Qed.
Lemma fins_cons : forall e h, fins (e :: h) = (if is_fin e then 1 else 0) + fins h.
Proof. intros. unfold fins. simpl. destruct (is_fin e); reflexivity. Qed.
Lemma fins_reap : forall L h, fins (map WReap L ++ h) = fins h.
Proof. induction L; intros; simpl; auto. rewrite fins_cons; simpl; auto. Qed.
Lemma KI_gen : forall s s', KI s -> gds s' = gds s -> cnt s' + shg s = cnt s + shg s' -> fins (whist s') = fins (whist s) ->
  (curr s' <> 0 -> busy s' = true) -> KI s'.
Proof.
  intros s s' [(N&A&B) C] E1 E2 E3 E4. split; auto. exists N. rewrite E1, E3. split; auto. lia.
Qed.
Lemma shg_user : forall s s' p, own (now s') = own (now s) -> regs s' = regs s -> at_ (now s') = p ->
  match p with PShared _ | PPostS => False | _ => True end -> match at_ (now s) with PShared _ | PPostS => False | _ => True end -> shg s' = shg s.
Proof. intros s s' p E1 E2 E3 P Q. unfold shg. rewrite E1, E2, E3. destruct p; try contradiction; destruct (at_ (now s)); try contradiction; reflexivity. Qed.
Lemma tail_KI : forall s s', (forall p, at_ (now s) = PShared p -> False) -> (at_ (now s) = PPostS -> own (now s) = 0 /\ 1 <= cnt s) ->
  KI s -> tail (if match at_ (now s) with PPostS => true | _ => false end then set_cnt (cnt s - 1) s else s) = WOk s' -> KI s'.
Proof.
  intros s s' A A2 H E. set (b := match at_ (now s) with PPostS => true | _ => false end) in *.
  assert (X : cnt s' = (if b then cnt s - 1 else cnt s) /\ gds s' = gds s /\ busy s' = busy s /\ regs s' = regs s /\ curr s' = curr s /\
              now s' = mkK (own (now s)) PUser /\ fins (whist s') = fins (whist s)).
  { unfold tail in E. set (q := if b then set_cnt (cnt s - 1) s else s) in *.
    assert (Q : cnt q = (if b then cnt s - 1 else cnt s) /\ gds q = gds s /\ busy q = busy s /\ regs q = regs s /\ curr q = curr s /\ now q = now s /\ whist q = whist s)
      by (unfold q; destruct b; simpl; auto 10).
    clearbody q. destruct Q as (Q1&Q2&Q3&Q4&Q0&Q5&Q6). rewrite <- Q1, <- Q2, <- Q3, <- Q4, <- Q0, <- Q5, <- Q6. clear Q1 Q2 Q3 Q4 Q0 Q5 Q6.
    destruct (freed q (curr q)); [discriminate|]. destruct (pre q (curr q)) as [p|]; [destruct (freed q p); [discriminate|]|];
    injection E as <-; simpl; repeat (split; [auto; fail|]); auto. }
  destruct X as (X1&X2&X3&X4&X0&X5&X6). apply (KI_gen s); auto.
  - unfold shg at 2. rewrite X5, X1, X4. simpl. unfold shg, b in *.
    destruct (at_ (now s)) eqn:Z; try lia; [exfalso; eapply A; eauto|]. destruct A2 as [-> A2]; auto. simpl. lia.
  - rewrite X0, X3. now destruct H.
Qed.
Lemma load_shg : forall s t, (forall c, slot_ok c (at_ (regs s c))) -> (forall c, own (regs s c) = c) ->
  shg (load t s) = match at_ (regs s 0) with PPostS => 1 | _ => 0 end.
Proof.
  intros s t L O. unfold shg, load. simpl. specialize (L t) as Lt. pose proof (L 0) as L0.
  destruct (regs s t) as [o a] eqn:R. pose proof (O t) as Ot. rewrite R in Ot. simpl in *. subst o.
  destruct (Nat.eq_dec t 0) as [->|N].
  - rewrite R in *. simpl in *. destruct a; simpl in *; try contradiction; auto.
  - assert (E : (t =? 0) = false) by now apply Nat.eqb_neq. destruct a; simpl in *; rewrite ?E; try contradiction; auto.
Qed.
Lemma shg_le : forall s, KI s -> shg s <= cnt s /\ fins (whist s) <= cnt s.
Proof. intros s [(N&_&E) _]. lia. Qed.
Lemma finish_prepare_KI : forall sh s cu n s', KI s -> choosing s -> finish_prepare sh s cu n = WOk s' -> KI s'.
Proof.
  intros sh s cu n s' H A E. unfold finish_prepare in E. destruct (freed s cu); [discriminate|].
  pose proof (prepare_keeps sh s cu n) as P.
  assert (Bz : match prepare sh s cu n with Stay q | Swap q _ _ => busy q = busy s end).
  { unfold prepare. destruct (cu =? n); auto. destruct (sh cu || sh n); auto. destruct (cu =? 0); auto. }
  destruct (prepare sh s cu n) as [s1|s1 f t]; destruct P as (P1&P2&P3&P4&P5&P6&P7&P8&P9&P10&P11&P12).
  - assert (K : KI s1).
    { apply (KI_gen s); auto; try congruence.
      - unfold shg. rewrite P6, P10. lia.
      - rewrite P12, Bz. now destruct H. }
    apply (tail_KI s1); auto.
    + rewrite P6. destruct A as [A|[A|[g A]]]; rewrite A; discriminate.
    + rewrite P6. destruct A as [A|[A|[g A]]]; rewrite A; discriminate.
    + rewrite P6. destruct A as [A|[A|[g A]]]; rewrite A; exact E.
  - injection E as <-. apply (KI_gen s); simpl; auto; try congruence.
    + rewrite P7. f_equal. unfold shg. simpl. rewrite P6, P10. destruct A as [A|[A|[g A]]]; now rewrite A.
    + simpl. rewrite P12, Bz. now destruct H.
Qed.
Lemma wstep_q_KI : forall sh s l s', SI sh s -> KI s -> wstep_q sh s l = Some s' -> KI s'.
Proof.
  intros sh s l s' S H E. pose proof (wstep_q_SI sh s l s' S E) as S'. unfold wstep_q in E. destruct (quiet s l) eqn:Q; [|discriminate]. unfold wstep in E.
  destruct (wstep_res sh s l) as [[s1|c]|] eqn:W; try discriminate. injection E as <-. unfold wstep_res in W.
  destruct S as [B C F1 F2]. pose proof B as [_ _ (K1&K2&K3) _ _ _ _ _]. pose proof H as [_ Hb].
  pose proof (shg_le s H) as Hle. destruct l as [c|c| |c| | | | |n| | | |n].
  - destruct ((c =? 0) || inq s c || freed s c) eqn:G; [discriminate|]. injection W as <-. now apply (KI_gen s).
  - destruct (inq s c) eqn:G; [|discriminate]. injection W as <-. now apply (KI_gen s).
  - destruct (inuser s); [|discriminate]. injection W as <-. now apply (KI_gen s).
  - injection W as <-. now apply (KI_gen s).
  - destruct (inuser s); [|discriminate]. injection W as <-. destruct H as [(N&A1&A2) _]. split; [|exact Hb]. 
    exists (N + S (own (now s))). simpl. split.
    + intros c L. rewrite upd_other by lia. apply A1. lia.
    + pose proof (tot_upd (gds s) (own (now s)) (S (gds s (own (now s)))) (N + S (own (now s))) ltac:(lia)) as T.
      rewrite (tot_more (gds s) N) in T by (auto; lia). change (shg (set_gds _ _)) with (shg s). lia.
  - destruct (inuser s && _) eqn:G; [|discriminate]. injection W as <-. destruct H as [(N&A1&A2) _]. split; [|exact Hb].
    apply andb_true_iff in G as [_ G]. apply negb_true_iff, Nat.eqb_neq in G.
    exists N. simpl. assert (own (now s) < N) by (destruct (Nat.lt_ge_cases (own (now s)) N); auto; now specialize (A1 _ H)).
    split.
    + intros c L. rewrite upd_other by lia. auto.
    + pose proof (tot_upd (gds s) (own (now s)) (gds s (own (now s)) - 1) N ltac:(lia)) as T.
      change (shg (set_gds _ _)) with (shg s). lia.
  - destruct (busy s && _ && _); injection W as <-; now apply (KI_gen s).
  - destruct (inuser s) eqn:U; [|discriminate]. injection W as <-. unfold inuser in U.
    destruct (at_ (now s)) eqn:A; try discriminate. destruct H as [(N&A1&A2) _]. split; [|exact Hb]. exists N. simpl.
    split; auto. unfold fins in *. simpl. replace (shg (goto _ _)) with (shg s); [lia|]. unfold shg. simpl. now rewrite A.
  - assert (AU : at_ (now s) = PUser \/ at_ (now s) = PEnd) by (destruct (at_ (now s)); try discriminate; auto).
    assert (Y : yield sh s n = Some (WOk s1)) by (destruct AU as [AU|AU]; rewrite AU in W; exact W). clear W.
    unfold yield in Y.
    set (s0 := match info s with None => if own (now s) =? 0 then set_busy false s else s | Some _ => s end) in *.
    assert (E0 : now s0 = now s /\ info s0 = info s /\ regs s0 = regs s /\ KI s0).
    { unfold s0. destruct (info s) eqn:I; [auto|]. destruct (Nat.eqb_spec (own (now s)) 0) as [Z|Z]; auto. simpl.
      repeat (split; [auto; fail|]). apply (KI_gen s); auto. simpl. intros V. exfalso. apply V.
      unfold ctl, settled in C. destruct AU as [AU|AU]; rewrite AU in C; [destruct C as [[C _]|(_&g&C&_)]; congruence|].
      destruct C as (C1&_&C2). congruence. }
    destruct E0 as (N0&I0&R0&KI0). clearbody s0.
    assert (KI1 : KI (reap s0)).
    { apply (KI_gen s0); simpl; auto; [apply fins_reap|]. now destruct KI0. }
    assert (P1 : now (reap s0) = now s /\ info (reap s0) = info s) by (simpl; auto).
    remember (reap s0) as q eqn:Er. destruct P1 as (N1&I1). clear Er. pose proof KI1 as [_ Hb1].
    rewrite I1 in Y. destruct (info s) as [[f t]|] eqn:I.
    + destruct (n =? 0); [|discriminate]. simpl in Y. destruct (freed q f); [discriminate|]. destruct (freed q t); [discriminate|].
      injection Y as <-. apply (KI_gen q); auto. simpl.
      assert (V : own (now s) = 0).
      { unfold ctl, settled in C. destruct AU as [AU|AU]; rewrite AU in C; [|destruct C as (_&V&_); congruence].
        destruct C as [[_ V]|(V&_)]; [congruence|auto]. }
      assert (Sq : shg q = 0) by (unfold shg; rewrite N1, V; simpl; destruct AU as [AU|AU]; now rewrite AU).
      rewrite Sq. unfold shg. simpl. lia.
    + destruct (pick q n) eqn:Pk; [|discriminate]. simpl in Y.
      assert (E2 : now (chosen n q) = now q /\ regs (chosen n q) = regs q /\ KI (chosen n q)).
      { unfold chosen; destruct (Nat.eqb_spec n 0); simpl; repeat (split; [auto; fail|]); apply (KI_gen q); auto; simpl; congruence. }
      destruct E2 as (E21&E22&KI2). pose proof KI2 as [_ Hb2]. remember (chosen n q) as r2 eqn:Er2. clear Er2.
      destruct (Nat.eqb_spec n 0) as [->|Nz]; injection Y as Y.
      * subst s1. apply (KI_gen r2); auto. simpl. f_equal. unfold shg. simpl. rewrite E21, N1. destruct AU as [AU|AU]; now rewrite AU.
      * apply (finish_prepare_KI sh r2 (curr q) n); auto. unfold choosing. rewrite E21, N1. tauto.
  - destruct (at_ (now s)) as [| | |f| | | |] eqn:A; try discriminate.
    destruct (existsb (can s) (queue s) || negb (wt s f)); [|discriminate]. injection W as W.
    apply finish_prepare_KI in W; auto. unfold choosing. eauto.
  - assert (Bz : forall f t p, switch s f t p = WOk s1 -> gds s1 = gds s /\ cnt s1 = cnt s /\ fins (whist s1) = fins (whist s) /\
      busy s1 = busy s /\ curr s1 = curr s /\
      s1 = load t (log (WSwitch f t) (set_pre (upd (pre s) t (Some f)) (set_regs (upd (regs s) f (mkK (own (now s)) p)) s)))).
    { intros f t p V. unfold switch in V. destruct (freed s f); [discriminate|]. destruct (freed s t); [discriminate|]. injection V as <-.
      repeat (split; [auto; fail|]). auto. }
    destruct (at_ (now s)) as [| | | |f t|t| |] eqn:A; try discriminate; injection W as W; unfold ctl in C; rewrite A in C;
      apply Bz in W as (W1&W2&W3&W4&W5&W6); apply (KI_gen s); auto; try congruence; try (rewrite W4, W5; exact Hb); rewrite W2; f_equal; rewrite W6.
    + destruct C as (C1&C2&_). rewrite load_shg.
      * simpl. unfold shg. rewrite A. unfold upd. rewrite <- C1. destruct (Nat.eqb_spec 0 f) as [<-|Nf]; auto.
        destruct (Nat.eqb_spec f 0); congruence.
      * simpl. rewrite C1. apply saved_slots with (sh := sh); auto. exact I.
      * simpl. rewrite C1. apply (saved_own s (mkK (own (now s)) PPost)). now destruct B.
    + destruct C as (C1&C2&_). rewrite load_shg.
      * simpl. unfold shg. now rewrite A.
      * simpl. pose proof (saved_slots sh s (mkK (own (now s)) PPostS) B) as V. simpl in V. rewrite C1 in *. apply V; auto.
      * simpl. pose proof (saved_own s (mkK (own (now s)) PPostS)) as V. simpl in V. rewrite C1 in *. apply V. now destruct B.
  - apply (tail_KI s); auto.
    + intros p A. rewrite A in W. discriminate.
    + intros A. unfold ctl in C. rewrite A in C. split; [tauto|]. unfold shg in Hle. rewrite A in Hle. lia.
    + destruct (at_ (now s)) eqn:A; try discriminate; injection W as W; exact W.
  - unfold signal in W. destruct (pend s); [|discriminate]. simpl in W. destruct (Nat.eqb_spec (cnt s) 0) as [Cn|Cn].
    2:{ simpl in W. destruct (n =? 0); [|discriminate]. injection W as <-. now apply (KI_gen s). }
    simpl in Q. simpl in W. destruct (at_ (now s)) eqn:A; try discriminate. apply andb_true_iff in Q as [Q I].
    apply Nat.eqb_eq in Q. destruct (info s) eqn:I0; [discriminate|]. clear I.
    destruct (sigpoint PUser && pick s n) eqn:P; [|discriminate]. simpl in P. injection W as W.
    destruct (freed s (curr s)) eqn:Fc; [discriminate|].
    set (s2 := chosen n (set_pend false s)) in *.
    assert (E2 : now s2 = now s /\ regs s2 = regs s /\ KI s2 /\ SB sh s2).
    { pose proof (chosen_SB sh s n B P) as B2. unfold s2, chosen in *. destruct (Nat.eqb_spec n 0) as [->|Nz]; simpl; repeat (split; [auto; fail|]);
      (split; [|now apply (SB_same _ _ _ B2)]); apply (KI_gen s); auto; simpl; congruence. }
    destruct E2 as (E21&E22&KI2&B3). clearbody s2.
    pose proof (prepare_keeps sh s2 (curr s) n) as R.
    assert (Bz : match prepare sh s2 (curr s) n with Stay q | Swap q _ _ => busy q = busy s2 end).
    { unfold prepare. destruct (curr s =? n); auto. destruct (sh (curr s) || sh n); auto. destruct (curr s =? 0); auto. }
    assert (Fz : match prepare sh s2 (curr s) n with Stay _ => True | Swap _ f _ => f = curr s end).
    { unfold prepare. destruct (curr s =? n); auto. destruct (sh (curr s) || sh n); auto. destruct (curr s =? 0); auto. }
    destruct (prepare sh s2 (curr s) n) as [s3|s3 f t]; destruct R as (R1&R2&R3&R4&R5&R6&R7&R8&R9&R10&R11&R12); injection W as <-.
    + apply (KI_gen s2); auto; try congruence.
      * rewrite R7. f_equal. unfold shg. now rewrite R6, R10.
      * rewrite R12, Bz. now destruct KI2.
    + assert (O : f = own (now s3)) by (rewrite R6, E21; congruence).
      assert (SL : forall c, slot_ok c (at_ (upd (regs s3) f (now s3) c))).
      { intros c. pose proof (saved_slots sh s (now s3) B) as V. rewrite R10, E22. rewrite R6, E21 in *. rewrite O. apply V; auto. rewrite A. exact I. }
      assert (SO : forall c, own (upd (regs s3) f (now s3) c) = c).
      { rewrite O. apply saved_own. rewrite R10, E22. now destruct B. }
      apply (KI_gen s2); auto; try congruence.
      * simpl. rewrite R7. f_equal. rewrite load_shg; auto. simpl. unfold shg. rewrite E21, A, R6, E21, R10, E22. unfold upd.
        rewrite O, R6, E21. destruct (Nat.eqb_spec 0 (own (now s))) as [<-|Nf]; [now rewrite A|].
        destruct (Nat.eqb_spec (own (now s)) 0); congruence.
      * change (fins (whist s3) = fins (whist s2)). congruence.
      * simpl. rewrite R12, Bz. now destruct KI2.
Qed.
Lemma ki_run : forall sh ls s, run (wstep_q sh) winit ls = Some s -> SI sh s /\ KI s.
Proof.
  intros sh ls s R. refine (run_inv (wstep_q sh) (fun s => SI sh s /\ KI s) winit _ _ ls R).
  - split; [apply si_init|apply ki_init].
  - intros a l b [A B] E. split; [now apply (wstep_q_SI sh a l)|now apply (wstep_q_KI sh a l)].
Qed.

(** ** A coroutine whose registers are gone *)
Definition nowhere (b : nat) (s : wst) : Prop := own (now s) <> b /\ forall c, own (regs s c) <> b.
Lemma nowhere_load : forall b s t, nowhere b s -> nowhere b (load t s).
Proof. intros b s t [A B]. split; simpl; auto. specialize (B t). destruct (at_ (regs s t)); auto. Qed.
Lemma nowhere_same : forall b s s', nowhere b s -> own (now s') = own (now s) -> regs s' = regs s -> nowhere b s'.
Proof. intros b s s' [A B] E1 E2. split; rewrite ?E1, ?E2; auto. Qed.
Lemma nowhere_tail : forall b s s', nowhere b s -> tail s = WOk s' -> nowhere b s'.
Proof.
  intros b s s' H E. unfold tail in E. destruct (freed s (curr s)); [discriminate|].
  destruct (pre s (curr s)) as [p|]; [destruct (freed s p); [discriminate|]|]; injection E as <-; now apply (nowhere_same b s).
Qed.
Lemma nowhere_save : forall b s f k, nowhere b s -> own k <> b -> nowhere b (set_regs (upd (regs s) f k) s).
Proof. intros b s f k [A B] K. split; simpl; auto. intros c. unfold upd. destruct (c =? f); auto. Qed.
Lemma nowhere_prep : forall b sh s cu n s', nowhere b s -> finish_prepare sh s cu n = WOk s' -> nowhere b s'.
Proof.
  intros b sh s cu n s' H E. unfold finish_prepare in E. destruct (freed s cu); [discriminate|].
  pose proof (prepare_keeps sh s cu n) as P. destruct (prepare sh s cu n) as [s1|s1 f t];
    destruct P as (_&_&_&_&_&P6&_&_&_&P10&_); (assert (N : nowhere b s1) by (apply (nowhere_same b s); congruence)).
  - now apply (nowhere_tail b s1).
  - injection E as <-. now apply (nowhere_same b s1).
Qed.
Lemma nowhere_step : forall b sh s l s', nowhere b s -> wstep sh s l = Some s' -> nowhere b s'.
Proof.
  intros b sh s l s' H E. unfold wstep in E. destruct (wstep_res sh s l) as [[s1|c]|] eqn:W; try discriminate. injection E as <-.
  assert (SW : forall f t p, switch s f t p = WOk s1 -> nowhere b s1).
  { intros f t p V. unfold switch in V. destruct (freed s f); [discriminate|]. destruct (freed s t); [discriminate|]. injection V as <-.
    apply nowhere_load. pose proof (nowhere_save b s f (mkK (own (now s)) p) H) as X. destruct H as [H1 H2]. specialize (X H1).
    now apply (nowhere_same _ _ _ X). }
  unfold wstep_res in W. destruct l as [c|c| |c| | | | |n| | | |n].
  - destruct ((c =? 0) || inq s c || freed s c); [discriminate|]. injection W as <-. now apply (nowhere_same b s).
  - destruct (inq s c); [|discriminate]. injection W as <-. now apply (nowhere_same b s).
  - destruct (inuser s); [|discriminate]. injection W as <-. now apply (nowhere_same b s).
  - injection W as <-. now apply (nowhere_same b s).
  - destruct (inuser s); [|discriminate]. injection W as <-. now apply (nowhere_same b s).
  - destruct (inuser s && _); [|discriminate]. injection W as <-. now apply (nowhere_same b s).
  - destruct (busy s && _ && _); injection W as <-; now apply (nowhere_same b s).
  - destruct (inuser s); [|discriminate]. injection W as <-. now apply (nowhere_same b s).
  - assert (Y : yield sh s n = Some (WOk s1)) by (destruct (at_ (now s)); try discriminate; exact W). clear W.
    unfold yield in Y.
    set (s0 := match info s with None => if own (now s) =? 0 then set_busy false s else s | Some _ => s end) in *.
    assert (N : nowhere b (reap s0)).
    { apply (nowhere_same b s); auto; simpl; unfold s0; destruct (info s); auto; destruct (own (now s) =? 0); auto. }
    remember (reap s0) as q eqn:Er. clear Er. destruct (info q) as [[f t]|].
    + destruct (n =? 0); [|discriminate]. simpl in Y. destruct (freed q f); [discriminate|]. destruct (freed q t); [discriminate|].
      injection Y as <-. now apply (nowhere_same b q).
    + destruct (pick q n); [|discriminate]. simpl in Y.
      assert (N2 : nowhere b (chosen n q)) by (apply (nowhere_same b q); auto; unfold chosen; destruct (n =? 0); auto).
      remember (chosen n q) as r2 eqn:Er2. clear Er2. destruct (n =? 0); injection Y as Y.
      * subst s1. now apply (nowhere_same b r2).
      * now apply nowhere_prep with (b := b) in Y.
  - destruct (at_ (now s)); try discriminate. destruct (existsb (can s) (queue s) || negb (wt s f)); [|discriminate].
    injection W as W. now apply nowhere_prep with (b := b) in W.
  - destruct (at_ (now s)); try discriminate; injection W as W; eauto.
  - destruct (at_ (now s)); try discriminate; injection W as W.
    + now apply nowhere_tail with (b := b) in W.
    + apply nowhere_tail with (b := b) in W; auto; now apply (nowhere_same b s).
  - unfold signal in W. destruct (pend s); [|discriminate]. simpl in W. destruct (negb (cnt s =? 0)).
    { destruct (n =? 0); [|discriminate]. injection W as <-. now apply (nowhere_same b s). }
    destruct (sigpoint (at_ (now s)) && pick s n); [|discriminate]. simpl in W. injection W as W. destruct (freed s (curr s)); [discriminate|].
    set (s2 := chosen n (set_pend false s)) in *.
    assert (N2 : nowhere b s2) by (apply (nowhere_same b s); auto; unfold s2, chosen; destruct (n =? 0); auto).
    clearbody s2. pose proof (prepare_keeps sh s2 (curr s) n) as P. destruct (prepare sh s2 (curr s) n) as [s3|s3 f t];
    destruct P as (_&_&_&_&_&P6&_&_&_&P10&_); (assert (N : nowhere b s3) by (apply (nowhere_same b s2); congruence)); injection W as <-; auto.
    apply nowhere_load. pose proof N as [A1 _]. pose proof (nowhere_save b s3 f (now s3) N A1) as X. now apply (nowhere_same _ _ _ X).
Qed.

(** ** Without shared stacks *)
Definition plainpc (p : pc) : Prop := match p with PShared _ | PPostS => False | _ => True end.
Definition NI (s : wst) : Prop := info s = None /\ (forall c, plainpc (at_ (regs s c))) /\ plainpc (at_ (now s)).
Lemma ni_init : NI winit.
Proof. repeat split; simpl; auto. Qed.
Lemma NI_same : forall s s', NI s -> info s' = info s -> regs s' = regs s -> plainpc (at_ (now s')) -> NI s'.
Proof. intros s s' (A&B&C) E1 E2 E3. repeat split; rewrite ?E1, ?E2; auto. Qed.
Lemma ni_tail : forall s s', NI s -> tail s = WOk s' -> NI s'.
Proof.
  intros s s' H E. unfold tail in E. destruct (freed s (curr s)); [discriminate|].
  destruct (pre s (curr s)) as [p|]; [destruct (freed s p); [discriminate|]|]; injection E as <-; apply (NI_same s); simpl; auto.
Qed.
Lemma ni_load : forall s t k, NI s -> plainpc (at_ k) -> forall f, NI (load t (set_regs (upd (regs s) f k) s)).
Proof.
  intros s t k (A&B&C) K f.
  assert (D : forall c, plainpc (at_ (upd (regs s) f k c))) by (intros c; unfold upd; destruct (c =? f); auto).
  repeat split; simpl; auto. specialize (D t). destruct (at_ (upd (regs s) f k t)) eqn:E; simpl; rewrite ?E; auto.
Qed.
Lemma ni_prepare : forall sh s cu n, (forall c, sh c = false) ->
  prepare sh s cu n = (if cu =? n then Stay s else Swap s cu n).
Proof. intros sh s cu n Z. unfold prepare. now rewrite !Z. Qed.
Lemma ni_finish : forall sh s cu n s', (forall c, sh c = false) -> NI s -> finish_prepare sh s cu n = WOk s' -> NI s'.
Proof.
  intros sh s cu n s' Z H E. unfold finish_prepare in E. destruct (freed s cu); [discriminate|]. rewrite ni_prepare in E by auto.
  destruct (cu =? n); [now apply (ni_tail s)|]. injection E as <-. apply (NI_same s); simpl; auto.
Qed.
Lemma ni_step : forall sh s l s', (forall c, sh c = false) -> NI s -> wstep sh s l = Some s' -> NI s'.
Proof.
  intros sh s l s' Z H E. unfold wstep in E. destruct (wstep_res sh s l) as [[s1|c]|] eqn:W; try discriminate. injection E as <-.
  pose proof H as (H1&H2&H3). unfold wstep_res in W. destruct l as [c|c| |c| | | | |n| | | |n].
  - destruct ((c =? 0) || inq s c || freed s c); [discriminate|]. injection W as <-. apply (NI_same s); auto.
  - destruct (inq s c); [|discriminate]. injection W as <-. apply (NI_same s); auto.
  - destruct (inuser s); [|discriminate]. injection W as <-. apply (NI_same s); auto.
  - injection W as <-. apply (NI_same s); auto.
  - destruct (inuser s); [|discriminate]. injection W as <-. apply (NI_same s); auto.
  - destruct (inuser s && _); [|discriminate]. injection W as <-. apply (NI_same s); auto.
  - destruct (busy s && _ && _); injection W as <-; apply (NI_same s); auto.
  - destruct (inuser s); [|discriminate]. injection W as <-. apply (NI_same s); simpl; auto.
  - assert (Y : yield sh s n = Some (WOk s1)) by (destruct (at_ (now s)); try discriminate; exact W). clear W.
    unfold yield in Y. rewrite H1 in Y.
    assert (N : NI (reap (if own (now s) =? 0 then set_busy false s else s))) by (destruct (own (now s) =? 0); now apply (NI_same s)).
    remember (reap (if own (now s) =? 0 then set_busy false s else s)) as q eqn:Er. clear Er. pose proof N as (N1&_&N3). rewrite N1 in Y.
    destruct (pick q n); [|discriminate]. simpl in Y.
    assert (N2 : NI (chosen n q)) by (unfold chosen; destruct (n =? 0); now apply (NI_same q)).
    remember (chosen n q) as r2 eqn:Er2. clear Er2. destruct (n =? 0); injection Y as Y.
    * subst s1. apply (NI_same r2); simpl; auto.
    * now apply ni_finish in Y.
  - destruct (at_ (now s)); try discriminate. destruct (existsb (can s) (queue s) || negb (wt s f)); [|discriminate].
    injection W as W. now apply ni_finish in W.
  - destruct (at_ (now s)) as [| | | |f t| | |]; try discriminate; try contradiction. injection W as W. unfold switch in W.
    destruct (freed s f); [discriminate|]. destruct (freed s t); [discriminate|]. injection W as <-.
    destruct (ni_load s t (mkK (own (now s)) PPost) H I f) as (A1&A2&A3). repeat split; auto.
  - destruct (at_ (now s)); try discriminate; try contradiction; injection W as W. now apply ni_tail in W.
  - unfold signal in W. destruct (pend s); [|discriminate]. simpl in W. destruct (negb (cnt s =? 0)).
    { destruct (n =? 0); [|discriminate]. injection W as <-. now apply (NI_same s). }
    destruct (sigpoint (at_ (now s)) && pick s n); [|discriminate]. simpl in W. injection W as W. destruct (freed s (curr s)); [discriminate|].
    assert (N2 : NI (chosen n (set_pend false s))) by (unfold chosen; destruct (n =? 0); now apply (NI_same s)).
    remember (chosen n (set_pend false s)) as s2 eqn:Es2. clear Es2. rewrite ni_prepare in W by auto. pose proof N2 as (_&_&N3).
    destruct (curr s =? n); injection W as <-; auto.
    destruct (ni_load s2 n (now s2) N2 N3 (curr s)) as (A1&A2&A3). repeat split; auto.
Qed.
