(** Invariant of the co_mutex model and its consequences. *)
From Coq Require Import List Arith Bool Lia.
From Verif Require Import Base SpinInv LinSpec LinLemmas MutexSpec MutexModel.
Import ListNotations.

Definition inCS (p : pc) : bool :=
  match p with
  | LkTry | LkRel | LkCheck2 | LkLoop | LkRel2 | LkRet
  | TryBody | TryRet _ | UnBody | UnHand _ | UnRet _ => true
  | _ => false
  end.

Definition pre_lock (p : pc) : bool :=
  match p with LkSpin | LkTry | LkRel | LkYield | LkSpin2 | LkCheck2 => true | _ => false end.

Definition loc_ok (s : st) (t : tid) : Prop :=
  match pcs s t with
  | Idle | TrySpin | TryBody | TryRet false | UnSpin | UnBody => waiting s t = false
  | LkSpin | LkTry | LkRel | LkYield | LkSpin2 | LkCheck2 =>
      waiting s t = false /\ owner s <> Some t
  | LkLoop => waiting s t = false /\ (In t (q s) \/ owner s = Some t)
  | LkRel2 => waiting s t = true /\ In t (q s)
  | LkPark => (In t (q s) /\ waiting s t = true)
              \/ (owner s = Some t /\ (waiting s t = true -> exists u, pcs s u = UnHand t))
  | LkSpin3 | LkRet | TryRet true => waiting s t = false /\ owner s = Some t
  | UnHand o => waiting s t = false /\ owner s = Some o /\ pcs s o = LkPark /\ waiting s o = true
                /\ ~ In o (q s)
  | UnRet _ => waiting s t = false /\ owner s <> Some t
  end.

Definition ph (s : st) (t : tid) : phase mop mres :=
  match pcs s t with
  | Idle => PIdle
  | LkSpin | LkTry | LkRel | LkYield | LkSpin2 | LkCheck2 | LkRel2 => PPending OLock
  | LkLoop | LkPark => if is_owner s t then PDone OLock ROk else PPending OLock
  | LkSpin3 | LkRet => PDone OLock ROk
  | TrySpin | TryBody => PPending OTry
  | TryRet b => PDone OTry (if b then RTrue else RFalse)
  | UnSpin | UnBody => PPending OUnlock
  | UnHand _ => PDone OUnlock ROk
  | UnRet ok => PDone OUnlock (if ok then ROk else RThrow)
  end.

Definition holds_exp (s : st) (t : tid) : bool :=
  match pcs s t with
  | Idle | TrySpin | TryBody | TryRet false => is_owner s t
  | _ => false
  end.

Record Inv (s : st) : Prop := mkInv {
  i_spin : spin_inv (spin s) (fun t => inCS (pcs s t));
  i_nodup : NoDup (q s);
  i_q : forall t, In t (q s) ->
        owner s <> Some t /\
        (pcs s t = LkLoop \/ pcs s t = LkRel2 \/ pcs s t = LkPark);
  i_none : owner s = None -> q s = [];
  i_loc : forall t, loc_ok s t;
  i_phase : forall t, phase_of mop_eqb mres_eqb (hist s) t = Some (ph s t);
  i_seq : seq_state mutex_spec None (hist s) = Some (owner s);
  i_line : line (hist s) = Some (q s);
  i_hold : forall t, holding (hist s) t = holds_exp s t
}.

Lemma inv_init : Inv init.
Proof.
  constructor; simpl; try (intros; discriminate); try (intros; contradiction);
    try reflexivity; try constructor; simpl; try discriminate.
  split; [|discriminate]. discriminate.
Qed.

Lemma is_owner_true : forall s t, is_owner s t = true <-> owner s = Some t.
Proof.
  intros s t; unfold is_owner. destruct (owner s) as [u|]; split; intro H; try discriminate.
  - apply Nat.eqb_eq in H; subst; reflexivity.
  - injection H as ->. apply Nat.eqb_refl.
Qed.
Lemma is_owner_false : forall s t, is_owner s t = false <-> owner s <> Some t.
Proof.
  intros s t. split; intro H.
  - intro H1. apply is_owner_true in H1. congruence.
  - destruct (is_owner s t) eqn:E; [|reflexivity]. apply is_owner_true in E. congruence.
Qed.

Lemma no_relock_suffix : forall e h, no_relock (e :: h) -> no_relock h.
Proof. intros [t [] | t o r | t o r | t a] h H; simpl in H; tauto. Qed.

Lemma step_hist : forall s l s', step s l = Some s' ->
  exists es, hist s' = es ++ hist s.
Proof.
  intros s [t o|t late] s' H; simpl in H.
  - destruct (pcs s t); try discriminate. injection H as <-. eexists [_]; reflexivity.
  - unfold step_run, tas in H.
    destruct (pcs s t); repeat (match type of H with
      | context [match ?x with _ => _ end] => destruct x end);
    try discriminate; injection H as <-;
    try (exists []; reflexivity); try (eexists [_]; reflexivity);
    try (eexists [_; _]; reflexivity).
Qed.

Lemma no_relock_app : forall es h, no_relock (es ++ h) -> no_relock h.
Proof.
  induction es as [|e es IH]; intros h H; [exact H|].
  apply IH. eapply no_relock_suffix. exact H.
Qed.

Lemma NoDup_snoc : forall (A : Type) (l : list A) x, NoDup l -> ~ In x l -> NoDup (l ++ [x]).
Proof.
  induction l as [|a l IH]; intros x Hn Hx; simpl.
  - constructor; [easy|constructor].
  - inversion Hn; subst. constructor.
    + rewrite in_app_iff. simpl. intros [H|[H|[]]]; [contradiction|subst; apply Hx; now left].
    + apply IH; [assumption|]. intro H; apply Hx; now right.
Qed.

(** Case split helper: for each coroutine [u], compare it with the running one. *)
Ltac cmp u t := destruct (Nat.eq_dec u t) as [->|?];
  [ rewrite ?upd_same in * | rewrite ?upd_other in * by assumption ].

Ltac prep s := simpl in *; unfold set_pc, set_spin, set_owner, set_q, set_waiting, log, clear in *;
  simpl in *.


Lemma eqb_neq' : forall t u : nat, u <> t -> Nat.eqb t u = false.
Proof. intros; apply Nat.eqb_neq; congruence. Qed.

Lemma loc_frame : forall s s' t u,
  loc_ok s u -> u <> t ->
  pcs s' u = pcs s u -> waiting s' u = waiting s u ->
  (In u (q s') <-> In u (q s)) -> (owner s' = Some u <-> owner s = Some u) ->
  (forall v, pcs s v = UnHand u -> pcs s' v = UnHand u) ->
  (forall o, pcs s u = UnHand o -> owner s' = owner s /\ waiting s' o = waiting s o /\             pcs s' o = pcs s o /\ q s' = q s) ->
  loc_ok s' u.
Proof.
  intros s s' t u H Hne Hpc Hw Hin How Hv Ho. unfold loc_ok in *. rewrite Hpc.
  destruct (pcs s u) as [| | | | | | | | | | | | | | [|] | | | o | ] eqn:E; rewrite ?Hw; try tauto.
  - destruct H as [H|[H1 H2]]; [left; tauto|right; split; [tauto|]].
    intro Hx. destruct (H2 Hx) as [v Hvv]. exists v. now apply Hv.
  - destruct (Ho o eq_refl) as (H1&H2&H3&H4). rewrite H1,H2,H3,H4. tauto.
Qed.

Ltac cs_excl Hspin Hsp :=
  intros ? ?; exfalso; congruence.

Lemma mop_refl : forall o, mop_eqb o o = true. Proof. now intros []. Qed.
Lemma mres_refl : forall o, mres_eqb o o = true. Proof. now intros []. Qed.

Ltac phs := rewrite ?phase_aux;
  first [ apply phase_call | apply (phase_lin _ _ mop_refl) | apply (phase_ret _ _ mop_refl mres_refl)
        | rewrite phase_other by (simpl; congruence) ].

Ltac rw s := repeat match goal with
  | E : owner s = _ |- context [owner s] => rewrite E
  | E : q s = _ |- context [q s] => rewrite E
  | E : Nat.eqb ?a ?b = _ |- context [Nat.eqb ?a ?b] => rewrite E
  end.

Ltac solve_q s t Hq Ept :=
  let u := fresh "u" in let Hu := fresh "Hu" in let H := fresh "H" in
  intros u Hu; rw s; pose proof (Hq u Hu) as H; cmp u t; rewrite ?Ept in H;
  rw s; intuition congruence.

Ltac solve_ph s t HphT Hph :=
  let u := fresh "u" in
  intros u; unfold ph, is_owner in *; simpl pcs; simpl owner; cmp u t;
  [ try phs; rewrite ?phase_aux; rewrite HphT; rw s; rewrite ?Nat.eqb_refl; reflexivity
  | try phs; rewrite Hph; unfold ph, is_owner; rw s; rewrite ?(eqb_neq' t u) by assumption; try reflexivity; destruct (pcs s u); reflexivity ].

Ltac solve_hold s t HholdT Hhold :=
  let u := fresh "u" in
  intros u; unfold holds_exp, is_owner in *; simpl; rw s; cmp u t;
  [ rewrite ?Nat.eqb_refl; rewrite ?HholdT; rw s; rewrite ?Nat.eqb_refl; reflexivity
  | rewrite ?(eqb_neq' t u) by assumption; rewrite Hhold; unfold holds_exp, is_owner; rw s; rewrite ?(eqb_neq' t u) by assumption; try reflexivity; destruct (pcs s u); reflexivity ].

Ltac solve_loc s t Hloc HunT :=
  let u := fresh "u" in let Hne := fresh "Hne" in let v := fresh "v" in
  let Hv := fresh "Hv" in let o0 := fresh "o0" in let Ho := fresh "Ho" in
  intros u; destruct (Nat.eq_dec u t) as [->|Hne];
  [ clear Hloc; unfold loc_ok, is_owner in *; simpl; rewrite ?upd_same; rw s; intuition congruence
  | apply (loc_frame s _ t); simpl; rewrite ?upd_other by assumption; rw s;
    [ apply Hloc | assumption | reflexivity | reflexivity | tauto | intuition congruence
    | intros v Hv; rewrite upd_other; congruence
    | intros o0 Ho; first
      [ exfalso; specialize (HunT u eq_refl Hne); rewrite Ho in HunT; discriminate
      | (repeat split; auto; generalize (Hloc u); unfold loc_ok; rewrite Ho; intros (?&?&?&?);
         first [rewrite upd_other; congruence | congruence])] ] ].

Lemma inv_step : forall s l s',
  Inv s -> step s l = Some s' -> no_relock (hist s') -> Inv s'.
Proof.
  intros s l s' HI Hs Hnr.
  destruct HI as [Hspin Hnd Hq Hnone Hloc Hph Hseq Hline Hhold].
  destruct l as [t o | t late]; simpl in Hs.
  - (* call *)
    destruct (pcs s t) eqn:Ept; try discriminate. injection Hs as <-.
    assert (Hwt : waiting s t = false) by (generalize (Hloc t); unfold loc_ok; now rewrite Ept).
    assert (Hnot : forall u, pcs s u = UnHand t -> False).
    { intros u Hu. generalize (Hloc u); unfold loc_ok; rewrite Hu. intros (_&_&H&_). congruence. }
    constructor; cbn -[phase_of holding]; auto.
    + eapply spin_inv_step with (t := t); [exact Hspin| |].
      * intros u Hu; simpl. now rewrite upd_other.
      * simpl. rewrite upd_same, Ept. apply sm_stay; [reflexivity|destruct o; reflexivity].
    + intros u Hu. cmp u t; [|eauto].
      destruct (Hq t Hu) as [_ [H|[H|H]]]; congruence.
    + intros u. destruct (Nat.eq_dec u t) as [->|Hne].
      * unfold loc_ok; simpl. rewrite upd_same. destruct o; simpl; auto. split; [assumption|].
        simpl in Hnr. destruct Hnr as [Hh _]. rewrite Hhold in Hh. unfold holds_exp in Hh.
        rewrite Ept in Hh. now apply is_owner_false.
      * apply (loc_frame s _ t); simpl; try tauto; auto.
        -- now rewrite upd_other.
        -- intros v Hv. rewrite upd_other; congruence.
        -- intros o0 H0. repeat split; auto. rewrite upd_other; auto.
           intros ->. eauto.
    + intros u. unfold ph; simpl pcs. cmp u t.
      * rewrite phase_call; [destruct o; reflexivity|]. rewrite Hph; unfold ph; now rewrite Ept.
      * phs. now rewrite Hph.
    + intros u. unfold holds_exp; simpl pcs. cmp u t.
      * destruct o; simpl; rewrite ?Hhold, ?Nat.eqb_refl; unfold holds_exp; rewrite ?Ept; auto.
        simpl in Hnr. destruct Hnr as [Hh _]. rewrite Hhold in Hh. unfold holds_exp in Hh.
        now rewrite Ept in Hh.
      * generalize (Hhold u); unfold holds_exp; intro Hhu.
        destruct o; simpl; try exact Hhu.
        rewrite (eqb_neq' t u) by assumption. exact Hhu.
  - (* run *)
    unfold step_run, tas in Hs.
    assert (HlocT := Hloc t). unfold loc_ok in HlocT.
    assert (HphT := Hph t). unfold ph in HphT.
    assert (HholdT := Hhold t). unfold holds_exp in HholdT.
    assert (HunT : forall u, inCS (pcs s t) = true -> u <> t -> inCS (pcs s u) = false).
    { intros u Ht Hne. eapply (spin_inv_excl _ _ t u Hspin); auto. }
    assert (HqT := Hq t).
    destruct (pcs s t) as [| | | | | | | | | | | | | | b | | | hd | ok] eqn:Ept.
    all: try discriminate.
    all: repeat (match type of Hs with
      | context [if ?x then _ else _] => let E := fresh "Eb" in destruct x eqn:E
      | context [match ?x with _ => _ end] => let E := fresh "Em" in destruct x eqn:E
      end); try discriminate.
    all: repeat match goal with
      | H : is_owner _ _ = true |- _ => apply is_owner_true in H
      | H : is_owner _ _ = false |- _ => apply is_owner_false in H
      | H : _ /\ _ |- _ => let A := fresh "HA" in let B := fresh "HA" in destruct H as [A B] end.
    all: injection Hs as <-.
    all: constructor; cbn -[phase_of holding line].
    (* spin lock *)
    all: try (eapply spin_inv_step with (t := t); [exact Hspin| |];
       [intros u Hu; simpl; now rewrite upd_other|];
       simpl; rewrite upd_same, Ept;
       solve [apply sm_stay; reflexivity | apply sm_acq; auto | apply sm_rel; auto]).
    all: try exact Hnd.
    all: try exact Hnone.
    all: try exact Hline.
    all: try exact Hseq.
    all: try (intros; discriminate).
    all: try (rw s; assumption).
    all: try (rewrite Hseq; rw s; rewrite ?Nat.eqb_refl; reflexivity).
    all: try (simpl; rewrite Hline, ?(Hnone eq_refl); reflexivity).
    all: try solve [solve_q s t Hq Ept].
    all: try solve [solve_ph s t HphT Hph].
    all: try solve [solve_hold s t HholdT Hhold].
    all: try solve [solve_loc s t Hloc HunT].
    + (* push: NoDup *)
      apply NoDup_snoc; [assumption|]. intro Hin. destruct (HqT Hin) as [_ [?|[?|?]]]; discriminate.
    + intros u Hu. rewrite Eb. apply in_app_or in Hu as [Hu|[Hu|[]]].
      * cmp u t; [auto|]. apply Hq; assumption.
      * subst u. rewrite upd_same. auto.
    + congruence.
    + intros u. destruct (Nat.eq_dec u t) as [->|Hne].
      * unfold loc_ok; simpl. rewrite upd_same. split; [assumption|]. left.
        apply in_or_app; right; now left.
      * apply (loc_frame s _ t); simpl; auto; try tauto.
        -- now rewrite upd_other.
        -- rewrite in_app_iff. simpl. intuition congruence.
        -- intros v Hv. rewrite upd_other; congruence.
        -- intros o0 Ho. specialize (HunT u eq_refl Hne). rewrite Ho in HunT. discriminate.
    + intros u. rewrite phase_aux. unfold ph, is_owner; simpl. rewrite Eb. cmp u t.
      * rewrite HphT. destruct (Nat.eqb_spec t0 t); [congruence|reflexivity].
      * rewrite Hph. unfold ph, is_owner. now rewrite Eb.
    + intros u. unfold ph, is_owner; simpl. cmp u t.
      * rewrite HphT. destruct (HqT HA0) as [Ho _].
        destruct (owner s) as [w|]; [|reflexivity]. destruct (Nat.eqb_spec w t); [congruence|reflexivity].
      * rewrite Hph. reflexivity.
    + (* leaving the parked state *)
      assert (Ho : owner s = Some t).
      { destruct HlocT as [[_ ?]|[? _]]; [discriminate|assumption]. }
      intros u. destruct (Nat.eq_dec u t) as [->|Hne].
      * unfold loc_ok; simpl. rewrite upd_same. auto.
      * apply (loc_frame s _ t); simpl; auto; try tauto.
        -- now rewrite upd_other.
        -- intros v Hv. rewrite upd_other; congruence.
        -- intros o0 Ho0. repeat split; auto.
           generalize (Hloc u); unfold loc_ok; rewrite Ho0. intros (?&?&?&?&?).
           rewrite upd_other; congruence.
    + assert (Ho : owner s = Some t).
      { destruct HlocT as [[_ ?]|[? _]]; [discriminate|assumption]. }
      intros u. unfold ph, is_owner in *; simpl. cmp u t.
      * rewrite HphT. now rewrite Ho, Nat.eqb_refl.
      * rewrite Hph. reflexivity.
    + rewrite Em. intros u [].
    + intros _. exact Em.
    + inversion Hnd; assumption.
    + inversion Hnd; subst. intros u Hu. split; [congruence|].
      destruct (Hq u (or_intror Hu)) as [_ Hu2]. cmp u t; [|assumption].
      rewrite Ept in Hu2. intuition congruence.
    + (* hand-off: local *)
      inversion Hnd as [|? ? Hnin Hnd']; subst.
      destruct (Hq t0 (or_introl eq_refl)) as [Hot Hpt].
      assert (Hne0 : t0 <> t) by congruence.
      assert (Hp0 : pcs s t0 = LkPark).
      { specialize (HunT t0 eq_refl Hne0). destruct Hpt as [E|[E|E]]; auto; rewrite E in HunT; discriminate. }
      assert (Hw0 : waiting s t0 = true).
      { generalize (Hloc t0). unfold loc_ok. rewrite Hp0. intros [[_ ?]|[? _]]; [assumption|congruence]. }
      intros u. destruct (Nat.eq_dec u t) as [->|Hne].
      { unfold loc_ok; simpl. rewrite upd_same. rewrite upd_other by assumption. auto. }
      destruct (Nat.eq_dec u t0) as [->|Hne'].
      { unfold loc_ok; simpl. rewrite upd_other, Hp0 by assumption. right. split; [reflexivity|].
        intros _. exists t. now rewrite upd_same. }
      apply (loc_frame s _ t); simpl; auto; try tauto.
      -- now rewrite upd_other.
      -- rewrite Em. simpl. intuition congruence.
      -- intuition congruence.
      -- intros v Hv. rewrite upd_other; congruence.
      -- intros o0 Ho. specialize (HunT u eq_refl Hne). rewrite Ho in HunT. discriminate.
    + (* hand-off: phases *)
      destruct (Hq t0 (or_introl eq_refl)) as [Hot Hpt].
      assert (Hne0 : t0 <> t) by congruence.
      assert (Hp0 : pcs s t0 = LkPark).
      { specialize (HunT t0 eq_refl Hne0). destruct Hpt as [E|[E|E]]; auto; rewrite E in HunT; discriminate. }
      intros u. unfold ph, is_owner; simpl pcs; simpl owner. destruct (Nat.eq_dec u t) as [->|Hne].
      { rewrite upd_same. rewrite phase_other by (simpl; congruence).
        apply (phase_lin _ _ mop_refl). exact HphT. }
      rewrite upd_other by assumption.
      destruct (Nat.eq_dec u t0) as [->|Hne'].
      { rewrite Nat.eqb_refl, Hp0. apply (phase_lin _ _ mop_refl).
        rewrite phase_other by (simpl; congruence). rewrite Hph. unfold ph, is_owner.
        rewrite Hp0. destruct (owner s) as [w|]; [|reflexivity].
        destruct (Nat.eqb_spec w t0); [congruence|reflexivity]. }
      rewrite !phase_other by (simpl; congruence). rewrite Hph. unfold ph, is_owner.
      rewrite Eb, (eqb_neq' t u), (eqb_neq' t0 u) by congruence. destruct (pcs s u); reflexivity.
    + simpl. rewrite Hline. now rewrite Nat.eqb_refl.
    + (* hand-off: holding *)
      destruct (Hq t0 (or_introl eq_refl)) as [Hot Hpt].
      assert (Hne0 : t0 <> t) by congruence.
      intros u. unfold holds_exp, is_owner; simpl. destruct (Nat.eq_dec u t) as [->|Hne].
      { rewrite upd_same. exact HholdT. }
      rewrite upd_other by assumption. rewrite Hhold. unfold holds_exp, is_owner. rewrite Eb.
      rewrite (eqb_neq' t u) by assumption.
      destruct (Nat.eqb_spec t0 u) as [<-|]; [|destruct (pcs s u); reflexivity].
      destruct Hpt as [E|[E|E]]; rewrite E; reflexivity.
    + rewrite Hseq. destruct (owner s) as [w|]; [|reflexivity].
      destruct (Nat.eqb_spec w t); [congruence|reflexivity].
    + (* leave_wait_resource_state of the new owner *)
      assert (Hne0 : hd <> t) by congruence.
      intros u. destruct (Nat.eq_dec u t) as [->|Hne].
      { unfold loc_ok; simpl. rewrite upd_same, upd_other by congruence. split; [assumption|congruence]. }
      destruct (Nat.eq_dec u hd) as [->|Hne'].
      { unfold loc_ok; simpl. assert (Hpk : pcs s hd = LkPark) by assumption; rewrite upd_other, Hpk by assumption. right. split; [assumption|].
        rewrite upd_same. discriminate. }
      apply (loc_frame s _ t); simpl; auto; try tauto.
      -- now rewrite upd_other.
      -- now rewrite upd_other.
      -- intros v Hv. destruct (Nat.eq_dec v t) as [->|Hv']; [congruence|now rewrite upd_other].
      -- intros o0 Ho. specialize (HunT u eq_refl Hne). rewrite Ho in HunT. discriminate.
    + intros u. unfold holds_exp, is_owner; simpl. cmp u t.
      * rewrite HholdT. destruct (owner s) as [w|]; [|reflexivity].
        destruct (Nat.eqb_spec w t); [congruence|reflexivity].
      * rewrite Hhold. reflexivity.
    + intros u. unfold holds_exp, is_owner; simpl. cmp u t.
      * rewrite HholdT. destruct (owner s) as [w|]; [|reflexivity].
        destruct (Nat.eqb_spec w t); [congruence|reflexivity].
      * rewrite Hhold. reflexivity.
Qed.

Lemma reach_inv_mutex : forall ls s,
  run step init ls = Some s -> no_relock (hist s) -> Inv s.
Proof.
  intros ls s Hr. revert Hr.
  apply (run_inv step (fun s => no_relock (hist s) -> Inv s)).
  - intros _. exact inv_init.
  - intros s0 l s1 HI Hs Hn. eapply inv_step; eauto. apply HI.
    destruct (step_hist _ _ _ Hs) as [es Hes]. rewrite Hes in Hn. now apply no_relock_app in Hn.
Qed.

Lemma inv_linearizable : forall s, Inv s -> mutex_linearizable (hist s).
Proof.
  intros s HI. split.
  - intros t. rewrite (i_phase _ HI). discriminate.
  - rewrite (i_seq _ HI). discriminate.
Qed.

(** ** Consequences of linearizability, on histories alone. *)
Definition own (o : option tid) (t : tid) : bool :=
  match o with Some u => Nat.eqb u t | None => false end.

Definition J1 (h : list mev) (o : option tid) (t : tid) (p : phase mop mres) : Prop :=
  match p with
  | PIdle | PPending OTry | PPending OLock | PDone OTry RFalse => holding h t = own o t
  | PDone OLock ROk | PDone OTry RTrue => own o t = true
  | PPending OUnlock => holding h t = false /\ held_at_unlock h t = own o t
  | PDone OUnlock ROk => own o t = false /\ holding h t = false /\ held_at_unlock h t = true
  | PDone OUnlock RThrow => own o t = false /\ holding h t = false /\ held_at_unlock h t = false
  | _ => False
  end.

Lemma own_true : forall o t, own o t = true -> o = Some t.
Proof. intros [u|] t H; simpl in H; [apply Nat.eqb_eq in H; congruence|discriminate]. Qed.

Lemma lin_J : forall h o, 
  (forall t, phase_of mop_eqb mres_eqb h t <> None) ->
  seq_state mutex_spec None h = Some o ->
  unlock_results_ok h /\
  forall t p, phase_of mop_eqb mres_eqb h t = Some p -> J1 h o t p.
Proof.
  induction h as [|e h IH]; intros o Hph Hseq.
  - split; [exact I|]. simpl. intros t p H. injection H as <-. simpl in Hseq. injection Hseq as <-. reflexivity.
  - assert (Hph' : forall t, phase_of mop_eqb mres_eqb h t <> None).
    { intros t E. apply (Hph t). simpl. now rewrite E. }
    destruct e as [u c|u c r|u c r|u a].
    + (* call *)
      simpl in Hseq. destruct (IH o Hph' Hseq) as [Hu HJ]. split; [exact Hu|].
      intros t p. destruct (Nat.eq_dec u t) as [->|Hne].
      * simpl. destruct (phase_of mop_eqb mres_eqb h t) as [p0|] eqn:E; [|now destruct (Hph' t)].
        simpl. rewrite Nat.eqb_refl. destruct p0; try discriminate. intro H; injection H as <-.
        specialize (HJ t _ E). simpl in HJ. destruct c; simpl; auto.
        rewrite Nat.eqb_refl. auto.
      * rewrite phase_other by exact Hne. intro H. specialize (HJ t p H).
        apply Nat.eqb_neq in Hne.
        destruct c; simpl; try exact HJ.
        unfold J1 in *; simpl; rewrite Hne. exact HJ.
    + (* effect *)
      simpl in Hseq. destruct (seq_state mutex_spec None h) as [o'|] eqn:Es; [|discriminate].
      destruct (IH o' Hph' eq_refl) as [Hu HJ]. split; [exact Hu|].
      assert (HJu := Hph u). simpl in HJu.
      destruct (phase_of mop_eqb mres_eqb h u) as [p0|] eqn:Eu; [|now destruct (Hph' u)].
      simpl in HJu. rewrite Nat.eqb_refl in HJu.
      destruct p0 as [|o0|]; try congruence.
      destruct (mop_eqb c o0) eqn:Ec; [|congruence].
      assert (c = o0) by (destruct c, o0; simpl in Ec; congruence). subst o0.
      assert (HJ0 := HJ u _ Eu).
      intros t p Hp. destruct (Nat.eq_dec u t) as [->|Hne].
      * rewrite (phase_lin _ _ mop_refl _ _ _ Eu) in Hp. injection Hp as <-.
        destruct c, r, o' as [w|]; simpl in *; try discriminate;
        try (injection Hseq as <-); simpl; rewrite ?Nat.eqb_refl; auto.
        -- destruct (Nat.eqb_spec w t); [|discriminate]. injection Hseq as <-. subst.
           simpl in *. tauto.
        -- destruct (Nat.eqb_spec w t); [discriminate|]. injection Hseq as <-. simpl.
           apply Nat.eqb_neq in n. rewrite n in *. tauto.
      * rewrite phase_other in Hp by exact Hne. specialize (HJ t p Hp).
        assert (Hown : own o t = own o' t \/ (own o' t = false /\ own o t = false)).
        { destruct c, r, o' as [w|]; simpl in Hseq; try discriminate;
          try (injection Hseq as <-); simpl; auto.
          - apply Nat.eqb_neq in Hne. rewrite Hne. auto.
          - apply Nat.eqb_neq in Hne. rewrite Hne. auto.
          - destruct (Nat.eqb_spec w u); [|discriminate]. injection Hseq as <-. subst.
            apply Nat.eqb_neq in Hne. rewrite Hne. auto.
          - destruct (Nat.eqb_spec w u); [discriminate|]. injection Hseq as <-. auto. }
        assert (Hown' : own o t = own o' t) by (destruct Hown as [?|[? ?]]; congruence).
        unfold J1 in *; simpl; rewrite Hown'. exact HJ.
    + (* return *)
      simpl in Hseq. destruct (IH o Hph' Hseq) as [Hu HJ].
      assert (HJu := Hph u). simpl in HJu.
      destruct (phase_of mop_eqb mres_eqb h u) as [p0|] eqn:Eu; [|now destruct (Hph' u)].
      simpl in HJu. rewrite Nat.eqb_refl in HJu.
      destruct p0 as [| |o0 r0]; try congruence.
      destruct (mop_eqb c o0) eqn:Ec; [|simpl in HJu; congruence].
      destruct (mres_eqb r r0) eqn:Er; [|simpl in HJu; congruence].
      assert (c = o0) by (destruct c, o0; simpl in Ec; congruence). subst o0.
      assert (r = r0) by (destruct r, r0; simpl in Er; congruence). subst r0.
      assert (HJ0 := HJ u _ Eu). split.
      { destruct c; simpl; auto. split; [|exact Hu].
        destruct r; simpl in HJ0; try contradiction; destruct HJ0 as (_&_&->); reflexivity. }
      intros t p Hp. destruct (Nat.eq_dec u t) as [->|Hne].
      * rewrite (phase_ret _ _ mop_refl mres_refl _ _ Eu) in Hp. injection Hp as <-.
        destruct c, r; simpl in HJ0; try contradiction; simpl; rewrite ?Nat.eqb_refl; auto.
        -- destruct HJ0 as (?&?&?). congruence.
        -- destruct HJ0 as (?&?&?). congruence.
      * rewrite phase_other in Hp by exact Hne. specialize (HJ t p Hp).
        apply Nat.eqb_neq in Hne.
        destruct c, r; unfold J1 in *; simpl; rewrite ?Hne; exact HJ.
    + simpl in Hseq. destruct (IH o Hph' Hseq) as [Hu HJ]. split; [exact Hu|].
      intros t p Hp. rewrite phase_aux in Hp. exact (HJ t p Hp).
Qed.

Lemma lin_exclusion : forall h t u, mutex_linearizable h ->
  holding h t = true -> holding h u = true -> t = u.
Proof.
  intros h t u [Hph Hseq] Ht Hu.
  destruct (seq_state mutex_spec None h) as [o|] eqn:Es; [|congruence].
  destruct (lin_J h o Hph Es) as [_ HJ].
  assert (Hx : forall v, holding h v = true -> o = Some v).
  { intros v Hv. destruct (phase_of mop_eqb mres_eqb h v) as [p|] eqn:E; [|now destruct (Hph v)].
    specialize (HJ v p E). apply own_true.
    destruct p as [|[]|[] []]; simpl in HJ; try contradiction; try congruence;
      destruct HJ; intuition congruence. }
  apply Hx in Ht. apply Hx in Hu. congruence.
Qed.

Lemma lin_unlock_results : forall h, mutex_linearizable h -> unlock_results_ok h.
Proof.
  intros h [Hph Hseq].
  destruct (seq_state mutex_spec None h) as [o|] eqn:Es; [|congruence].
  exact (proj1 (lin_J h o Hph Es)).
Qed.

(** ** Progress *)
Definition internal (l : lbl) : Prop := match l with Run _ _ => True | Call _ _ => False end.

Lemma run_no_relock : forall s t late s', step_run s t late = Some s' ->
  no_relock (hist s) -> no_relock (hist s').
Proof.
  intros s t late s' H Hn. unfold step_run, tas in H.
  destruct (pcs s t); repeat (match type of H with
      | context [match ?x with _ => _ end] => destruct x end);
  try discriminate; injection H as <-; exact Hn.
Qed.

Definition NInv (s : st) : Prop := Inv s /\ no_relock (hist s).

Lemma ninv_run : forall s t late s', NInv s -> step_run s t late = Some s' -> NInv s'.
Proof.
  intros s t late s' [HI Hn] H. assert (Hn' := run_no_relock _ _ _ _ H Hn).
  split; [|exact Hn']. eapply (inv_step s (Run t late)); eauto.
Qed.

(** [ireach s s']: [s'] is reached from [s] by internal steps only. *)
Definition ireach (s s' : st) : Prop :=
  exists ls, Forall internal ls /\ run step s ls = Some s'.

Lemma ireach_refl : forall s, ireach s s.
Proof. intro s; exists []; split; [constructor|reflexivity]. Qed.
Lemma ireach_step : forall s t late s1 s', step_run s t late = Some s1 -> ireach s1 s' -> ireach s s'.
Proof.
  intros s t late s1 s' H (ls&Hf&Hr). exists (Run t late :: ls). split.
  - constructor; [exact I|assumption].
  - simpl. now rewrite H.
Qed.
Lemma ireach_trans : forall a b c, ireach a b -> ireach b c -> ireach a c.
Proof.
  intros a b c (l1&F1&R1) (l2&F2&R2). exists (l1 ++ l2). split.
  - apply Forall_app; auto.
  - now rewrite run_app, R1.
Qed.

Lemma quiescent_mutex : forall s, Inv s ->
  (forall t late, step s (Run t late) = None) ->
  forall t, phase_of mop_eqb mres_eqb (hist s) t <> Some PIdle ->
  phase_of mop_eqb mres_eqb (hist s) t = Some (PPending OLock) /\ In t (q s) /\
  exists o, holding (hist s) o = true /\ phase_of mop_eqb mres_eqb (hist s) o = Some PIdle.
Proof.
  intros s HI Hqu t Hnp.
  assert (Hnospin : spin s = false).
  { destruct (spin s) eqn:E; [|reflexivity]. exfalso.
    destruct (i_spin _ HI) as (_&_&H3). destruct (H3 E) as [w Hw].
    specialize (Hqu w false). simpl in Hqu. unfold step_run in Hqu.
    destruct (pcs s w) eqn:Ew; simpl in Hw; try discriminate;
      repeat (match type of Hqu with context [match ?x with _ => _ end] => destruct x end); discriminate. }
  assert (Hall : forall w, pcs s w = Idle \/ (pcs s w = LkPark /\ waiting s w = true)).
  { intros w. specialize (Hqu w false). simpl in Hqu. unfold step_run, tas in Hqu.
    rewrite Hnospin in Hqu.
    assert (Hl := i_loc _ HI w). unfold loc_ok in Hl.
    destruct (pcs s w) eqn:Ew; auto; try discriminate;
      repeat (match type of Hqu with context [match ?x with _ => _ end] => destruct x eqn:?E end);
      try discriminate; auto. destruct Hl; congruence. }
  destruct (Hall t) as [E|[E Hw]].
  { exfalso; apply Hnp. rewrite (i_phase _ HI). unfold ph. now rewrite E. }
  assert (Hl := i_loc _ HI t). unfold loc_ok in Hl. rewrite E in Hl.
  destruct Hl as [[Hin _]|[_ Hex]].
  2:{ destruct (Hex Hw) as [u Hu]. destruct (Hall u) as [E'|[E' _]]; congruence. }
  destruct (i_q _ HI t Hin) as [Hno _].
  split; [|split; [exact Hin|]].
  - rewrite (i_phase _ HI). unfold ph, is_owner. rewrite E.
    destruct (owner s) as [w|]; [|reflexivity]. destruct (Nat.eqb_spec w t); [congruence|reflexivity].
  - destruct (owner s) as [o|] eqn:Eo.
    2:{ rewrite (i_none _ HI Eo) in Hin. destruct Hin. }
    assert (Ho : pcs s o = Idle).
    { destruct (Hall o) as [E'|[E' Hw']]; [assumption|]. exfalso.
      assert (Hl := i_loc _ HI o). unfold loc_ok in Hl. rewrite E' in Hl.
      destruct Hl as [[Hin' _]|[_ Hex]].
      - destruct (i_q _ HI o Hin') as [Hno' _]. congruence.
      - destruct (Hex Hw') as [u Hu]. destruct (Hall u) as [E2|[E2 _]]; congruence. }
    exists o. split.
    + rewrite (i_hold _ HI). unfold holds_exp, is_owner. now rewrite Ho, Eo, Nat.eqb_refl.
    + rewrite (i_phase _ HI). unfold ph. now rewrite Ho.
Qed.

Lemma progress_free : forall s t, NInv s -> owner s = None ->
  phase_of mop_eqb mres_eqb (hist s) t = Some (PPending OLock) ->
  exists s' u, ireach s s' /\ owner s' = Some u.
Proof.
  intros s t HN Ho Hp.
  (* first let the spin lock holder leave *)
  assert (Hdrain : (exists s' u, ireach s s' /\ owner s' = Some u) \/
     exists s', ireach s s' /\ NInv s' /\ spin s' = false /\ owner s' = None /\
                phase_of mop_eqb mres_eqb (hist s') t = Some (PPending OLock)).
  { destruct (spin s) eqn:Esp.
    2:{ right. exists s. split; [apply ireach_refl|split; [exact HN|auto]]. }
    destruct HN as [HI Hn].
    destruct (i_spin _ HI) as (_&_&H3). destruct (H3 Esp) as [w Hw].
    assert (Hl := i_loc _ HI w). unfold loc_ok in Hl.
    assert (Hq := i_q _ HI w). rewrite (i_none _ HI Ho) in *.
    assert (Hsolo : forall s1 late, step_run s w late = Some s1 -> NInv s1) by
      (intros; eapply ninv_run; [split; eassumption|eassumption]).
    assert (Hother : forall s1 late, step_run s w late = Some s1 -> spin s1 = false -> owner s1 = None ->
        phase_of mop_eqb mres_eqb (hist s1) t = Some (PPending OLock) ->
        (exists s' u, ireach s s' /\ owner s' = Some u) \/
        exists s', ireach s s' /\ NInv s' /\ spin s' = false /\ owner s' = None /\
                phase_of mop_eqb mres_eqb (hist s') t = Some (PPending OLock)).
    { intros s1 late Hs H1 H2 H4. right. exists s1. split; [|split; [eapply Hsolo; eauto|auto]].
      eapply ireach_step; [exact Hs|apply ireach_refl]. }
    destruct (pcs s w) as [| | | | | | | | | | | | | | b | | | hd | ok] eqn:Ew; simpl in Hw; try discriminate.
    - left. eexists _, w. split.
      + eapply ireach_step with (t := w) (late := false); [|apply ireach_refl].
        unfold step_run. rewrite Ew, Ho. reflexivity.
      + reflexivity.
    - eapply (Hother _ false); [unfold step_run; rewrite Ew; reflexivity|reflexivity|exact Ho|exact Hp].
    - left. eexists _, w. split.
      + eapply ireach_step with (t := w) (late := false); [|apply ireach_refl].
        unfold step_run. rewrite Ew, Ho. reflexivity.
      + reflexivity.
    - exfalso. destruct Hl as [_ [[]|?]]. congruence.
    - exfalso. destruct Hl as [_ []].
    - exfalso. destruct Hl; congruence.
    - left. eexists _, w. split.
      + eapply ireach_step with (t := w) (late := false); [|apply ireach_refl].
        unfold step_run. rewrite Ew, Ho. reflexivity.
      + reflexivity.
    - eapply (Hother _ false); [unfold step_run; rewrite Ew; reflexivity|reflexivity|exact Ho|].
      destruct (Nat.eq_dec w t) as [->|Hne].
      + exfalso. rewrite (i_phase _ HI) in Hp. unfold ph in Hp. rewrite Ew in Hp. discriminate.
      + unfold log, clear, set_pc, set_spin; cbn [hist]. rewrite phase_other; auto.
    - (* unlock by a coroutine that is not the owner *)
      assert (Hwt : w <> t).
      { intros ->. rewrite (i_phase _ HI) in Hp. unfold ph in Hp. rewrite Ew in Hp. discriminate. }
      assert (Hs1 : step_run s w false = Some (log (set_pc s w (UnRet false)) (ELin w OUnlock RThrow))).
      { unfold step_run, is_owner. now rewrite Ew, Ho. }
      assert (HN1 := Hsolo _ _ Hs1).
      assert (Hs2 : step_run (log (set_pc s w (UnRet false)) (ELin w OUnlock RThrow)) w false =
        Some (log (clear (log (set_pc s w (UnRet false)) (ELin w OUnlock RThrow)) w Idle) (ERet w OUnlock RThrow))).
      { unfold step_run; simpl. now rewrite upd_same. }
      right. eexists. split; [|split; [|split; [|split]]].
      + eapply ireach_step; [exact Hs1|]. eapply ireach_step; [exact Hs2|]. apply ireach_refl.
      + eapply ninv_run; eauto.
      + reflexivity.
      + exact Ho.
      + unfold log, clear, set_pc, set_spin; cbn [hist]. rewrite !phase_other; auto.
    - exfalso. destruct Hl as (_&?&_). congruence.
    - assert (Hwt : w <> t).
      { intros ->. rewrite (i_phase _ HI) in Hp. unfold ph in Hp. rewrite Ew in Hp. discriminate. }
      eapply (Hother _ false); [unfold step_run; rewrite Ew; reflexivity|reflexivity|exact Ho|].
      unfold log, clear, set_pc, set_spin; cbn [hist]. rewrite phase_other; auto. }
  destruct Hdrain as [?|(s1&Hr&[HI Hn]&Hsp&Ho1&Hp1)]; [assumption|].
  cut (exists s' u, ireach s1 s' /\ owner s' = Some u).
  { intros (s'&u&Hr'&Hu). exists s', u. split; [eapply ireach_trans; eauto|assumption]. }
  assert (Hl := i_loc _ HI t). unfold loc_ok in Hl.
  rewrite (i_phase _ HI) in Hp1. unfold ph, is_owner in Hp1. rewrite Ho1 in Hp1.
  rewrite (i_none _ HI Ho1) in Hl.
  destruct (i_spin _ HI) as (H1&_&_).
  assert (Hcs : inCS (pcs s1 t) = true -> False) by (intro X; apply H1 in X; congruence).
  destruct (pcs s1 t) eqn:Et; try discriminate; try (exfalso; now apply Hcs).
  - eexists _, t. split.
    + eapply ireach_step with (late := false) (t := t); [unfold step_run, tas; rewrite Et, Hsp; reflexivity|].
      eapply ireach_step with (late := false) (t := t);
        [unfold step_run; simpl; rewrite upd_same, Ho1; reflexivity|]. apply ireach_refl.
    + reflexivity.
  - eexists _, t. split.
    + eapply ireach_step with (late := false) (t := t).
      { unfold step_run. rewrite Et. destruct Hl as [-> _]. reflexivity. }
      eapply ireach_step with (late := false) (t := t);
        [unfold step_run, tas; simpl; rewrite upd_same, Hsp; reflexivity|].
      eapply ireach_step with (late := false) (t := t);
        [unfold step_run; simpl; rewrite upd_same, Ho1; reflexivity|]. apply ireach_refl.
    + reflexivity.
  - eexists _, t. split.
    + eapply ireach_step with (late := false) (t := t); [unfold step_run, tas; rewrite Et, Hsp; reflexivity|].
      eapply ireach_step with (late := false) (t := t);
        [unfold step_run; simpl; rewrite upd_same, Ho1; reflexivity|]. apply ireach_refl.
    + reflexivity.
  - exfalso. destruct Hl as [[[] _]|[? _]]. congruence.
Qed.

(** A run of one coroutine alone. *)
Fixpoint solo (s : st) (t : tid) (bs : list bool) : option st :=
  match bs with
  | [] => Some s
  | b :: bs' => match step_run s t b with Some s' => solo s' t bs' | None => None end
  end.

Lemma solo_ireach : forall bs s t s', solo s t bs = Some s' -> ireach s s'.
Proof.
  induction bs as [|b bs IH]; intros s t s' H; simpl in H.
  - injection H as <-. apply ireach_refl.
  - destruct (step_run s t b) as [s1|] eqn:E; [|discriminate].
    eapply ireach_step; eauto.
Qed.

Lemma solo_ninv : forall bs s t s', solo s t bs = Some s' -> NInv s -> NInv s'.
Proof.
  induction bs as [|b bs IH]; intros s t s' H HN; simpl in H.
  - now injection H as <-.
  - destruct (step_run s t b) as [s1|] eqn:E; [|discriminate].
    eapply IH; eauto. eapply ninv_run; eauto.
Qed.

(** While [t] owns the mutex, whoever holds the spin lock can leave it alone. *)
Lemma drain_owned : forall s t w, NInv s -> owner s = Some t -> inCS (pcs s w) = true -> w <> t ->
  exists bs s', solo s w bs = Some s' /\ spin s' = false /\ owner s' = Some t /\ pcs s' t = pcs s t.
Proof.
  intros s t w [HI Hn] Ho Hw Hne.
  assert (Hl := i_loc _ HI w). unfold loc_ok in Hl.
  assert (Hio : is_owner s w = false) by (apply is_owner_false; congruence).
  assert (Hne' : t <> w) by congruence.
  destruct (pcs s w) as [| | | | | | | | | | | | | | b | | | hd | ok] eqn:Ew; simpl in Hw; try discriminate.
  - exists [false; false]. eexists. cbn -[upd]. unfold step_run at 1. rewrite Ew, Ho.
    unfold step_run; cbn -[upd]; rewrite upd_same. split; [reflexivity|]. simpl.
    rewrite !upd_other by assumption. auto.
  - exists [false]. eexists. cbn -[upd]. unfold step_run at 1. rewrite Ew.
    split; [reflexivity|]. simpl. rewrite !upd_other by assumption. auto.
  - exists [false; false; false]. eexists. cbn -[upd]. unfold step_run at 1. rewrite Ew, Ho.
    unfold step_run at 1; cbn -[upd]; rewrite upd_same.
    unfold is_owner; cbn -[upd]. rewrite Ho, (eqb_neq' t w) by congruence.
    unfold step_run at 1; cbn -[upd]; rewrite upd_same.
    split; [reflexivity|]. simpl. rewrite !upd_other by assumption. auto.
  - exists [false; false]. eexists. cbn -[upd]. unfold step_run at 1. rewrite Ew, Hio.
    unfold step_run; cbn -[upd]; rewrite upd_same. split; [reflexivity|]. simpl.
    rewrite !upd_other by assumption. auto.
  - exists [false]. eexists. cbn -[upd]. unfold step_run at 1. rewrite Ew.
    split; [reflexivity|]. simpl. rewrite !upd_other by assumption. auto.
  - exists [false]. eexists. cbn -[upd]. unfold step_run at 1. rewrite Ew.
    split; [reflexivity|]. simpl. rewrite !upd_other by assumption. auto.
  - exists [false; false]. eexists. cbn -[upd]. unfold step_run at 1. rewrite Ew, Ho.
    unfold step_run; cbn -[upd]; rewrite upd_same. split; [reflexivity|]. simpl.
    rewrite !upd_other by assumption. auto.
  - exists [false]. eexists. cbn -[upd]. unfold step_run at 1. rewrite Ew.
    split; [reflexivity|]. simpl. rewrite !upd_other by assumption. auto.
  - exists [false; false]. eexists. cbn -[upd]. unfold step_run at 1. rewrite Ew, Hio.
    unfold step_run; cbn -[upd]; rewrite upd_same. split; [reflexivity|]. simpl.
    rewrite !upd_other by assumption. auto.
  - exists [false; false]. eexists. cbn -[upd]. unfold step_run at 1. rewrite Ew.
    unfold step_run; cbn -[upd]; rewrite upd_same. split; [reflexivity|]. simpl.
    rewrite !upd_other by assumption. auto.
  - exists [false]. eexists. cbn -[upd]. unfold step_run at 1. rewrite Ew.
    split; [reflexivity|]. simpl. rewrite !upd_other by assumption. auto.
Qed.

Lemma progress_granted : forall s t, NInv s ->
  phase_of mop_eqb mres_eqb (hist s) t = Some (PDone OLock ROk) ->
  exists s', ireach s s' /\ holding (hist s') t = true /\
             phase_of mop_eqb mres_eqb (hist s') t = Some PIdle.
Proof.
  intros s t HN Hp.
  assert (Ho : owner s = Some t).
  { destruct HN as [HI _]. rewrite (i_phase _ HI) in Hp. unfold ph in Hp.
    assert (Hl := i_loc _ HI t). unfold loc_ok in Hl.
    destruct (pcs s t) as [| | | | | | | | | | | | | | b | | | hd | ok]; try discriminate; try tauto;
      destruct (is_owner s t) eqn:E; try discriminate; now apply is_owner_true. }
  (* from a state in which t runs alone to its return *)
  assert (Hfin : forall s1, NInv s1 -> ireach s s1 -> owner s1 = Some t ->
     (exists bs s', solo s1 t bs = Some s' /\ pcs s' t = Idle /\ owner s' = Some t) ->
     exists s', ireach s s' /\ holding (hist s') t = true /\
             phase_of mop_eqb mres_eqb (hist s') t = Some PIdle).
  { intros s1 HN1 Hr1 Ho1 (bs&s'&Hs&Hid&Ho').
    destruct (solo_ninv _ _ _ _ Hs HN1) as [HI' _].
    exists s'. split; [|split].
    - eapply ireach_trans; [exact Hr1|]. eapply solo_ireach; eauto.
    - rewrite (i_hold _ HI'). unfold holds_exp, is_owner. now rewrite Hid, Ho', Nat.eqb_refl.
    - rewrite (i_phase _ HI'). unfold ph. now rewrite Hid. }
  assert (Hpc : pcs s t = LkLoop \/ pcs s t = LkPark \/ pcs s t = LkSpin3 \/ pcs s t = LkRet).
  { destruct HN as [HI _]. rewrite (i_phase _ HI) in Hp. unfold ph in Hp.
    destruct (pcs s t) as [| | | | | | | | | | | | | | b | | | hd | ok]; try discriminate; auto. }
  destruct Hpc as [E|[E|Hpc]].
  - apply (Hfin s HN (ireach_refl s) Ho). exists [false; false]. eexists.
    cbn -[upd]. unfold step_run at 1. rewrite E. unfold is_owner. rewrite Ho, Nat.eqb_refl.
    unfold step_run; cbn -[upd]. rewrite upd_same. split; [reflexivity|]. simpl.
    now rewrite upd_same.
  - (* parked, already owner *)
    assert (Hd : exists s1, NInv s1 /\ ireach s s1 /\ owner s1 = Some t /\ spin s1 = false /\ pcs s1 t = LkPark).
    { destruct (spin s) eqn:Esp.
      - destruct (i_spin _ (proj1 HN)) as (_&_&H3). destruct (H3 Esp) as [w Hw].
        assert (Hne : w <> t) by (intros ->; rewrite E in Hw; discriminate).
        destruct (drain_owned s t w HN Ho Hw Hne) as (bs&s1&Hs&H1&H2&H4).
        exists s1. split; [eapply solo_ninv; eauto|]. split; [eapply solo_ireach; eauto|].
        rewrite H4. auto.
      - exists s. split; [exact HN|]. split; [apply ireach_refl|]. auto. }
    destruct Hd as (s1&HN1&Hr1&Ho1&Hsp1&Hp1).
    apply (Hfin s1 HN1 Hr1 Ho1).
    assert (Hw : waiting s1 t = false).
    { destruct HN1 as [HI1 _]. assert (Hl := i_loc _ HI1 t). unfold loc_ok in Hl. rewrite Hp1 in Hl.
      destruct (waiting s1 t) eqn:Ew; [|reflexivity]. exfalso.
      destruct Hl as [[Hin _]|[_ Hex]].
      - destruct (i_q _ HI1 t Hin). congruence.
      - destruct (Hex eq_refl) as [u Hu]. destruct (i_spin _ HI1) as (H1&_&_).
        specialize (H1 u). rewrite Hu in H1. specialize (H1 eq_refl). congruence. }
    exists [false; false; false; false]. eexists.
    cbn -[upd]. unfold step_run at 1. rewrite Hp1, Hw.
    unfold step_run at 1, tas; cbn -[upd]. rewrite upd_same, Hsp1.
    unfold step_run at 1, is_owner; cbn -[upd]. rewrite upd_same, Ho1, Nat.eqb_refl.
    unfold step_run; cbn -[upd]. rewrite upd_same. split; [reflexivity|].
    simpl. now rewrite upd_same.
  - destruct Hpc as [E|E].
    + (* woken, about to take the spin lock *)
      assert (Hd : exists s1, NInv s1 /\ ireach s s1 /\ owner s1 = Some t /\ spin s1 = false /\ pcs s1 t = LkSpin3).
      { destruct (spin s) eqn:Esp.
        - destruct (i_spin _ (proj1 HN)) as (_&_&H3). destruct (H3 Esp) as [w Hw].
          assert (Hne : w <> t) by (intros ->; rewrite E in Hw; discriminate).
          destruct (drain_owned s t w HN Ho Hw Hne) as (bs&s1&Hs&H1&H2&H4).
          exists s1. split; [eapply solo_ninv; eauto|]. split; [eapply solo_ireach; eauto|].
          rewrite H4. auto.
        - exists s. split; [exact HN|]. split; [apply ireach_refl|]. auto. }
      destruct Hd as (s1&HN1&Hr1&Ho1&Hsp1&Hp1).
      apply (Hfin s1 HN1 Hr1 Ho1). exists [false; false; false]. eexists.
      cbn -[upd]. unfold step_run at 1, tas. rewrite Hp1, Hsp1.
      unfold step_run at 1, is_owner; cbn -[upd]. rewrite upd_same, Ho1, Nat.eqb_refl.
      unfold step_run; cbn -[upd]. rewrite upd_same. split; [reflexivity|].
      simpl. now rewrite upd_same.
    + apply (Hfin s HN (ireach_refl s) Ho). exists [false]. eexists.
      cbn -[upd]. unfold step_run at 1. rewrite E. split; [reflexivity|]. simpl.
      now rewrite upd_same.
Qed.

Lemma throwing_unlock_inert : forall s t late s',
  pcs s t = UnBody -> owner s <> Some t -> step s (Run t late) = Some s' ->
  owner s' = owner s /\ q s' = q s /\ (forall u, waiting s' u = waiting s u) /\
  exists s'', step s' (Run t late) = Some s'' /\ hd_error (hist s'') = Some (ERet t OUnlock RThrow) /\
              owner s'' = owner s /\ q s'' = q s.
Proof.
  intros s t late s' Hp Ho Hs. simpl in Hs. unfold step_run in Hs. rewrite Hp in Hs.
  apply is_owner_false in Ho. rewrite Ho in Hs. injection Hs as <-.
  repeat split. eexists. cbn -[upd]. unfold step_run; cbn -[upd]. rewrite upd_same.
  split; [reflexivity|]. auto.
Qed.
