(** C95: latch, wait group, semaphore and barrier pass on what was done before them; their own data is free of races. *)
From Coq Require Import List Arith Bool ZArith Lia.
From Verif Require Import Base LinSpec HistSpec Monitor MonitorProofs FineModel FineProps RaceSpec OrderSpec OrderRules OrderModel OrderProofs.
From Verif Require LatchSpec LatchModel LatchProofs WgSpec WgModel SemSpec SemModel BarrierSpec BarrierModel BarrierProofs LatchProps.
Import ListNotations.

(** ** The objects themselves *)
(** owner__ and wait_deque__ of the mutex, waiters__ of the condition variables and the data of the object: of any two conflicting
    accesses the earlier one happens before the later one. *)
Theorem object_accesses_ordered : forall (D Op Res Aux Loc : Type) (entry : Op -> Loc)
    (body : tid -> Loc -> bool -> D -> outcome D Res Aux Loc) (d : D) ls s x,
  run (@ostep D Op Res Aux Loc entry body) (oinit Op Res Aux Loc d) ls = Some s -> (forall y, x <> OCl y) ->
  ordered (trc s) x /\ ~ race (trc s) x.
Proof.
  intros D Op Res Aux Loc entry body d ls s x H N. pose proof (oi_order _ _ _ _ _ s x (oi_run _ _ _ _ _ _ _ d ls s H) N) as A. split; auto.
  intros (i&j&a&b&L&Ha&Hb&C&F). apply F. eapply A; eauto.
Qed.
Print Assumptions object_accesses_ordered.

(** A return comes after the effect of the call, so what is passed on to the effect is passed on to the return. *)
Theorem effect_before_return : forall (D Op Res Aux Loc : Type) (entry : Op -> Loc)
    (body : tid -> Loc -> bool -> D -> outcome D Res Aux Loc) (d : D) ls s u o r q older,
  run (@ostep D Op Res Aux Loc entry body) (oinit Op Res Aux Loc d) ls = Some s -> at_ (marks s) (ERet u o r) q older ->
  exists p older', at_ (marks s) (ELin u o r) p older' /\ p <= q /\ forall t i, passes (trc s) t i u p -> passes (trc s) t i u q.
Proof.
  intros D Op Res Aux Loc entry body d ls s u o r q older H A. destruct (oi_return _ _ _ _ _ _ _ _ _ _ _ (oi_run _ _ _ _ _ _ _ d ls s H) A) as (p&o'&B&L&_).
  exists p, o'. repeat split; auto. intros t i P. eapply passes_later; eauto.
Qed.
Print Assumptions effect_before_return.

Lemma at_nth : forall (Op Res Aux : Type) (m : list (LinSpec.ev Op Res Aux * nat)) i e p,
  nth_error m i = Some (e, p) -> at_ m e p (map fst (skipn (S i) m)).
Proof.
  intros Op Res Aux m. induction m as [|x m IH]; intros [|i] e p H; simpl in H; try discriminate.
  - injection H as ->. exists [], m. auto.
  - destruct (IH i e p H) as (n&r&E&F). exists (x :: n), r. rewrite E at 1. split; auto.
Qed.
(** The accesses of the model with the client's accesses in between: what [rounds] schedules, and writes and reads around it. *)
Definition wrap {Op : Type} (ls : list (flbl Op)) : list (olbl Op) := map OF ls.

Section Gen.
  Variables (D Op Res Aux Loc : Type) (entry : Op -> Loc) (body : tid -> Loc -> bool -> D -> outcome D Res Aux Loc).
  Lemma before_effect : forall d ls s e1 p1 o1 e2 p2 o2,
    run (@ostep D Op Res Aux Loc entry body) (oinit Op Res Aux Loc d) ls = Some s ->
    at_ (marks s) e1 p1 o1 -> at_ (marks s) e2 p2 o2 ->
    match e1 with ELin _ _ _ | EAux _ _ => True | _ => False end -> match e2 with ELin _ _ _ | EAux _ _ => True | _ => False end ->
    (e1 = e2 -> o1 = o2 -> False) -> (forall b, o1 = b ++ e2 :: o2 -> False) ->
    passes (trc s) (actor e1) p1 (actor e2) p2.
  Proof.
    intros d ls s e1 p1 o1 e2 p2 o2 H A1 A2 S1 S2 N1 N2. pose proof (oi_run _ _ _ _ _ _ _ d ls s H) as V.
    destruct (at_cmp _ _ _ _ _ _ _ _ _ _ A1 A2) as [L|[(E&_&F)|(b&E)]]; [|exfalso; eauto|exfalso; eauto].
    pose proof (oi_passes _ _ _ _ _ _ _ _ _ _ _ _ V A1 A2 L) as P. destruct e1, e2; try contradiction; apply P; exact I.
  Qed.
  Lemma at_older : forall d ls s e p o, run (@ostep D Op Res Aux Loc entry body) (oinit Op Res Aux Loc d) ls = Some s -> at_ (marks s) e p o ->
    exists newer, fhist (fo s) = newer ++ e :: o.
  Proof. intros d ls s e p o H A. eapply at_hist; [exact (oi_run _ _ _ _ _ _ _ d ls s H)|exact A]. Qed.
  Lemma ord_hist : forall d ls s, run (@ostep D Op Res Aux Loc entry body) (oinit Op Res Aux Loc d) ls = Some s ->
    map fst (marks s) = fhist (fo s).
  Proof. intros d ls s H. apply (o_hist _ _ _ _ _ _ (oi_run _ _ _ _ _ _ _ d ls s H)). Qed.
End Gen.

(** ** Latch *)
Definition latch_ord := @ostep _ _ _ LatchSpec.laux _ LatchModel.latch_entry LatchModel.latch_body.
Definition latch_ord_init (init : Z) := oinit LatchSpec.lop LatchSpec.lres LatchSpec.laux LatchModel.lloc init.
(** Everything done before a count_down (or the counting down of arrive_and_wait) happens before everything that comes after a
    successful wait, try_wait or arrive_and_wait. *)
Theorem latch_passes_on : forall init ls s e p o1 u op r q o2, (0 <= init)%Z ->
  run latch_ord (latch_ord_init init) ls = Some s -> LatchSpec.amounts_ok (map fst (marks s)) ->
  at_ (marks s) e p o1 -> counts e -> at_ (marks s) (ELin u op r) q o2 -> open_op op r ->
  passes (trc s) (actor e) p u q.
Proof.
  intros init ls s e p o1 u op r q o2 Hi H Am A1 C A2 Op. unfold latch_ord, latch_ord_init in H.
  change u with (actor (@ELin LatchSpec.lop LatchSpec.lres LatchSpec.laux u op r)).
  destruct (ostep_run _ _ _ _ _ _ _ _ _ _ H) as (ls'&R). rewrite (ord_hist _ _ _ _ _ _ _ _ _ _ H) in Am.
  destruct (fine_refines_monitor _ _ _ _ _ _ _ _ _ _ R) as (lm&a&M&Eh&_&_).
  assert (V := LatchProofs.linv_run init Hi lm a M). rewrite Eh in V. specialize (V Am).
  pose proof (LatchProofs.l_nn _ _ V) as Nn. destruct (fine_latch init ls' (fo s) Hi R Am) as (Ok&_&_). rewrite Eh in Nn.
  destruct (at_older _ _ _ _ _ _ _ _ _ _ _ _ _ H A1) as (n1&E1). destruct (at_older _ _ _ _ _ _ _ _ _ _ _ _ _ H A2) as (n2&E2).
  pose proof (Ok _ _ _ E1) as K1. pose proof (Ok _ _ _ E2) as K2.
  assert (O2 : LatchSpec.downs o2 = init).
  { destruct op, r; simpl in Op, K2; try contradiction; try tauto.
    - destruct (Z.eqb_spec (LatchSpec.downs o2) init); congruence.
    - destruct K2 as [(_&K&_)|(K&_)]; [exact K|discriminate]. }
  eapply before_effect; [exact H|exact A1|exact A2| | | |].
  - destruct e; simpl in C; try contradiction; exact I.
  - exact I.
  - intros -> _. destruct op, r; simpl in C, Op; contradiction.
  - intros b ->. assert (B : (0 <= total LatchSpec.down b)%Z).
    { apply (LatchProofs.total_nonneg b). intros n' e' o' ->. apply (Nn (n1 ++ e :: n') e' (o' ++ ELin u op r :: o2)).
      rewrite E1. repeat (rewrite <- app_assoc; simpl). reflexivity. }
    assert (D2 : LatchSpec.down (ELin u op r) = 0%Z) by (destruct op, r; simpl in Op |- *; contradiction || reflexivity).
    assert (T : LatchSpec.downs (b ++ ELin u op r :: o2) = (total LatchSpec.down b + init)%Z).
    { unfold LatchSpec.downs. rewrite total_app. cbn [total]. rewrite D2. unfold LatchSpec.downs in O2. lia. }
    destruct e as [t o|t o r'|t o r'|t [n]]; simpl in C; try contradiction.
    + destruct o, r'; try contradiction. simpl in K1. rewrite T in K1. destruct K1 as [(_&K)|(K&_)]; [lia|discriminate].
    + simpl in K1. rewrite T in K1. lia.
Qed.
Print Assumptions latch_passes_on.
(** Latch of 3: 2 writes x0 and arrives with 2, 3 writes x1 and counts down 1; 1 waits, then reads both. *)
Definition latch_ord_run : list (olbl LatchSpec.lop) :=
  [OUse 2 0 true; OUse 3 1 true] ++ wrap latch_fine_run ++ [OUse 1 0 false; OUse 1 1 false].
Example latch_passes_on_case : exists s o1 o1' o2, run latch_ord (latch_ord_init 3) latch_ord_run = Some s /\
  LatchSpec.amounts_ok (map fst (marks s)) /\
  at_ (marks s) (EAux 2 (LatchSpec.ADown 2)) 28 o1 /\ at_ (marks s) (ELin 3 (LatchSpec.OCount 1) LatchSpec.ROk) 88 o1' /\
  at_ (marks s) (ELin 1 LatchSpec.OWaitL LatchSpec.ROk) 123 o2 /\
  nth_error (trc s) 0 = Some (mkEv 2 (KWr (OCl 0))) /\ nth_error (trc s) 1 = Some (mkEv 3 (KWr (OCl 1))) /\
  nth_error (trc s) 160 = Some (mkEv 1 (KRd (OCl 0))) /\ nth_error (trc s) 161 = Some (mkEv 1 (KRd (OCl 1))).
Proof.
  eexists. eexists. eexists. eexists. split; [vm_compute; reflexivity|]. split.
  { intros t o H. simpl in H. repeat (destruct H as [H|H]; [inversion H; subst; try exact I; discriminate|]). destruct H. }
  split; [apply at_nth with (i := 13); reflexivity|]. split; [apply at_nth with (i := 7); reflexivity|].
  split; [apply at_nth with (i := 5); reflexivity|]. repeat split; reflexivity.
Qed.

(** ** Wait group *)
Definition wg_ord (count : Z) := @ostep _ _ _ WgSpec.waux _ WgModel.wg_entry (WgModel.wg_body count).
Definition wg_ord_init := oinit WgSpec.wop WgSpec.wres WgSpec.waux WgModel.wloc 0%Z.
(** Everything done before a done() that counts happens before everything that comes after wait() or the destructor. *)
Theorem wg_passes_on : forall count ls s t p o1 u op r q o2,
  run (wg_ord count) wg_ord_init ls = Some s ->
  at_ (marks s) (ELin t WgSpec.ODone WgSpec.ROk) p o1 -> at_ (marks s) (ELin u op r) q o2 -> awaits op ->
  passes (trc s) t p u q.
Proof.
  intros count ls s t p o1 u op r q o2 H A1 A2 Op. unfold wg_ord, wg_ord_init in H.
  change u with (actor (@ELin WgSpec.wop WgSpec.wres WgSpec.waux u op r)).
  change t with (actor (@ELin WgSpec.wop WgSpec.wres WgSpec.waux t WgSpec.ODone WgSpec.ROk)).
  destruct (ostep_run _ _ _ _ _ _ _ _ _ _ H) as (ls'&R). pose proof (fine_wg count ls' (fo s) R) as Ok.
  destruct (at_older _ _ _ _ _ _ _ _ _ _ _ _ _ H A1) as (n1&E1). destruct (at_older _ _ _ _ _ _ _ _ _ _ _ _ _ H A2) as (n2&E2).
  pose proof (Ok _ _ _ E1) as K1. pose proof (Ok _ _ _ E2) as K2. simpl in K1.
  assert (O2 : (count <= WgSpec.dones o2)%Z) by (destruct Op as [-> | ->]; simpl in K2; tauto).
  destruct (Z.ltb_spec (WgSpec.dones o1) count) as [L|]; [|discriminate].
  eapply before_effect; [exact H|exact A1|exact A2|exact I|exact I| |].
  - destruct Op as [-> | ->]; discriminate.
  - intros b ->. assert (B : forall h, (0 <= WgSpec.dones h)%Z).
    { induction h as [|e h IH]; unfold WgSpec.dones in *; simpl; [lia|]. destruct e as [| ? [] ?| |]; lia. }
    specialize (B (b ++ [ELin u op r])). unfold WgSpec.dones in *. rewrite total_app in *. cbn [total] in *. lia.
Qed.
Print Assumptions wg_passes_on.
(** Group of 2: 2 and 3 write x0 and x1 and call done(); 1 waits, then reads both. *)
Definition wg_ord_run : list (olbl WgSpec.wop) :=
  [OUse 2 0 true; OUse 3 1 true] ++ wrap (rounds WgModel.wg_entry (WgModel.wg_body 2) wg_fine_init
    [([(1, WgSpec.OWaitG); (2, WgSpec.ODone)], [1; 2]); ([(3, WgSpec.ODone)], [1; 3])]) ++ [OUse 1 0 false; OUse 1 1 false].
Example wg_passes_on_case : exists s o1 o1' o2, run (wg_ord 2) wg_ord_init wg_ord_run = Some s /\
  at_ (marks s) (ELin 2 WgSpec.ODone WgSpec.ROk) 28 o1 /\ at_ (marks s) (ELin 3 WgSpec.ODone WgSpec.ROk) 39 o1' /\
  at_ (marks s) (ELin 1 WgSpec.OWaitG WgSpec.ROk) 61 o2 /\
  nth_error (trc s) 0 = Some (mkEv 2 (KWr (OCl 0))) /\ nth_error (trc s) 1 = Some (mkEv 3 (KWr (OCl 1))) /\
  nth_error (trc s) 68 = Some (mkEv 1 (KRd (OCl 0))) /\ nth_error (trc s) 69 = Some (mkEv 1 (KRd (OCl 1))).
Proof.
  eexists. eexists. eexists. eexists. split; [vm_compute; reflexivity|].
  split; [apply at_nth with (i := 6); reflexivity|]. split; [apply at_nth with (i := 3); reflexivity|].
  split; [apply at_nth with (i := 1); reflexivity|]. repeat split; reflexivity.
Qed.

(** ** Semaphore *)
Definition sem_ord (max : Z) := @ostep _ _ _ SemSpec.saux _ SemModel.sem_entry (SemModel.sem_body max).
Definition sem_ord_init (init : Z) := oinit SemSpec.sop SemSpec.sres SemSpec.saux SemModel.sloc init.
Lemma permits_count : forall init h, SemSpec.permits init h = (init + units h - gots h)%Z.
Proof.
  intros init h. unfold SemSpec.permits. enough (E : total SemSpec.permit h = (units h - gots h)%Z) by lia.
  induction h as [|e h IH]; [reflexivity|]. unfold units, gots in *. cbn [total]. rewrite IH. clear IH.
  match goal with |- context [(total ?w h - total ?v h)%Z] => generalize (total w h), (total v h) end.
  intros x y. destruct e as [| ? [] []| |? []]; cbn [SemSpec.permit got]; lia.
Qed.
Lemma units_mono : forall a b, (units b <= units (a ++ b))%Z.
Proof. induction a as [|e a IH]; intros b; unfold units in *; [simpl; lia|]. cbn [total app]. specialize (IH b). destruct e as [| | |? []]; lia. Qed.
Lemma gots_mono : forall a b, (gots b <= gots (a ++ b))%Z.
Proof. induction a as [|e a IH]; intros b; unfold gots in *; [simpl; lia|]. cbn [total app]. specialize (IH b). destruct e as [| ? [] []| |]; cbn [got]; lia. Qed.
(** The units released are numbered from 0 in the order in which they are added, and so are the acquisitions.  What was done before
    unit m was released happens before what comes after acquisition k, if k is at least m plus the initial number; with an initial
    number of 0: before what comes after acquisition m. *)
Theorem sem_release_passes_on : forall init max ls s t p o1 u op r q o2, (0 <= init <= max)%Z ->
  run (sem_ord max) (sem_ord_init init) ls = Some s ->
  at_ (marks s) (EAux t SemSpec.AUnit) p o1 -> at_ (marks s) (ELin u op r) q o2 -> got op r = true ->
  (init + units o1 <= gots o2)%Z -> passes (trc s) t p u q.
Proof.
  intros init max ls s t p o1 u op r q o2 Hi H A1 A2 G L. unfold sem_ord, sem_ord_init in H.
  change u with (actor (@ELin SemSpec.sop SemSpec.sres SemSpec.saux u op r)).
  change t with (actor (@EAux SemSpec.sop SemSpec.sres SemSpec.saux t SemSpec.AUnit)).
  destruct (ostep_run _ _ _ _ _ _ _ _ _ _ H) as (ls'&R). destruct (fine_sem init max ls' (fo s) Hi R) as (_&Ok&_).
  destruct (at_older _ _ _ _ _ _ _ _ _ _ _ _ _ H A2) as (n2&E2). pose proof (Ok _ _ _ E2) as K2.
  assert (O2 : (0 < SemSpec.permits init o2)%Z).
  { destruct op, r; simpl in G, K2; try discriminate; try tauto.
    - destruct (Z.ltb_spec 0 (SemSpec.permits init o2)); congruence.
    - destruct K2 as [(_&K)|(K&_)]; [exact K|discriminate]. }
  rewrite permits_count in O2.
  eapply before_effect; [exact H|exact A1|exact A2|exact I|exact I|discriminate|].
  intros b ->. pose proof (units_mono (b ++ [ELin u op r]) o2) as M. rewrite <- app_assoc in M. simpl in M. lia.
Qed.
Print Assumptions sem_release_passes_on.
(** The other way round, for a semaphore with a maximum (a release waits when the maximum is reached): what was done before acquisition
    k happens before what comes after the adding of unit m, if m is at least k plus the difference of the maximum and the initial
    number. *)
Theorem sem_acquire_passes_on : forall init max ls s t op r p o1 u q o2, (0 <= init <= max)%Z ->
  run (sem_ord max) (sem_ord_init init) ls = Some s ->
  at_ (marks s) (ELin t op r) p o1 -> got op r = true -> at_ (marks s) (EAux u SemSpec.AUnit) q o2 ->
  (max - init + gots o1 <= units o2)%Z -> passes (trc s) t p u q.
Proof.
  intros init max ls s t op r p o1 u q o2 Hi H A1 G A2 L. unfold sem_ord, sem_ord_init in H.
  change t with (actor (@ELin SemSpec.sop SemSpec.sres SemSpec.saux t op r)).
  change u with (actor (@EAux SemSpec.sop SemSpec.sres SemSpec.saux u SemSpec.AUnit)).
  destruct (ostep_run _ _ _ _ _ _ _ _ _ _ H) as (ls'&R). destruct (fine_sem init max ls' (fo s) Hi R) as (_&Ok&_).
  destruct (at_older _ _ _ _ _ _ _ _ _ _ _ _ _ H A2) as (n2&E2). pose proof (Ok _ _ _ E2) as K2. simpl in K2.
  rewrite permits_count in K2.
  eapply before_effect; [exact H|exact A1|exact A2|exact I|exact I|discriminate|].
  intros b ->. pose proof (gots_mono (b ++ [EAux u SemSpec.AUnit]) o2) as M. rewrite <- app_assoc in M. simpl in M. lia.
Qed.
Print Assumptions sem_acquire_passes_on.
(** Maximum 1, nothing free: 1 acquires and waits, 3 writes x0 and releases 2 units; the first is passed on to 1, who reads x0.  The
    second has to wait for the acquisition of 1. *)
Definition sem_ord_run : list (olbl SemSpec.sop) :=
  [OUse 3 0 true] ++ wrap (rounds SemModel.sem_entry (SemModel.sem_body 1) (sem_fine_init 0)
    [([(1, SemSpec.OAcquire)], [1]); ([(3, SemSpec.ORelease 2); (4, SemSpec.OTryAcq)], [1; 4; 3])]) ++ [OUse 1 0 false].
Example sem_passes_on_case : exists s o1 o2 o3, run (sem_ord 1) (sem_ord_init 0) sem_ord_run = Some s /\
  at_ (marks s) (EAux 3 SemSpec.AUnit) 35 o1 /\ at_ (marks s) (ELin 1 SemSpec.OAcquire SemSpec.ROk) 56 o2 /\
  at_ (marks s) (EAux 3 SemSpec.AUnit) 75 o3 /\
  (0 + units o1 <= gots o2)%Z /\ (1 - 0 + gots o2 <= units o3)%Z /\
  nth_error (trc s) 0 = Some (mkEv 3 (KWr (OCl 0))) /\ nth_error (trc s) 85 = Some (mkEv 1 (KRd (OCl 0))).
Proof.
  eexists. eexists. eexists. eexists. split; [vm_compute; reflexivity|].
  split; [apply at_nth with (i := 5); reflexivity|]. split; [apply at_nth with (i := 4); reflexivity|].
  split; [apply at_nth with (i := 2); reflexivity|]. repeat split; try reflexivity; vm_compute; discriminate.
Qed.

(** ** Barrier *)
Definition barrier_ord (me : nat) (max : Z) := @ostep _ _ _ BarrierSpec.baux _ BarrierModel.barrier_entry (BarrierModel.barrier_body me max).
Definition barrier_ord_init (max : Z) := oinit BarrierSpec.bop BarrierSpec.bres BarrierSpec.baux BarrierModel.bloc (BarrierModel.mkB max max 0).

(** Accepted waits have a positive weight. *)
Definition use_ok (e : BarrierSpec.bev) (_ : list BarrierSpec.bev) : Prop :=
  match e with EAux _ (BarrierSpec.AUse k) => (1 <= BarrierSpec.tn k)%Z | _ => True end.
Lemma use_pos : forall me max, (0 < max)%Z -> forall ls s,
  run (BarrierModel.barrier_step me max) (BarrierModel.barrier_init max) ls = Some s -> BarrierSpec.usage_ok (mhist s) ->
  always_at use_ok (mhist s).
Proof.
  intros me max Hm ls s Hr U.
  assert (G : BarrierProofs.BInv me max s /\ always_at use_ok (mhist s)).
  { revert U. revert Hr. revert s. revert ls.
    intros ls s Hr. refine (run_rule_inv BarrierProofs.bop_refl BarrierProofs.bres_refl BarrierModel.barrier_entry (BarrierModel.barrier_body me max)
      (fun s => BarrierProofs.BInv me max s /\ always_at use_ok (mhist s)) BarrierSpec.usage_ok _ _ _ _ ls Hr).
    - intros newer older H a e b E. apply (H (newer ++ a) e b). rewrite E. apply app_assoc.
    - apply wf_init.
    - split; [apply BarrierProofs.binv_init; assumption|apply always_at_nil].
    - clear - Hm. intros s l s' (V&A) H U. assert (V' : BarrierProofs.BInv me max s') by (eapply BarrierProofs.binv_step; eauto).
      split; auto. assert (N : forall k h, (0 <= BarrierProofs.occ k h)%Z).
      { intros k h. unfold BarrierProofs.occ. induction h as [|j h IH]; simpl; [lia|]. pose proof (BarrierProofs.one_nn k j). lia. }
      assert (P : forall k u (e : option BarrierSpec.bev), match e with Some (ELin _ _ BarrierSpec.ROk) | None => True | _ => False end ->
                mhist s' = match e with Some e => [e] | None => [] end ++ EAux u (BarrierSpec.AUse k) :: mhist s -> (1 <= BarrierSpec.tn k)%Z).
      { intros k u e He E. pose proof (BarrierProofs.b_occ _ _ _ V k) as O. pose proof (BarrierProofs.b_occ _ _ _ V' k) as O'.
        pose proof (N k (BarrierProofs.outs (mhist s'))) as M. rewrite E in O', M.
        assert (I : In k (BarrierProofs.outs (mhist s))).
        { apply BarrierProofs.occ_in. destruct e as [[| ? o []| |]|]; try contradiction; cbn [app total BarrierProofs.lin BarrierProofs.arrk BarrierProofs.drpk BarrierProofs.use] in *;
            rewrite ?BarrierProofs.one_same in O'; try destruct o; cbn [BarrierProofs.lin] in O'; lia. }
        pose proof (BarrierProofs.b_outs _ _ _ V) as F. rewrite Forall_forall in F. apply F in I. tauto. }
      destruct l as [t o|t b|t].
      + apply call_post in H. destruct H as (_&_&_&_&->&_). apply always_at_cons. split; [exact I|exact A].
      + apply run_post with (1 := BarrierProofs.b_wf _ _ _ V) in H. destruct H as (o&l&_&H).
        destruct l as [n|k|k| |]; cbn [BarrierModel.barrier_body] in H.
        * destruct (BarrierModel.bexp (dat s) - n <? 0)%Z; destruct H as (_&Hh&_); cbn in Hh; rewrite Hh; apply always_at_cons; split; auto; exact I.
        * destruct (negb (BarrierSpec.tgen k =? BarrierModel.bgen (dat s))%Z || negb (Nat.eqb (BarrierSpec.tbar k) me));
            [destruct H as (_&Hh&_); cbn in Hh; rewrite Hh; apply always_at_cons; split; auto; exact I|].
          destruct (BarrierModel.bcnt (dat s) - BarrierSpec.tn k <? 0)%Z;
            [destruct H as (_&Hh&_); cbn in Hh; rewrite Hh; apply always_at_cons; split; auto; exact I|].
          destruct (BarrierModel.bcnt (dat s) - BarrierSpec.tn k =? 0)%Z; destruct H as (_&Hh&_); cbn in Hh.
          -- pose proof (P k t (Some (ELin t o BarrierSpec.ROk)) I Hh) as K. rewrite Hh. apply always_at_cons; split; [exact I|]. apply always_at_cons; split; [exact K|exact A].
          -- pose proof (P k t None I Hh) as K. rewrite Hh. apply always_at_cons; split; [exact K|exact A].
        * destruct H as (_&Hh&_); cbn in Hh; rewrite Hh; apply always_at_cons; split; auto; exact I.
        * destruct (BarrierModel.bexp (dat s) - 1 <? 0)%Z; destruct H as (_&Hh&_); cbn in Hh; rewrite Hh; apply always_at_cons; split; auto; exact I.
        * destruct (BarrierModel.bexp (dat s) - 1 <? 0)%Z; destruct H as (_&Hh&_); cbn in Hh; rewrite Hh;
            repeat (apply always_at_cons; split; [exact I|]); exact A.
      + apply leave_post in H. destruct H as (o&r&_&_&_&_&->&_). apply always_at_cons. split; [exact I|exact A]. }
  apply G.
Qed.
Lemma waited_mono : forall a b, always_at use_ok (a ++ b) -> (BarrierSpec.waited b <= BarrierSpec.waited (a ++ b))%Z.
Proof.
  induction a as [|e a IH]; intros b U; [simpl; lia|]. simpl in U. apply always_at_cons in U as [K U]. specialize (IH b U).
  unfold BarrierSpec.waited in *. cbn [app total]. destruct e as [| | |? [k|k|k]]; cbn [use_ok] in K; lia.
Qed.

(** Everything done before an arrival (arrive, arrive_and_wait, arrive_and_drop) of a phase happens before everything that comes after
    a successful wait (wait, arrive_and_wait) for this phase or a later one. *)
Theorem barrier_passes_on : forall me max ls s e1 k1 p o1 e2 k2 q o2, (0 < max)%Z ->
  run (barrier_ord me max) (barrier_ord_init max) ls = Some s -> BarrierSpec.usage_ok (map fst (marks s)) ->
  at_ (marks s) e1 p o1 -> arrival e1 = Some k1 -> at_ (marks s) e2 q o2 -> waited_for e2 o2 = Some k2 ->
  (BarrierSpec.tgen k1 <= BarrierSpec.tgen k2)%Z -> passes (trc s) (actor e1) p (actor e2) q.
Proof.
  intros me max ls s e1 k1 p o1 e2 k2 q o2 Hm H U A1 F1 A2 F2 L. unfold barrier_ord, barrier_ord_init in H.
  destruct (ostep_run _ _ _ _ _ _ _ _ _ _ H) as (ls'&R). rewrite (ord_hist _ _ _ _ _ _ _ _ _ _ H) in U.
  destruct (fine_refines_monitor _ _ _ _ _ _ _ _ _ _ R) as (lm&a&M&Eh&_&_).
  assert (P := use_pos me max Hm lm a M). rewrite Eh in P. specialize (P U).
  destruct (fine_barrier me max ls' (fo s) Hm R U) as (Ok&_).
  destruct (at_older _ _ _ _ _ _ _ _ _ _ _ _ _ H A1) as (n1&E1). destruct (at_older _ _ _ _ _ _ _ _ _ _ _ _ _ H A2) as (n2&E2).
  pose proof (Ok _ _ _ E1) as K1. pose proof (Ok _ _ _ E2) as K2.
  assert (T1 : BarrierSpec.tgen k1 = BarrierSpec.completed max o1).
  { destruct e1 as [|t [] []| |t []]; simpl in F1; try discriminate; injection F1 as ->; simpl in K1.
    - destruct K1 as [(K&_)|(K&_)]; [injection K as ->; reflexivity|discriminate].
    - destruct K1 as (-> & _). reflexivity.
    - destruct K1 as (-> & _). reflexivity. }
  assert (T2 : ((BarrierSpec.tgen k2 + 1) * max <= BarrierSpec.waited o2)%Z).
  { destruct e2 as [|t [] []| |]; simpl in F2; try discriminate; simpl in K2.
    - injection F2 as ->. tauto.
    - destruct K2 as [(_&k&K&W&_)|(K&_)]; [|discriminate]. rewrite F2 in K. injection K as ->. exact W. }
  eapply before_effect; [exact H|exact A1|exact A2| | | |].
  - destruct e1 as [|t [] []| |t []]; simpl in F1; try discriminate; exact I.
  - destruct e2 as [|t [] []| |t []]; simpl in F2; try discriminate; exact I.
  - intros -> _. destruct e2 as [|t [] []| |t []]; simpl in F1, F2; discriminate.
  - intros b ->. rewrite E1 in P.
    assert (W : (BarrierSpec.waited o2 <= BarrierSpec.waited (b ++ e2 :: o2))%Z).
    { change (b ++ e2 :: o2) with (b ++ [e2] ++ o2). rewrite app_assoc. apply waited_mono. rewrite <- app_assoc.
      intros n e o E. apply (P (n1 ++ e1 :: n) e o). simpl. rewrite <- app_assoc. simpl. f_equal. f_equal. exact E. }
    unfold BarrierSpec.completed in T1.
    assert (BarrierSpec.tgen k2 + 1 <= BarrierSpec.waited (b ++ e2 :: o2) / max)%Z; [|lia].
    apply Z.div_le_lower_bound; lia.
Qed.
Print Assumptions barrier_passes_on.
(** Barrier of 2: 1 and 2 write x0 and x1, arrive and wait, and read what the other one has written. *)
Definition barrier_ord_run : list (olbl BarrierSpec.bop) :=
  [OUse 1 0 true; OUse 2 1 true] ++ wrap (rounds BarrierModel.barrier_entry (BarrierModel.barrier_body 7 2) (barrier_fine_init 2)
    [([(1, BarrierSpec.OArriveWait); (2, BarrierSpec.OArriveWait)], [1; 2])]) ++ [OUse 1 1 false; OUse 2 0 false].
Example barrier_passes_on_case : exists s o1 o1' o2 o2', run (barrier_ord 7 2) (barrier_ord_init 2) barrier_ord_run = Some s /\
  BarrierSpec.usage_ok (map fst (marks s)) /\
  at_ (marks s) (EAux 1 (BarrierSpec.AArr (BarrierSpec.mkTok 0 7 1))) 7 o1 /\
  at_ (marks s) (EAux 2 (BarrierSpec.AArr (BarrierSpec.mkTok 0 7 1))) 21 o1' /\
  at_ (marks s) (ELin 1 BarrierSpec.OArriveWait BarrierSpec.ROk) 78 o2 /\
  waited_for (ELin 1 BarrierSpec.OArriveWait BarrierSpec.ROk) o2 = Some (BarrierSpec.mkTok 0 7 1) /\
  at_ (marks s) (ELin 2 BarrierSpec.OArriveWait BarrierSpec.ROk) 56 o2' /\
  waited_for (ELin 2 BarrierSpec.OArriveWait BarrierSpec.ROk) o2' = Some (BarrierSpec.mkTok 0 7 1) /\
  nth_error (trc s) 0 = Some (mkEv 1 (KWr (OCl 0))) /\ nth_error (trc s) 1 = Some (mkEv 2 (KWr (OCl 1))) /\
  nth_error (trc s) 85 = Some (mkEv 1 (KRd (OCl 1))) /\ nth_error (trc s) 86 = Some (mkEv 2 (KRd (OCl 0))).
Proof.
  eexists. eexists. eexists. eexists. eexists. split; [vm_compute; reflexivity|]. split; [simpl; usage|].
  split; [apply at_nth with (i := 7); reflexivity|]. split; [apply at_nth with (i := 6); reflexivity|].
  split; [apply at_nth with (i := 1); reflexivity|]. split; [reflexivity|]. split; [apply at_nth with (i := 3); reflexivity|].
  repeat split; reflexivity.
Qed.
