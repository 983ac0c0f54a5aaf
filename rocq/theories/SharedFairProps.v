(** C113: nobody starves at a co_shared_mutex. *)
From Coq Require Import List Arith Bool Lia.
From Verif Require Import Base LinSpec SharedMutexSpec SpinObj SpinObjProofs SharedMutexModel SharedMutexProofs FairSpec FairCycle SpinFair SharedFair.
Import ListNotations.

Local Notation F := (fst_ sdat sop sres saux sloc).
(** A coroutine in the timed loop of lock() or lock_shared() (co_shared_mutex.cpp 29-54, 114-139) that asks the clock again and again is told at
    some time that its deadline has passed. *)
Definition in_timed_loop (s : F) (t : tid) : Prop := fpcs s t = FIn WLock LW2 \/ fpcs s t = FIn SLock LS2.
Definition sclock_runs (st : nat -> F) (lb : nat -> option (slbl sop)) : Prop :=
  forall t n, exists m, n <= m /\ ((lb m = Some (SRun t true) /\ in_timed_loop (st m) t) \/
                                   forall k, m <= k -> ~ (lb k = Some (SRun t false) /\ in_timed_loop (st k) t)).
(** Whoever holds the mutex in either mode has called the matching unlock at some time. *)
Definition sholders_let_go (st : nat -> F) : Prop :=
  forall u n, hold (fhist (st n)) u <> None -> exists m, n <= m /\ hold (fhist (st m)) u = None.
(** Nobody holds the mutex for reading and no call of lock_shared, try_lock_shared or unlock_shared is in progress. *)
Definition nobody_reads (h : list sev) : Prop :=
  forall u, hold h u <> Some false /\
    forall o, (o = SLock \/ o = STry \/ o = SUnlock) ->
      phase_of sop_eqb sres_eqb h u <> Some (PPending o) /\ forall r, phase_of sop_eqb sres_eqb h u <> Some (PDone o r).
(** The readers pause now and then, all at once. *)
Definition readers_pause (st : nat -> F) : Prop := forall n, exists m, n <= m /\ nobody_reads (fhist (st m)).
(** A call made at moment n returns. *)
Definition scall_returns (st : nat -> F) (t : nat) (o : sop) (n : nat) : Prop :=
  exists m r, n < m /\ fhist (st (S m)) = ERet t o r :: fhist (st m).

Lemma shared_reads : forall a, Inv a -> nobody_reads (ahist a) -> sty (adat a) <> TShared.
Proof.
  intros a I N E. pose proof (i_ty _ I) as Ty. rewrite E in Ty. destruct (sow (adat a)) as [|u ow] eqn:O; [contradiction|].
  assert (Hx : hx (adat a) u = Some false) by (unfold hx; rewrite O, E; simpl; now rewrite Nat.eqb_refl).
  pose proof (i_thr _ I u) as T0. unfold T in T0. destruct (N u) as (Nh&No). rewrite Hx in T0. destruct (athr a u) as [|o l|o l|o r].
  - destruct T0 as (_&H&_). contradiction.
  - destruct T0 as (P&_&_&[(_&_&X)|[(_&_&H&_)|(->&_&_)]]); [discriminate|contradiction|]. destruct (No SUnlock) as (X&_); auto.
  - destruct T0 as (w&->&_&_&[(_&_&X&_)|(_&_&X&P)]); [discriminate|]. injection X as <-. destruct (No SLock) as (_&Y); auto. now apply (Y SOk).
  - destruct T0 as (P&_&_&T0). destruct o.
    + destruct r; try contradiction. destruct T0 as (X&_). discriminate.
    + destruct r; try contradiction; destruct T0 as (X&_); discriminate.
    + destruct T0 as (H&_). contradiction.
    + destruct (No SLock) as (_&Y); auto. now apply (Y r).
    + destruct (No STry) as (_&Y); auto. now apply (Y r).
    + destruct T0 as (H&_). contradiction.
Qed.

(** ** What holds, with a strongly fair scheduler, a clock that advances, holders that let go, and no situation of C06: every
    call other than lock() returns, and if the readers pause now and then, so does lock().
    Missing: a writer is not safe from readers that overlap for ever (below). *)
Theorem shared_no_starvation_partial : forall st lb, execution _ _ sstep sinit st lb ->
  (forall n, no_reacquire (fhist (st n))) -> (forall n, unmixed (fhist (st n))) ->
  strongly_fair _ _ sstep (@fwho sop) st lb -> sclock_runs st lb -> sholders_let_go st ->
  forall t o n, lb n = Some (SCall t o) -> (o = WLock -> readers_pause st) -> scall_returns st t o n.
Proof.
  intros st lb EX NR UM SF CK HU t o n C RP.
  pose (A := at_ sentry sseg sd0 st lb). pose (L := al_ st lb).
  pose proof (at_exec EX : execution _ _ ass asi A L) as EA. pose proof (at_fair EX SF : weakly_fair _ _ ass (@awho sop) A L) as WF.
  pose proof (at_rel EX) as HR. change (forall n, R (st n) (A n)) in HR.
  assert (HH : forall k, fhist (st k) = ahist (A k)) by (intros k; exact (r_hist (HR k))).
  assert (NA : forall k, no_reacquire (ahist (A k))) by (intros k; rewrite <- HH; apply NR).
  assert (UA : forall k, unmixed (ahist (A k))) by (intros k; rewrite <- HH; apply UM).
  pose proof (at_inv A L EA NA UA) as IV.
  assert (PC : forall k u o l, timed l -> (athr (A k) u = AReady o l -> (o = WLock /\ l = LW2) \/ (o = SLock /\ l = LS2)) /\ athr (A k) u <> AParked o l).
  { intros k u o' l Tl. pose proof (i_thr _ (IV k) u) as T1. unfold T in T1. split; intros P; rewrite P in T1.
    - destruct T1 as (_&_&_&[(X&_)|[(_&->&_)|(_&->&_)]]); destruct Tl as [Tl|Tl]; try discriminate; subst l; simpl in X; subst o'; auto.
    - destruct T1 as (w&_&X&_). destruct w, Tl; congruence. }
  assert (CA : forall t n, exists m, n <= m /\ ((L m = Some (ARun t true) /\ exists o l, athr (A m) t = AReady o l /\ timed l) \/
                     forall k, m <= k -> ~ (L k = Some (ARun t false) /\ exists o l, athr (A k) t = AReady o l /\ timed l))).
  { intros u k. destruct (CK u k) as (m&Lm&[(E&P)|H]); exists m; split; auto.
    - left. assert (X : exists o l, fpcs (st m) u = FIn o l /\ timed l) by (destruct P as [P|P]; eexists; eexists; (split; [exact P|]); [now left|now right]).
      destruct X as (o'&l&X&Tl). split; [apply al_run; eauto|]. exists o', l. split; auto.
      pose proof (r_thr (HR m) u) as T0. rewrite X in T0. destruct T0 as [T0|(T0&_)]; auto. exfalso. now apply (PC m u o' l Tl).
    - right. intros j J (E&o'&l&P&Tl). apply (H j J). apply al_run in E as (E&o2&l2&Pf). split; auto. pose proof (r_thr (HR j) u) as T0. rewrite Pf in T0.
      destruct T0 as [T0|(T0&_)]; rewrite T0 in P; [|discriminate]. injection P as -> ->. destruct (proj1 (PC j u o' l Tl) T0) as [(->&->)|(->&->)]; [now left|now right]. }
  assert (HA : forall u n, hold (ahist (A n)) u <> None -> exists m, n <= m /\ hold (ahist (A m)) u = None).
  { intros u k X. rewrite <- HH in X. destruct (HU u k X) as (m&Lm&Z). exists m. split; auto. now rewrite <- HH. }
  assert (P : athr (A (S n)) t = AReady o (sentry o)) by (apply (@call_enters _ _ _ _ _ sentry sseg sd0 A L EA); now apply al_call).
  assert (G : exists m, S n <= m /\ returns A L t m o); [|destruct G as (m&Lm&r&_&_&Er); exists m, r; split; [lia|]; now rewrite !HH].
  destruct (sop_eqb o WLock) eqn:Eo.
  - assert (o = WLock) by (destruct o; try discriminate; auto). subst o.
    apply (writer_returns A L EA WF NA UA CA HA); auto. intros k. destruct (RP eq_refl k) as (m&M&X). exists m. split; auto. apply shared_reads; auto. now rewrite <- HH.
  - apply (others_return A L EA WF NA UA CA HA); auto. intros ->. discriminate.
Qed.
Print Assumptions shared_no_starvation_partial.

(** ** Refuted, for every kind of fairness: writer 0 is parked for ever, while 1 and 2 take turns in reading so that there is always one of them. *)
Definition w_pre : list (slbl sop) := [SCall 1 SLock] ++ repeat (SRun 1 true) 3 ++ [SCall 0 WLock] ++ repeat (SRun 0 true) 4.
Definition w_cyc : list (slbl sop) :=
  [SCall 2 SLock] ++ repeat (SRun 2 true) 3 ++ [SCall 1 SUnlock] ++ repeat (SRun 1 true) 3 ++ [SCall 1 SLock] ++ repeat (SRun 1 true) 3 ++ [SCall 2 SUnlock] ++ repeat (SRun 2 true) 3.
Definition w_form (h : list sev) : F :=
  mkF false (mkSd TShared [1] [(true, 0)]) (fun t => match t with 0 => true | _ => false end) (fun t => match t with 0 => FPark WLock LW3 | _ => FOut end) h.
Definition w_hist (h : list sev) : Prop :=
  hold h 0 = None /\ hold h 1 = Some false /\ hold h 2 = None /\ rw_state h = Some (Readers [1]) /\ no_reacquire h /\ unmixed h.
Definition w_base (s : F) : Prop := exists h, same (w_form h) s /\ w_hist h.
Lemma some_inj : forall A (a b : A), Some a = Some b -> a = b.
Proof. congruence. Qed.
Lemma w_next : forall s, w_base s -> exists s', run sstep s w_cyc = Some s' /\ w_base s'.
Proof.
  intros s (h&E&H0&H1&H2&Hr&Hn&Hu). assert (R : exists a, run sstep (w_form h) w_cyc = Some a /\ exists h', same (w_form h') a /\ w_hist h').
  { eexists. split; [vm_compute; reflexivity|]. eexists. split.
    - split; [split; [reflexivity|split; reflexivity]|]. split; intros [|[|[|t]]]; reflexivity.
    - pose proof Hr as Hr'. unfold w_hist. unfold rw_state in Hr'. simpl. rewrite H0, H1, H2, ?Hr, ?Hr'. simpl. repeat split; auto; try (intros; discriminate). }
  destruct R as (a&R&h'&E'&H'). destruct (same_run sentry sseg w_cyc E R) as (s'&R'&E2). exists s'. split; [exact R'|].
  exists h'. split; auto. eapply same_trans; eauto.
Qed.
Lemma w_start : exists s, run sstep sinit w_pre = Some s /\ w_base s.
Proof.
  eexists. split; [vm_compute; reflexivity|]. eexists. split.
  - split; [split; [reflexivity|split; reflexivity]|]. split; intros [|[|t]]; reflexivity.
  - unfold w_hist. repeat split; simpl; auto; intros; discriminate.
Qed.
Lemma w_ne : w_cyc <> []. Proof. discriminate. Qed.
Definition wst := cst _ _ sstep sinit w_pre w_cyc.
Definition wlb := clb _ w_pre w_cyc.
Lemma w_only : forall n l, wlb n = Some l ->
  In l [SCall 0 WLock; SRun 0 true; SCall 1 SLock; SCall 1 SUnlock; SRun 1 true; SCall 2 SLock; SCall 2 SUnlock; SRun 2 true].
Proof. intros n l E. apply clb_in in E. simpl in *. intuition. Qed.
Lemma hold_ret : forall (h : list sev) t, hold h t <> None -> exists o r, In (ERet t o r) h.
Proof.
  induction h as [|e h IH]; intros t H; [simpl in H; contradiction|].
  assert (K : hold h t <> None -> exists o r, In (ERet t o r) (e :: h)) by (intros X; destruct (IH t X) as (o&r&Y); exists o, r; now right).
  destruct e as [u o|u o r|u o r|u a]; simpl in H; auto.
  - destruct o; auto; (destruct (Nat.eqb_spec u t) as [->|]; auto; apply K; destruct (hold h t) as [[]|]; congruence).
  - destruct o; auto; destruct r; auto; (destruct (Nat.eqb_spec u t) as [->|]; [eexists; eexists; left; reflexivity|auto]).
Qed.
Lemma sstep_hist : forall s l s', sstep s l = Some s' -> exists es, fhist s' = es ++ fhist s.
Proof.
  assert (X : forall u xs (h : list sev), exists es, log_xs u xs h = es ++ h).
  { intros u xs. induction xs as [|x xs IH]; intros h; simpl; [now exists []|]. destruct (IH (EAux u x :: h)) as (es&E). exists (es ++ [EAux u x]). rewrite E, <- app_assoc. reflexivity. }
  assert (Y : forall lin (h : list sev), exists es, log_lin lin h = es ++ h).
  { intros lin. induction lin as [|x lin IH]; intros h; simpl; [now exists []|]. edestruct IH as (es&E). rewrite E. eexists (es ++ [_]). rewrite <- app_assoc. reflexivity. }
  intros s [u o|u b] s' H; unfold sstep in H; simpl in H.
  - destruct (fpcs s u); try discriminate. injection H as <-. now exists [ECall u o].
  - destruct (fpcs s u) as [|o l|o l|o l|o l|o l|o l|o l|o [|g gr] r]; try discriminate;
      try (destruct (fspin s); [discriminate|]); try (destruct (fmark s u); [discriminate|]); try (injection H as <-; simpl; now exists []).
    + destruct (sseg u o l b (fdat s)); injection H as <-; simpl; auto. now exists [].
    + injection H as <-. simpl. now exists [ERet u o r].
Qed.
Lemma sgrows : forall (P : list sev -> Prop), (forall es h, P (es ++ h) -> P h) -> forall st lb, execution _ _ sstep sinit st lb -> forall n m, n <= m -> P (fhist (st m)) -> P (fhist (st n)).
Proof.
  intros P HP st lb EX n m L. induction L as [|m L IH]; auto. intros H. apply IH. pose proof (proj2 EX m) as S. destruct (lb m) as [l|]; [|now rewrite S in H].
  destruct (sstep_hist _ _ _ S) as (es&E). rewrite E in H. eapply HP; eauto.
Qed.
Theorem shared_writer_starvation_refuted : exists st lb, execution _ _ sstep sinit st lb /\
  (forall n, no_reacquire (fhist (st n))) /\ (forall n, unmixed (fhist (st n))) /\
  strongly_fair _ _ sstep (@fwho sop) st lb /\ sclock_runs st lb /\ sholders_let_go st /\
  exists t n, lb n = Some (SCall t WLock) /\ ~ scall_returns st t WLock n.
Proof.
  exists wst, wlb. pose proof (cyc_exec _ _ sstep sinit w_pre w_cyc w_base w_ne w_start w_next) as EX. split; [exact EX|].
  assert (Lb : forall k i, i < 16 -> wlb (9 + 16 * k + i) = nth_error w_cyc i) by (intros k i Li; exact (clb_cyc _ w_pre w_cyc k i Li)).
  assert (Bs : forall n, exists h, same (w_form h) (wst (9 + 16 * n)) /\ w_hist h) by (intros n; exact (cyc_base _ _ sstep sinit w_pre w_cyc w_base w_start w_next n)).
  assert (At : forall n i, i <= 16 -> exists h a, w_hist h /\ run sstep (w_form h) (firstn i w_cyc) = Some a /\ same a (wst (9 + 16 * n + i))).
  { intros n i Li. destruct (Bs n) as (h&E&H). destruct (cyc_seg _ _ sstep sinit w_pre w_cyc w_base w_start w_next n i) as (R&_); [exact Li|]. fold wst in R.
    change (length w_pre + length w_cyc * n) with (9 + 16 * n) in R.
    assert (E' : same (wst (9 + 16 * n)) (w_form h)) by (destruct E as ((A1&A2&A3)&A4&A5); repeat split; auto).
    destruct (same_run sentry sseg _ E' R) as (a&Ra&Ea). exists h, a. split; auto. split; auto. destruct Ea as ((A1&A2&A3)&A4&A5). repeat split; auto. }
  assert (Pk : forall j, 9 <= j -> fpcs (wst j) 0 = FPark WLock LW3 /\ fmark (wst j) 0 = true).
  { intros j Lj. pose proof (Nat.div_mod_eq (j - 9) 16) as Dv. assert (Li : (j - 9) mod 16 < 16) by (apply Nat.mod_upper_bound; lia).
    destruct (At ((j - 9) / 16) ((j - 9) mod 16)) as (h&a&_&R&(_&E4&E5)); [lia|]. replace (9 + 16 * ((j - 9) / 16) + (j - 9) mod 16) with j in * by lia. rewrite <- E4, <- E5.
    clear - R Li. revert R. generalize dependent ((j - 9) mod 16). intros i Li R.
    assert (W : option_map (fun s => (fpcs s 0, fmark s 0)) (run sstep (w_form h) (firstn i w_cyc)) = Some (FPark WLock LW3, true)).
    { do 16 (destruct i as [|i]; [vm_compute; reflexivity|]). lia. }
    rewrite R in W. simpl in W. injection W as -> ->. auto. }
  assert (NoRet : forall j o r, ~ In (ERet 0 o r) (fhist (wst j))).
  { assert (K : forall i o r, ~ In (ERet 0 o r) (fhist (wst (9 + i)))).
    { induction i as [|i IH]; intros o r Y.
      - destruct (cyc_pre _ _ sstep sinit w_pre w_cyc w_base w_start 9 ltac:(simpl; lia)) as (R&_). fold wst in R.
        assert (W : match run sstep sinit (firstn 9 w_pre) with Some s => ~ In (ERet 0 o r) (fhist s) | None => False end) by (simpl; intuition discriminate).
        rewrite R in W. exact (W Y).
      - pose proof (proj2 EX (9 + i)) as Hs. fold wst wlb in Hs. replace (9 + S i) with (S (9 + i)) in Y by lia. destruct (wlb (9 + i)) as [l|] eqn:El; [|rewrite Hs in Y; exact (IH _ _ Y)].
        destruct (@ret_own _ _ _ _ _ sentry sseg _ _ _ _ _ _ Hs Y) as [Y'|W]; [exact (IH _ _ Y')|]. destruct l as [u o'|u b]; [discriminate|]. injection W as ->.
        destruct (Pk (9 + i)) as (P&M); [lia|]. unfold sstep, fstep in Hs. rewrite P, M in Hs. discriminate Hs. }
    intros j o r. apply (sgrows (fun h => ~ In (ERet 0 o r) h)) with (lb := wlb) (m := 9 + j); [|exact EX|lia|apply K].
    intros es h H Y. apply H. apply in_or_app. auto. }
  split; [|split; [|split; [|split; [|split]]]].
  - intros n. apply (sgrows no_reacquire nra_app _ _ EX n (9 + 16 * n)); [lia|]. destruct (Bs n) as (h&((_&_&E)&_)&_&_&_&_&N&_). change (fhist (w_form h)) with h in E. rewrite E in N. exact N.
  - intros n. apply (sgrows unmixed unmixed_app _ _ EX n (9 + 16 * n)); [lia|]. destruct (Bs n) as (h&((_&_&E)&_)&_&_&_&_&_&N). change (fhist (w_form h)) with h in E. rewrite E in N. exact N.
  - intros t n. destruct (Nat.eq_dec t 0) as [->|N0]; [|destruct (Nat.eq_dec t 1) as [->|N1]; [|destruct (Nat.eq_dec t 2) as [->|N2]]].
    + exists (9 + n). split; [lia|]. right. intros k K A. destruct (Pk k) as (P&M); [lia|]. destruct A as ([u o|u b]&s'&W&H); [discriminate|]. injection W as ->.
      unfold sstep in H. simpl in H. rewrite P, M in H. discriminate.
    + exists (9 + 16 * n + 5). split; [lia|]. left. exists (SRun 1 true). split; [|reflexivity]. apply Lb. lia.
    + exists (9 + 16 * n + 1). split; [lia|]. left. exists (SRun 2 true). split; [|reflexivity]. apply Lb. lia.
    + exists n. split; auto. right. intros k _. apply out_unable. apply (never EX). intros j l E. apply w_only in E. simpl in E.
      repeat (destruct E as [<-|E]; [simpl; split; congruence|]). destruct E.
  - intros t n. exists n. split; auto. right. intros k K (E&_). apply w_only in E. simpl in E. repeat (destruct E as [E|E]; [discriminate|]). destruct E.
  - assert (At2 : forall n i, i <= 16 -> forall u, (forall h, w_hist h -> match run sstep (w_form h) (firstn i w_cyc) with Some a => hold (fhist a) u = None | None => False end) -> hold (fhist (wst (9 + 16 * n + i))) u = None).
    { intros n i Li u H. destruct (At n i Li) as (h&a&Hh&R&((_&_&E3)&_)). specialize (H h Hh). rewrite R in H. rewrite <- E3. exact H. }
    intros u n H. destruct (Nat.eq_dec u 1) as [->|N1]; [|destruct (Nat.eq_dec u 2) as [->|N2]].
    + exists (9 + 16 * n + 5). split; [lia|]. apply At2; [lia|]. intros h (_&H1&_). change (match hold h 1 with Some false => None | x => x end = None). now rewrite H1.
    + exists (9 + 16 * n + 0). split; [lia|]. apply At2; [lia|]. intros h (_&_&H2&_). exact H2.
    + exfalso. apply hold_ret in H as (o&r&J). destruct (Nat.eq_dec u 0) as [->|N0]; [exact (NoRet _ _ _ J)|].
      eapply no_ret; [exact EX| |exact J]. intros k (l&E&W). apply w_only in E. simpl in E.
      repeat (destruct E as [<-|E]; [simpl in W; congruence|]). destruct E.
  - exists 0, 4. split; [reflexivity|]. intros (m&r&L&E). apply (NoRet (S m) WLock r). rewrite E. now left.
Qed.
Print Assumptions shared_writer_starvation_refuted.

(** ** An execution that meets the hypotheses of the first theorem, again and again: 0 reads; writer 1 looks once in vain, is told that its time is up and
    parks; 0 lets go, so 1 gets the mutex; reader 2 parks meanwhile and gets the mutex from 1; then everybody pauses. *)
Definition v_cyc : list (slbl sop) :=
  [SCall 0 SLock] ++ repeat (SRun 0 false) 3 ++ [SCall 1 WLock] ++ repeat (SRun 1 false) 5 ++ repeat (SRun 1 true) 3 ++ [SCall 0 SUnlock] ++ repeat (SRun 0 false) 4 ++
  repeat (SRun 1 false) 4 ++ [SCall 2 SLock] ++ repeat (SRun 2 false) 5 ++ repeat (SRun 2 true) 3 ++ [SCall 1 WUnlock] ++ repeat (SRun 1 false) 4 ++ repeat (SRun 2 false) 4 ++
  [SCall 2 SUnlock] ++ repeat (SRun 2 false) 3.
Definition v_form (h : list sev) : F := mkF false sd0 (fun _ => false) (fun _ => FOut) h.
Definition v_hist (h : list sev) : Prop :=
  (forall u, hold h u = None) /\ (forall u, phase_of sop_eqb sres_eqb h u = Some (@PIdle sop sres)) /\ rw_state h = Some Free /\ sline h = Some [] /\ no_reacquire h /\ unmixed h.
Definition v_base (s : F) : Prop := exists h, same (v_form h) s /\ v_hist h.
Lemma v_next : forall s, v_base s -> exists s', run sstep s v_cyc = Some s' /\ v_base s'.
Proof.
  intros s (h&E&H&Ph&Hr&Hl&Hn&Hu). assert (R : exists a, run sstep (v_form h) v_cyc = Some a /\ exists h', same (v_form h') a /\ v_hist h').
  { eexists. split; [vm_compute; reflexivity|]. eexists. split.
    - split; [split; [reflexivity|split; reflexivity]|]. split; intros [|[|[|t]]]; reflexivity.
    - pose proof Hr as Hr'. unfold rw_state in Hr'. split; [|split; [|split; [|split; [|split]]]].
      + intros [|[|[|t]]]; simpl; now rewrite ?H.
      + intros [|[|[|t]]]; simpl; now rewrite ?Ph.
      + unfold rw_state. simpl. now rewrite Hr'.
      + simpl. now rewrite Hl.
      + simpl. rewrite !H. auto.
      + simpl. rewrite !Hr, !Hl. simpl. repeat split; auto; try (intros; discriminate); intros _ _ q Q; injection Q as <-; simpl; auto.
        intros x [<-|[]]. reflexivity. }
  destruct R as (a&R&h'&E'&H'). destruct (same_run sentry sseg v_cyc E R) as (s'&R'&E2). exists s'. split; [exact R'|].
  exists h'. split; auto. eapply same_trans; eauto.
Qed.
Lemma v_start : exists s, run sstep sinit [] = Some s /\ v_base s.
Proof. exists sinit. split; [reflexivity|]. exists []. repeat split. Qed.
Lemma v_ne : v_cyc <> []. Proof. discriminate. Qed.
Definition vst := cst _ _ sstep sinit [] v_cyc.
Definition vlb := clb _ [] v_cyc.
Lemma v_only : forall n l, vlb n = Some l ->
  In l [SCall 0 SLock; SRun 0 false; SCall 1 WLock; SRun 1 false; SRun 1 true; SCall 0 SUnlock; SCall 2 SLock; SRun 2 false; SRun 2 true; SCall 1 WUnlock; SCall 2 SUnlock].
Proof. intros n l E. apply clb_in in E. simpl in *. intuition. Qed.
Example shared_fair_example : execution _ _ sstep sinit vst vlb /\
  (forall n, no_reacquire (fhist (vst n))) /\ (forall n, unmixed (fhist (vst n))) /\
  strongly_fair _ _ sstep (@fwho sop) vst vlb /\ sclock_runs vst vlb /\ sholders_let_go vst /\ readers_pause vst /\
  (forall n, exists m, n <= m /\ firstn 1 (fhist (vst m)) = [EAux 1 (SParks true)] /\ hold (fhist (vst m)) 0 = Some false) /\
  (forall n, exists m, n <= m /\ firstn 1 (fhist (vst m)) = [EAux 2 (SParks false)] /\ hold (fhist (vst m)) 1 = Some true).
Proof.
  pose proof (cyc_exec _ _ sstep sinit [] v_cyc v_base v_ne v_start v_next) as EX. split; [exact EX|].
  assert (Ln : length v_cyc = 44) by reflexivity.
  assert (Lb : forall k i, i < 44 -> vlb (44 * k + i) = nth_error v_cyc i) by (intros k i Li; exact (clb_cyc _ [] v_cyc k i Li)).
  assert (Bs : forall n, exists h, same (v_form h) (vst (44 * n)) /\ v_hist h) by (intros n; exact (cyc_base _ _ sstep sinit [] v_cyc v_base v_start v_next n)).
  assert (Bh : forall n, v_hist (fhist (vst (44 * n)))).
  { intros n. destruct (Bs n) as (h&((_&_&E)&_)&H). change (fhist (v_form h)) with h in E. rewrite E in H. exact H. }
  assert (At : forall n i, i <= 44 -> exists h a, v_hist h /\ run sstep (v_form h) (firstn i v_cyc) = Some a /\ same a (vst (44 * n + i))).
  { intros n i Li. destruct (Bs n) as (h&E&H). destruct (cyc_seg _ _ sstep sinit [] v_cyc v_base v_start v_next n i) as (R&_); [now rewrite Ln|]. fold vst in R.
    change (length (@nil (slbl sop)) + length v_cyc * n) with (44 * n) in R.
    assert (E' : same (vst (44 * n)) (v_form h)) by (destruct E as ((A1&A2&A3)&A4&A5); repeat split; auto).
    destruct (same_run sentry sseg _ E' R) as (a&Ra&Ea). exists h, a. split; auto. split; auto. destruct Ea as ((A1&A2&A3)&A4&A5). repeat split; auto. }
  assert (Pc : forall n i t x, i <= 44 -> (forall h, option_map (fun s => fpcs s t) (run sstep (v_form h) (firstn i v_cyc)) = Some x) -> fpcs (vst (44 * n + i)) t = x).
  { intros n i t x Li G. destruct (At n i Li) as (h&a&_&R&(_&E4&_)). specialize (G h). rewrite R in G. simpl in G. injection G as <-. now rewrite E4. }
  assert (Hi : forall n i (P : list sev -> Prop), i <= 44 -> (forall h, v_hist h -> match run sstep (v_form h) (firstn i v_cyc) with Some a => P (fhist a) | None => False end) -> P (fhist (vst (44 * n + i)))).
  { intros n i P Li G. destruct (At n i Li) as (h&a&H&R&((_&_&E3)&_)). specialize (G h H). rewrite R in G. now rewrite <- E3. }
  split; [|split; [|split; [|split; [|split; [|split; [|split]]]]]].
  - intros n. apply (sgrows no_reacquire nra_app _ _ EX n (44 * n)); [lia|]. apply (Bh n).
  - intros n. apply (sgrows unmixed unmixed_app _ _ EX n (44 * n)); [lia|]. apply (Bh n).
  - intros t n. destruct (Nat.eq_dec t 0) as [->|N0]; [|destruct (Nat.eq_dec t 1) as [->|N1]; [|destruct (Nat.eq_dec t 2) as [->|N2]]].
    + exists (44 * n + 1). split; [lia|]. left. exists (SRun 0 false). split; [|reflexivity]. apply Lb. lia.
    + exists (44 * n + 5). split; [lia|]. left. exists (SRun 1 false). split; [|reflexivity]. apply Lb. lia.
    + exists (44 * n + 23). split; [lia|]. left. exists (SRun 2 false). split; [|reflexivity]. apply Lb. lia.
    + exists n. split; auto. right. intros k _. apply out_unable. apply (never EX). intros j l E. apply v_only in E. simpl in E.
      repeat (destruct E as [<-|E]; [simpl; split; congruence|]). destruct E.
  - intros t n. destruct (Nat.eq_dec t 1) as [->|N1]; [|destruct (Nat.eq_dec t 2) as [->|N2]].
    + exists (44 * n + 10). split; [lia|]. left. split; [apply Lb; lia|]. left. apply Pc; [lia|]. intros h. vm_compute. reflexivity.
    + exists (44 * n + 28). split; [lia|]. left. split; [apply Lb; lia|]. right. apply Pc; [lia|]. intros h. vm_compute. reflexivity.
    + exists n. split; auto. right. intros k K (E&P). destruct (Nat.eq_dec t 0) as [->|N0].
      * assert (G : forall j, ~ in_timed_loop (vst j) 0).
        { intros j. pose proof (Nat.div_mod_eq j 44) as Dv. assert (Li : j mod 44 < 44) by (apply Nat.mod_upper_bound; lia). destruct (At (j / 44) (j mod 44)) as (h&a&_&R&(_&E4&_)); [lia|].
          unfold in_timed_loop. rewrite Dv, <- E4. clear - R Li. revert R. generalize dependent (j mod 44). intros i Li R.
          assert (W : match option_map (fun s => fpcs s 0) (run sstep (v_form h) (firstn i v_cyc)) with Some (FIn _ LW2) | Some (FIn _ LS2) | None => False | _ => True end).
          { do 44 (destruct i as [|i]; [vm_compute; exact Logic.I|]). lia. }
          rewrite R in W. simpl in W. intros [X|X]; rewrite X in W; exact W. }
        exact (G k P).
      * apply v_only in E. simpl in E. repeat (destruct E as [E|E]; [congruence|]). destruct E.
  - intros u n _. exists (44 * n). split; [lia|]. apply (Bh n).
  - intros n. exists (44 * n). split; [lia|]. destruct (Bh n) as (H&P&_). intros u. split; [rewrite H; discriminate|]. intros o _. rewrite P. split; [discriminate|intros r; discriminate].
  - intros n. exists (44 * n + 11). split; [lia|]. apply (Hi n 11 (fun h => firstn 1 h = [EAux 1 (SParks true)] /\ hold h 0 = Some false)); [lia|]. intros h _. vm_compute. auto.
  - intros n. exists (44 * n + 29). split; [lia|]. apply (Hi n 29 (fun h => firstn 1 h = [EAux 2 (SParks false)] /\ hold h 1 = Some true)); [lia|]. intros h _. vm_compute. auto.
Qed.
