(** C112: nobody starves at a co_recursive_mutex. *)
From Coq Require Import List Arith Bool NArith Lia.
From Verif Require Import Base LinSpec MutexSpec RecMutexSpec SpinObj SpinObjProofs RecMutexModel RecMutexProofs FairSpec FairCycle SpinFair RecFair.
Import ListNotations.

Local Notation F := (fst_ rdat mop mres maux rloc).
(** A coroutine that asks the clock again and again (co_utils.cpp 10) is told at some time that its deadline has passed. *)
Definition clock_runs (st : nat -> F) (lb : nat -> option (slbl mop)) : Prop :=
  forall t n, exists m, n <= m /\ ((lb m = Some (SRun t true) /\ fpcs (st m) t = FIn OLock RTry) \/
                                   forall k, m <= k -> ~ (lb k = Some (SRun t false) /\ fpcs (st k) t = FIn OLock RTry)).
(** Whoever holds the mutex, however often, has called unlock() as often at some time. *)
Definition holders_let_go (st : nat -> F) : Prop :=
  forall u n, (0 < depth (fhist (st n)) u)%N -> exists m, n <= m /\ depth (fhist (st m)) u = 0%N.
(** A call made at moment n returns. *)
Definition call_returns (st : nat -> F) (t : nat) (o : mop) (n : nat) : Prop :=
  exists m r, n < m /\ fhist (st (S m)) = ERet t o r :: fhist (st m).

(** ** What holds: with a strongly fair scheduler, a clock that advances and holders that let go, every call returns, as
    long as the nesting stays below 2^64.  Missing: co_spinlock is a test-and-set lock, for which weak fairness is not enough. *)
Theorem rec_no_starvation_partial : forall st lb, execution _ _ rstep rinit st lb -> (forall n, shallow (fhist (st n))) ->
  strongly_fair _ _ rstep (@fwho mop) st lb -> clock_runs st lb -> holders_let_go st ->
  forall t o n, lb n = Some (SCall t o) -> call_returns st t o n.
Proof.
  intros st lb EX SH SF CK HU t o n C.
  pose (A := at_ rentry rseg rd0 st lb). pose (L := al_ st lb).
  pose proof (at_exec EX : execution _ _ ars ari A L) as EA. pose proof (at_fair EX SF : weakly_fair _ _ ars (@awho mop) A L) as WF.
  pose proof (at_rel EX) as HR. change (forall n, R (st n) (A n)) in HR.
  assert (HH : forall k, fhist (st k) = ahist (A k)) by (intros k; exact (r_hist (HR k))).
  assert (SA : forall k, shallow (ahist (A k))) by (intros k; rewrite <- HH; apply SH).
  pose proof (at_inv A L EA SA) as IV.
  assert (CA : forall t n, exists m, n <= m /\ ((L m = Some (ARun t true) /\ athr (A m) t = AReady OLock RTry) \/
                     forall k, m <= k -> ~ (L k = Some (ARun t false) /\ athr (A k) t = AReady OLock RTry))).
  { intros u k. destruct (CK u k) as (m&Lm&[(E&P)|H]); exists m; split; auto.
    - left. split; [apply al_run; eauto|]. pose proof (r_thr (HR m) u) as T0. rewrite P in T0. destruct T0 as [T0|(T0&_)]; auto.
      pose proof (i_thr _ (IV m) u) as T1. unfold T in T1. rewrite T0 in T1. destruct T1 as (_&X&_). discriminate.
    - right. intros j J (E&P). apply (H j J). apply al_run in E as (E&o'&l'&Pf). split; auto. pose proof (r_thr (HR j) u) as T0. rewrite Pf in T0.
      destruct T0 as [T0|(T0&_)]; rewrite T0 in P; [|discriminate]. injection P as -> ->. exact Pf. }
  assert (HA : forall u n, (0 < depth (ahist (A n)) u)%N -> exists m, n <= m /\ depth (ahist (A m)) u = 0%N).
  { intros u k X. rewrite <- HH in X. destruct (HU u k X) as (m&Lm&Z). exists m. split; auto. now rewrite <- HH. }
  destruct (call_returns_at A L EA WF SA CA HA t n o) as (m&Lm&r&_&Er); [now apply al_call|]. exists m, r. split; auto. now rewrite !HH.
Qed.
Print Assumptions rec_no_starvation_partial.

(** ** Refuted: coroutine 0 finds the spin lock taken each time it looks, because coroutine 1 locks twice and unlocks twice all the time. *)
Definition s_pre : list (slbl mop) := [SCall 0 OLock].
Definition s_cyc : list (slbl mop) :=
  [SCall 1 OLock] ++ repeat (SRun 1 true) 3 ++ [SCall 1 OLock] ++ repeat (SRun 1 true) 3 ++ [SCall 1 OUnlock] ++ repeat (SRun 1 true) 3 ++ [SCall 1 OUnlock] ++ repeat (SRun 1 true) 3.
Definition s_form (h : list mev) : F := mkF false rd0 (fun _ => false) (fun t => match t with 0 => FWant OLock RFirst | _ => FOut end) h.
Definition s_base (s : F) : Prop := exists h, same (s_form h) s /\ depth h 1 = 0%N /\ shallow h.
Lemma s_step : forall s, s_base s -> exists s', run rstep s s_cyc = Some s' /\ s_base s' /\
  exists s1, run rstep s (firstn 2 s_cyc) = Some s1 /\ fspin s1 = true /\ fpcs s1 0 = FWant OLock RFirst.
Proof.
  intros s (h&E&H&N). assert (R : exists a, run rstep (s_form h) s_cyc = Some a /\ exists h', same (s_form h') a /\ depth h' 1 = 0%N /\ shallow h').
  { eexists. split; [vm_compute; reflexivity|]. eexists. split; [|split].
    - split; [split; [reflexivity|split; reflexivity]|]. split; intros [|[|t]]; reflexivity.
    - simpl. rewrite H. reflexivity.
    - simpl. rewrite H. repeat split; auto; reflexivity. }
  destruct R as (a&R&h'&E'&H'&N'). destruct (same_run rentry rseg s_cyc E R) as (s'&R'&E2). exists s'. split; [exact R'|]. split.
  - exists h'. split; auto. eapply same_trans; eauto.
  - assert (R2 : exists a, run rstep (s_form h) (firstn 2 s_cyc) = Some a /\ fspin a = true /\ fpcs a 0 = FWant OLock RFirst) by (eexists; split; [vm_compute; reflexivity|split; reflexivity]).
    destruct R2 as (a2&R2&X&Y). destruct (same_run rentry rseg _ E R2) as (s1&R1&((B1&_)&B4&_)). exists s1. split; auto. split; [congruence|]. now rewrite <- B4.
Qed.
Lemma some_inj : forall A (a b : A), Some a = Some b -> a = b.
Proof. congruence. Qed.
Lemma s_start : exists s, run rstep rinit s_pre = Some s /\ s_base s.
Proof. eexists. split; [vm_compute; reflexivity|]. eexists. split; [|split].
  - split; [split; [reflexivity|split; reflexivity]|]. split; intros [|t]; reflexivity.
  - reflexivity.
  - simpl. repeat split; auto; reflexivity.
Qed.
Lemma s_next : forall s, s_base s -> exists s', run rstep s s_cyc = Some s' /\ s_base s'.
Proof. intros s B. destruct (s_step s B) as (s'&R&B'&_). eauto. Qed.
Lemma s_ne : s_cyc <> []. Proof. discriminate. Qed.
Definition sst := cst _ _ rstep rinit s_pre s_cyc.
Definition slb := clb _ s_pre s_cyc.
Lemma s_exec : execution _ _ rstep rinit sst slb.
Proof. exact (cyc_exec _ _ rstep rinit s_pre s_cyc s_base s_ne s_start s_next). Qed.
Lemma s_only : forall n l, slb n = Some l -> l = SCall 0 OLock \/ l = SCall 1 OLock \/ l = SCall 1 OUnlock \/ l = SRun 1 true.
Proof. intros n l E. apply clb_in in E. simpl in E. intuition. Qed.
Lemma s_not : forall t n, t <> 1 -> ~ moves _ (@fwho mop) slb t n.
Proof. intros t n N (l&E&W). destruct (s_only _ _ E) as [-> |[-> |[-> | ->]]]; simpl in W; congruence. Qed.
Lemma depth_ret : forall h t, (0 < depth h t)%N -> exists o r, In (ERet t o r) h.
Proof.
  induction h as [|e h IH]; intros t H; [simpl in H; lia|].
  assert (K : (0 < depth h t)%N -> exists o r, In (ERet t o r) (e :: h)) by (intros X; destruct (IH t X) as (o&r&Y); exists o, r; now right).
  destruct e as [u o|u o r|u o r|u a]; simpl in H; auto.
  - destruct o; auto. destruct (Nat.eqb_spec u t) as [->|]; auto. apply K. lia.
  - destruct o; auto; destruct r; auto; (destruct (Nat.eqb_spec u t) as [->|]; [eexists; eexists; left; reflexivity|auto]).
Qed.
Lemma rstep_hist : forall s l s', rstep s l = Some s' -> exists es, fhist s' = es ++ fhist s.
Proof.
  assert (X : forall u xs (h : list mev), exists es, log_xs u xs h = es ++ h).
  { intros u xs. induction xs as [|x xs IH]; intros h; simpl; [now exists []|]. destruct (IH (EAux u x :: h)) as (es&E). exists (es ++ [EAux u x]). rewrite E, <- app_assoc. reflexivity. }
  assert (Y : forall lin (h : list mev), exists es, log_lin lin h = es ++ h).
  { intros lin. induction lin as [|x lin IH]; intros h; simpl; [now exists []|]. edestruct IH as (es&E). rewrite E. eexists (es ++ [_]). rewrite <- app_assoc. reflexivity. }
  intros s [u o|u b] s' H; unfold rstep in H; simpl in H.
  - destruct (fpcs s u); try discriminate. injection H as <-. now exists [ECall u o].
  - repeat (match type of H with context [match ?x with _ => _ end] => destruct x eqn:?E end); try discriminate; injection H as <-; simpl; auto; try (now exists []).
    now exists [ERet u o r].
Qed.
Lemma grows : forall st lb, execution _ _ rstep rinit st lb -> forall n m, n <= m -> shallow (fhist (st m)) -> shallow (fhist (st n)).
Proof.
  intros st lb EX n m L. induction L as [|m L IH]; auto. intros H. apply IH. pose proof (proj2 EX m) as S. destruct (lb m) as [l|]; [|now rewrite S in H].
  destruct (rstep_hist _ _ _ S) as (es&E). rewrite E in H. eapply shallow_app; eauto.
Qed.
Theorem rec_starvation_refuted : exists st lb, execution _ _ rstep rinit st lb /\ (forall n, shallow (fhist (st n))) /\
  weakly_fair _ _ rstep (@fwho mop) st lb /\ clock_runs st lb /\ holders_let_go st /\ exists t n, lb n = Some (SCall t OLock) /\ ~ call_returns st t OLock n.
Proof.
  exists sst, slb. pose proof s_exec as EX. split; [exact EX|].
  assert (Bs : forall n, exists h, fhist (sst (1 + 16 * n)) = h /\ depth h 1 = 0%N /\ shallow h).
  { intros n. destruct (cyc_base _ _ rstep rinit s_pre s_cyc s_base s_start s_next n) as (h&((_&_&E)&_)&H&N). exists h. split; auto. }
  split; [|split; [|split; [|split]]].
  - intros n. apply (grows _ _ EX n (1 + 16 * n)); [lia|]. destruct (Bs n) as (h&E&_&N). now rewrite E.
  - intros t n. destruct (Nat.eq_dec t 0) as [->|N0]; [|destruct (Nat.eq_dec t 1) as [->|N1]].
    + exists (1 + 16 * n + 2). split; [lia|]. right. intros A.
      pose proof (cyc_base _ _ rstep rinit s_pre s_cyc s_base s_start s_next n) as B. destruct (s_step _ B) as (_&_&_&s1&R&Sp&P).
      destruct (cyc_seg _ _ rstep rinit s_pre s_cyc s_base s_start s_next n 2) as (R'&_); [simpl; lia|].
      assert (E : s1 = sst (1 + 16 * n + 2)) by (apply some_inj; rewrite <- R; exact R'). rewrite <- E in A.
      destruct A as ([u o|u b]&s'&W&H); [discriminate|]. injection W as ->. unfold rstep in H. simpl in H. rewrite P, Sp in H. discriminate.
    + exists (1 + 16 * n + 1). split; [lia|]. left. exists (SRun 1 true). split; [|reflexivity]. exact (clb_cyc _ s_pre s_cyc n 1 ltac:(simpl; lia)).
    + exists n. split; auto. right. apply out_unable. apply (never EX). intros k l E. destruct (s_only _ _ E) as [-> |[-> |[-> | ->]]]; simpl; split; congruence.
  - intros t n. exists n. split; auto. right. intros k K (E&_). destruct (s_only _ _ E) as [H|[H|[H|H]]]; discriminate.
  - intros u n H. destruct (Nat.eq_dec u 1) as [->|N].
    + exists (1 + 16 * n). split; [lia|]. destruct (Bs n) as (h&E&Z&_). now rewrite E.
    + exfalso. apply depth_ret in H as (o&r&J). eapply no_ret; [exact EX| |exact J]. intros k. now apply s_not.
  - exists 0, 0. split; [reflexivity|]. intros (m&r&L&E). eapply (@no_ret _ _ _ _ _ rentry rseg rd0 sst slb 0 EX) with (n := S m) (o := OLock) (r := r); [intros k; apply s_not; discriminate|]. rewrite E. now left.
Qed.
Print Assumptions rec_starvation_refuted.

(** ** An execution that meets the hypotheses of the first theorem: coroutine 0 takes the mutex twice; 1 looks once in vain, is told that its time is up and parks;
    0 lets go and 1 gets the mutex. *)
Definition x_cyc : list (slbl mop) :=
  [SCall 0 OLock] ++ repeat (SRun 0 false) 3 ++ [SCall 0 OTry] ++ repeat (SRun 0 false) 3 ++ [SCall 1 OLock] ++ repeat (SRun 1 false) 5 ++ repeat (SRun 1 true) 3 ++
  [SCall 0 OUnlock] ++ repeat (SRun 0 false) 3 ++ [SCall 0 OUnlock] ++ repeat (SRun 0 false) 4 ++ repeat (SRun 1 false) 4 ++ [SCall 1 OUnlock] ++ repeat (SRun 1 false) 3.
Definition x_form (h : list mev) : F := mkF false rd0 (fun _ => false) (fun _ => FOut) h.
Definition x_base (s : F) : Prop := exists h, same (x_form h) s /\ depth h 0 = 0%N /\ depth h 1 = 0%N /\ shallow h.
Lemma x_next : forall s, x_base s -> exists s', run rstep s x_cyc = Some s' /\ x_base s'.
Proof.
  intros s (h&E&H0&H1&N). assert (R : exists a, run rstep (x_form h) x_cyc = Some a /\ exists h', same (x_form h') a /\ depth h' 0 = 0%N /\ depth h' 1 = 0%N /\ shallow h').
  { eexists. split; [vm_compute; reflexivity|]. eexists. split; [|split; [|split]].
    - split; [split; [reflexivity|split; reflexivity]|]. split; intros [|[|t]]; reflexivity.
    - simpl. rewrite H0. reflexivity.
    - simpl. rewrite H1. reflexivity.
    - simpl. rewrite H0, H1. repeat split; auto; reflexivity. }
  destruct R as (a&R&h'&E'&H'&N'). destruct (same_run rentry rseg x_cyc E R) as (s'&R'&E2). exists s'. split; [exact R'|].
  exists h'. split; auto. eapply same_trans; eauto.
Qed.
Lemma x_start : exists s, run rstep rinit [] = Some s /\ x_base s.
Proof. exists rinit. split; [reflexivity|]. exists []. repeat split. Qed.
Lemma x_ne : x_cyc <> []. Proof. discriminate. Qed.
Definition xst := cst _ _ rstep rinit [] x_cyc.
Definition xlb := clb _ [] x_cyc.
Lemma x_only : forall n l, xlb n = Some l ->
  In l [SCall 0 OLock; SRun 0 false; SCall 0 OTry; SCall 1 OLock; SRun 1 false; SRun 1 true; SCall 0 OUnlock; SCall 1 OUnlock].
Proof. intros n l E. apply clb_in in E. simpl in *. intuition. Qed.
Example rec_fair_example : execution _ _ rstep rinit xst xlb /\ (forall n, shallow (fhist (xst n))) /\
  strongly_fair _ _ rstep (@fwho mop) xst xlb /\ clock_runs xst xlb /\ holders_let_go xst /\
  (forall n, exists m, n <= m /\ firstn 1 (fhist (xst m)) = [EAux 1 APark] /\ depth (fhist (xst m)) 0 = 2%N).
Proof.
  pose proof (cyc_exec _ _ rstep rinit [] x_cyc x_base x_ne x_start x_next) as EX. split; [exact EX|].
  assert (Ln : length x_cyc = 34) by reflexivity.
  assert (Lb : forall k i, i < 34 -> xlb (34 * k + i) = nth_error x_cyc i) by (intros k i Li; exact (clb_cyc _ [] x_cyc k i Li)).
  assert (Bs : forall n, exists h, same (x_form h) (xst (34 * n)) /\ depth h 0 = 0%N /\ depth h 1 = 0%N /\ shallow h) by (intros n; exact (cyc_base _ _ rstep rinit [] x_cyc x_base x_start x_next n)).
  assert (At : forall n i, i <= 34 -> exists h a, same (x_form h) (xst (34 * n)) /\ depth h 0 = 0%N /\ run rstep (x_form h) (firstn i x_cyc) = Some a /\ same a (xst (34 * n + i))).
  { intros n i Li. destruct (Bs n) as (h&E&H0&_). destruct (cyc_seg _ _ rstep rinit [] x_cyc x_base x_start x_next n i) as (R&_); [now rewrite Ln|]. fold xst in R.
    change (length (@nil (slbl mop)) + length x_cyc * n) with (34 * n) in R.
    assert (E' : same (xst (34 * n)) (x_form h)) by (destruct E as ((A1&A2&A3)&A4&A5); repeat split; auto).
    destruct (same_run rentry rseg _ E' R) as (a&Ra&Ea). exists h, a. split; auto. split; auto. split; auto. destruct Ea as ((A1&A2&A3)&A4&A5). repeat split; auto. }
  split; [|split; [|split; [|split]]].
  - intros n. apply (grows _ _ EX n (34 * n)); [lia|]. destruct (Bs n) as (h&((_&_&E)&_)&_&_&N). change (fhist (x_form h)) with h in E. rewrite E in N. exact N.
  - intros t n. destruct (Nat.eq_dec t 0) as [->|N0]; [|destruct (Nat.eq_dec t 1) as [->|N1]].
    + exists (34 * n + 1). split; [lia|]. left. exists (SRun 0 false). split; [|reflexivity]. apply Lb. lia.
    + exists (34 * n + 9). split; [lia|]. left. exists (SRun 1 false). split; [|reflexivity]. apply Lb. lia.
    + exists n. split; auto. right. intros k _. apply out_unable. apply (never EX). intros j l E. apply x_only in E. simpl in E.
      repeat (destruct E as [<-|E]; [simpl; split; congruence|]). destruct E.
  - intros t n. destruct (Nat.eq_dec t 1) as [->|N1].
    + exists (34 * n + 14). split; [lia|]. left. split; [apply Lb; lia|]. destruct (At n 14) as (h&a&_&_&R&(_&E4&_)); [lia|]. rewrite <- E4.
      apply some_inj. transitivity (option_map (fun s => fpcs s 1) (run rstep (x_form h) (firstn 14 x_cyc))); [now rewrite R|]. vm_compute. reflexivity.
    + exists n. split; auto. right. intros k K (E&P). destruct (Nat.eq_dec t 0) as [->|N0].
      * (* 0 never gets to the timed loop *)
        assert (G : forall j, match fpcs (xst j) 0 with FOut | FWant _ RFirst | FIn _ RFirst | FWant _ RTryL | FIn _ RTryL | FWant _ RUn | FIn _ RUn | FUn _ _ _ => True | _ => False end).
        { intros j. pose proof (Nat.div_mod_eq j 34) as Dv. assert (Li : j mod 34 < 34) by (apply Nat.mod_upper_bound; lia). destruct (At (j / 34) (j mod 34)) as (h&a&_&_&R&(_&E4&_)); [lia|].
          rewrite Dv, <- E4. clear - R Li. revert R. generalize dependent (j mod 34). intros i Li R.
          assert (W : match option_map (fun s => fpcs s 0) (run rstep (x_form h) (firstn i x_cyc)) with
            Some (FOut | FWant _ RFirst | FIn _ RFirst | FWant _ RTryL | FIn _ RTryL | FWant _ RUn | FIn _ RUn | FUn _ _ _) => True | _ => False end).
          { do 34 (destruct i as [|i]; [vm_compute; exact Logic.I|]). lia. }
          rewrite R in W. exact W. }
        specialize (G k). rewrite P in G. exact G.
      * apply x_only in E. simpl in E. repeat (destruct E as [E|E]; [congruence|]). destruct E.
  - intros u n H. destruct (Nat.eq_dec u 0) as [->|N0]; [|destruct (Nat.eq_dec u 1) as [->|N1]].
    + exists (34 * n). split; [lia|]. destruct (Bs n) as (h&((_&_&E)&_)&Z&_). change (fhist (x_form h)) with h in E. rewrite E in Z. exact Z.
    + exists (34 * n). split; [lia|]. destruct (Bs n) as (h&((_&_&E)&_)&_&Z&_). change (fhist (x_form h)) with h in E. rewrite E in Z. exact Z.
    + exfalso. apply depth_ret in H as (o&r&J). eapply no_ret; [exact EX| |exact J]. intros k (l&E&W). apply x_only in E. simpl in E.
      repeat (destruct E as [<-|E]; [simpl in W; congruence|]). destruct E.
  - intros n. exists (34 * n + 16). split; [lia|]. destruct (At n 16) as (h&a&_&H0&R&((_&_&E3)&_)); [lia|]. rewrite <- E3.
    assert (R2 : exists a, run rstep (x_form h) (firstn 16 x_cyc) = Some a /\ firstn 1 (fhist a) = [EAux 1 APark] /\ depth (fhist a) 0 = 2%N).
    { eexists. split; [vm_compute; reflexivity|]. split; [reflexivity|]. simpl. rewrite H0. reflexivity. }
    destruct R2 as (a'&R2&X). assert (a' = a) by congruence. subst a'. exact X.
Qed.
