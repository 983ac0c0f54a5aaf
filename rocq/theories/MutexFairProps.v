(** C92: nobody starves at a co_mutex. *)
From Coq Require Import List Arith Bool Lia.
From Verif Require Import Base LinSpec MutexSpec MutexModel MutexProofs FairSpec FairCycle MutexFair.
Import ListNotations.

(** A call made at moment n returns. *)
Definition call_returns (st : nat -> MutexModel.st) (t : nat) (o : mop) (n : nat) : Prop :=
  exists m r, n < m /\ hist (st (S m)) = ERet t o r :: hist (st m).

(** ** What holds: with a strongly fair scheduler, a clock that advances and holders that unlock, every call returns.
    Missing: co_spinlock is a test-and-set lock, for which weak fairness is not enough. *)
Theorem mutex_no_starvation_partial : forall st lb, execution _ _ step init st lb -> (forall n, no_relock (hist (st n))) ->
  strongly_fair _ _ step mwho st lb -> clock_runs st lb -> holders_unlock st lb ->
  forall t o n, lb n = Some (Call t o) -> call_returns st t o n.
Proof.
  intros st lb EX NR SF CK HU t o n C. destruct o.
  - destruct (lock_call_returns st lb EX NR SF CK HU t n C) as (m&L&M&P). destruct (mv_run st lb EX t m M) as (late&_&H). exists m, ROk. split; auto.
    unfold step_run in H. rewrite P in H. injection H as <-. reflexivity.
  - pose proof (proj2 EX n) as H. rewrite C in H. simpl in H. destruct (pcs (st n) t) eqn:E; try discriminate.
    destruct (try_returns st lb EX NR SF t (S n)) as (m&L&M&P); [injection H as <-; simpl; now rewrite upd_same|].
    destruct (mv_run st lb EX t m M) as (late&_&H'). unfold step_run in H'. destruct (pcs (st m) t); try tauto. exists m. eexists. split; [lia|]. injection H' as <-. reflexivity.
  - pose proof (proj2 EX n) as H. rewrite C in H. simpl in H. destruct (pcs (st n) t) eqn:E; try discriminate.
    destruct (unlock_returns st lb EX NR SF t (S n)) as (m&L&M&P); [injection H as <-; simpl; now rewrite upd_same|].
    destruct (mv_run st lb EX t m M) as (late&_&H'). unfold step_run in H'. destruct (pcs (st m) t); try tauto. exists m. eexists. split; [lia|]. injection H' as <-. reflexivity.
Qed.
Print Assumptions mutex_no_starvation_partial.

(** ** Facts about executions in which some coroutine makes no step *)
Lemma ret_own : forall s l s' t o r, step s l = Some s' -> In (ERet t o r) (hist s') -> In (ERet t o r) (hist s) \/ mwho l = Some t.
Proof.
  intros s [u o|u late] s' t o' r H J; simpl in H.
  - destruct (pcs s u); try discriminate. injection H as <-. simpl in J. destruct J as [J|J]; [discriminate|auto].
  - unfold step_run, tas in H. repeat (match type of H with context [match ?x with _ => _ end] => destruct x eqn:?E end); try discriminate; injection H as <-; simpl in J; auto;
      repeat (destruct J as [J|J]; [try discriminate|]); auto; injection J; intros; subst; auto.
Qed.
Lemma no_ret : forall st lb t, execution _ _ step init st lb -> (forall n, ~ moves _ mwho lb t n) -> forall n o r, ~ In (ERet t o r) (hist (st n)).
Proof.
  intros st lb t EX N. induction n as [|n IH]; intros o r J; [now rewrite (proj1 EX) in J|]. pose proof (proj2 EX n) as H. destruct (lb n) as [l|] eqn:E.
  - destruct (ret_own _ _ _ _ _ _ H J) as [X|X]; [now apply (IH o r)|]. apply (N n). exists l. auto.
  - rewrite H in J. now apply (IH o r).
Qed.
Lemma holding_ret : forall h t, holding h t = true -> exists o r, In (ERet t o r) h.
Proof.
  induction h as [|e h IH]; intros t H; [discriminate|]. simpl in H.
  assert (K : holding h t = true -> exists o r, In (ERet t o r) (e :: h)) by (intros X; destruct (IH t X) as (o&r&Y); exists o, r; now right).
  destruct e as [u o|u o r|u o r|u a]; auto.
  - destruct o; auto. destruct (Nat.eqb_spec u t) as [->|]; auto. discriminate.
  - destruct o; auto; destruct r; auto; (destruct (Nat.eqb_spec u t) as [->|]; [eexists; eexists; left; reflexivity|auto]).
Qed.
Lemma never : forall st lb t, execution _ _ step init st lb -> (forall n l, lb n = Some l -> mwho l <> Some t /\ forall o, l <> Call t o) -> forall n, pcs (st n) t = Idle.
Proof.
  intros st lb t EX N. induction n as [|n IH]; [now rewrite (proj1 EX)|]. pose proof (proj2 EX n) as H. destruct (lb n) as [l|] eqn:E; [|now rewrite H].
  destruct (N _ _ E). now rewrite (pcs_other _ _ _ _ H).
Qed.
Lemma idle_unable : forall s t, pcs s t = Idle -> ~ able _ _ step mwho s t.
Proof. intros s t P ([u o|u late]&s'&W&H); [discriminate|]. injection W as ->. simpl in H. unfold step_run in H. rewrite P in H. discriminate. Qed.
Lemma grows : forall st lb, execution _ _ step init st lb -> forall n m, n <= m -> no_relock (hist (st m)) -> no_relock (hist (st n)).
Proof.
  intros st lb EX n m L. induction L as [|m L IH]; auto. intros H. apply IH. pose proof (proj2 EX m) as S. destruct (lb m) as [l|]; [|now rewrite S in H].
  destruct (step_hist _ _ _ S) as (es&E). rewrite E in H. eapply no_relock_app; eauto.
Qed.

(** ** Refuted: coroutine 0 finds the spin lock taken each time it looks, because coroutine 1 locks and unlocks all the time. *)
Definition s_cyc : list lbl := [Call 1 OLock; Run 1 true; Run 1 true; Run 1 true; Run 1 true; Call 1 OUnlock; Run 1 true; Run 1 true; Run 1 true].
(** States that differ only in the representation of their functions. *)
Definition same (a b : MutexModel.st) : Prop :=
  (spin a = spin b /\ owner a = owner b /\ q a = q b /\ hist a = hist b) /\ (forall t, pcs a t = pcs b t) /\ forall t, waiting a t = waiting b t.
Lemma same_step : forall a b l a', same a b -> step a l = Some a' -> exists b', step b l = Some b' /\ same a' b'.
Proof.
  intros a b l a' ((E1&E2&E3&E4)&E5&E6) H.
  assert (U : forall A (f g : nat -> A) i x, (forall t, f t = g t) -> forall t, upd f i x t = upd g i x t) by (intros A f g i x F t; unfold upd; destruct (t =? i); auto).
  destruct l as [t o|t late]; simpl in *.
  - rewrite <- E5. destruct (pcs a t); try discriminate. injection H as <-. eexists. split; [reflexivity|]. repeat split; simpl; auto. now rewrite E4.
  - unfold step_run, tas, is_owner in *. rewrite <- E5, <- E1, <- E2, <- E3, <- E6.
    repeat (match type of H with context [match ?x with _ => _ end] => destruct x eqn:?X end); try discriminate; injection H as <-;
      (eexists; split; [reflexivity|]; repeat split; simpl; auto; congruence).
Qed.
Lemma same_run : forall ls a b a', same a b -> run step a ls = Some a' -> exists b', run step b ls = Some b' /\ same a' b'.
Proof.
  induction ls as [|l ls IH]; intros a b a' E H; simpl in *; [injection H as <-; eauto|]. destruct (step a l) as [a1|] eqn:S; [|discriminate].
  destruct (same_step _ _ _ _ E S) as (b1&S'&E'). rewrite S'. eauto.
Qed.
Lemma same_sym : forall a b, same a b -> same b a.
Proof. intros a b ((E1&E2&E3&E4)&E5&E6). repeat split; auto. Qed.

Definition s_form (h : list mev) : MutexModel.st := mkSt false None [] (fun _ => false) (fun t => match t with 0 => LkSpin | _ => Idle end) h.
Definition s_base (s : MutexModel.st) : Prop := exists h, same (s_form h) s /\ holding h 1 = false /\ no_relock h.
Lemma s_step : forall s, s_base s -> exists s', run step s s_cyc = Some s' /\ s_base s' /\
  exists s1, run step s (firstn 2 s_cyc) = Some s1 /\ spin s1 = true /\ pcs s1 0 = LkSpin.
Proof.
  intros s (h&E&H&N). assert (R : exists a, run step (s_form h) s_cyc = Some a /\ exists h', same (s_form h') a /\ holding h' 1 = false /\ no_relock h').
  { eexists. split; [vm_compute; reflexivity|]. eexists. split; [|split].
    - split; [split; [reflexivity|split; [reflexivity|split; reflexivity]]|]. split; [|intros t; reflexivity]. intros [|[|t]]; reflexivity.
    - reflexivity.
    - simpl. auto. }
  destruct R as (a&R&h'&E'&H'&N'). destruct (same_run _ _ _ _ E R) as (s'&R'&E2). exists s'. split; [exact R'|]. split.
  - exists h'. split; auto. destruct E' as ((A1&A2&A3&A4)&A5&A6), E2 as ((B1&B2&B3&B4)&B5&B6).
    split; [split; [congruence|split; [congruence|split; congruence]]|]. split; intros t; [now rewrite A5|now rewrite A6].
  - assert (R2 : exists a, run step (s_form h) (firstn 2 s_cyc) = Some a /\ spin a = true /\ pcs a 0 = LkSpin) by (eexists; split; [vm_compute; reflexivity|split; reflexivity]).
    destruct R2 as (a2&R2&X&Y). destruct (same_run _ _ _ _ E R2) as (s1&R1&((B1&_)&B5&_)). exists s1. split; auto. split; [congruence|]. now rewrite <- B5.
Qed.
Lemma some_inj : forall A (a b : A), Some a = Some b -> a = b.
Proof. congruence. Qed.
Lemma s_start : exists s, run step init [Call 0 OLock] = Some s /\ s_base s.
Proof. eexists. split; [vm_compute; reflexivity|]. eexists. split; [|split].
  - split; [split; [reflexivity|split; [reflexivity|split; reflexivity]]|]. split; [|intros t; reflexivity]. intros [|t]; reflexivity.
  - reflexivity.
  - simpl. auto.
Qed.
Lemma s_next : forall s, s_base s -> exists s', run step s s_cyc = Some s' /\ s_base s'.
Proof. intros s B. destruct (s_step s B) as (s'&R&B'&_). eauto. Qed.
Lemma s_ne : s_cyc <> []. Proof. discriminate. Qed.
Definition sst := cst _ _ step init [Call 0 OLock] s_cyc.
Definition slb := clb _ [Call 0 OLock] s_cyc.
Lemma s_exec : execution _ _ step init sst slb.
Proof. exact (cyc_exec _ _ step init [Call 0 OLock] s_cyc s_base s_ne s_start s_next). Qed.
Lemma s_only : forall n l, slb n = Some l -> l = Call 0 OLock \/ l = Call 1 OLock \/ l = Call 1 OUnlock \/ l = Run 1 true.
Proof. intros n l E. apply clb_in in E. simpl in E. intuition. Qed.
Lemma s_not : forall t n, t <> 1 -> ~ moves _ mwho slb t n.
Proof. intros t n N (l&E&W). destruct (s_only _ _ E) as [-> |[-> |[-> | ->]]]; simpl in W; congruence. Qed.
Theorem mutex_starvation_refuted : exists st lb, execution _ _ step init st lb /\ (forall n, no_relock (hist (st n))) /\
  weakly_fair _ _ step mwho st lb /\ clock_runs st lb /\ holders_unlock st lb /\ exists t n, lb n = Some (Call t OLock) /\ ~ call_returns st t OLock n.
Proof.
  exists sst, slb. pose proof s_exec as EX. split; [exact EX|]. split; [|split; [|split; [|split]]].
  - intros n. apply (grows _ _ EX n (1 + 9 * n)); [lia|].
    destruct (cyc_base _ _ step init [Call 0 OLock] s_cyc s_base s_start s_next n) as (h&((_&_&_&E)&_)&_&N). change (hist (s_form h)) with h in E. rewrite E in N. exact N.
  - intros t n. destruct (Nat.eq_dec t 0) as [->|N0]; [|destruct (Nat.eq_dec t 1) as [->|N1]].
    + exists (1 + 9 * n + 2). split; [lia|]. right. intros A.
      pose proof (cyc_base _ _ step init [Call 0 OLock] s_cyc s_base s_start s_next n) as B. destruct (s_step _ B) as (_&_&_&s1&R&Sp&P).
      destruct (cyc_seg _ _ step init [Call 0 OLock] s_cyc s_base s_start s_next n 2) as (R'&_); [simpl; lia|].
      assert (E : s1 = sst (1 + 9 * n + 2)) by (apply some_inj; rewrite <- R; exact R'). rewrite <- E in A.
      destruct A as ([u o|u late]&s'&W&H); [discriminate|]. injection W as ->. simpl in H. unfold step_run, tas in H. rewrite P, Sp in H. discriminate.
    + exists (1 + 9 * n + 1). split; [lia|]. left. exists (Run 1 true). split; [|reflexivity]. exact (clb_cyc _ [Call 0 OLock] s_cyc n 1 ltac:(simpl; lia)).
    + exists n. split; auto. right. apply idle_unable. apply (never _ _ t EX). intros k l E. destruct (s_only _ _ E) as [-> |[-> |[-> | ->]]]; simpl; split; congruence.
  - intros t n. exists n. split; auto. right. intros k K (E&_). destruct (s_only _ _ E) as [H|[H|[H|H]]]; discriminate.
  - intros u n H. destruct (Nat.eq_dec u 1) as [->|N].
    + exists (1 + 9 * n + 5). split; [lia|]. exact (clb_cyc _ [Call 0 OLock] s_cyc n 5 ltac:(simpl; lia)).
    + exfalso. apply holding_ret in H as (o&r&J). eapply no_ret; [exact EX| |exact J]. intros k. now apply s_not.
  - exists 0, 0. split; [reflexivity|]. intros (m&r&L&E). apply (no_ret sst slb 0 EX) with (S m) OLock r; [intros k; apply s_not; discriminate|]. rewrite E. now left.
Qed.
Print Assumptions mutex_starvation_refuted.

(** ** An execution that meets the hypotheses of the first theorem: two coroutines, each parked while the other has the mutex. *)
Definition x_cyc : list lbl :=
  [Call 0 OLock] ++ repeat (Run 0 true) 4 ++ [Call 1 OLock] ++ repeat (Run 1 true) 5 ++ [Call 0 OUnlock] ++ repeat (Run 0 true) 4 ++ repeat (Run 1 true) 4 ++
  [Call 1 OUnlock] ++ repeat (Run 1 true) 3.
Definition x_form (h : list mev) : MutexModel.st := mkSt false None [] (fun _ => false) (fun _ => Idle) h.
Definition x_base (s : MutexModel.st) : Prop := exists h, same (x_form h) s /\ holding h 0 = false /\ holding h 1 = false /\ no_relock h.
Lemma x_next : forall s, x_base s -> exists s', run step s x_cyc = Some s' /\ x_base s'.
Proof.
  intros s (h&E&H0&H1&N). assert (R : exists a, run step (x_form h) x_cyc = Some a /\ exists h', same (x_form h') a /\ holding h' 0 = false /\ holding h' 1 = false /\ no_relock h').
  { eexists. split; [vm_compute; reflexivity|]. eexists. split; [|split; [|split]].
    - split; [split; [reflexivity|split; [reflexivity|split; reflexivity]]|]. split; intros [|[|t]]; reflexivity.
    - reflexivity.
    - reflexivity.
    - simpl. auto. }
  destruct R as (a&R&h'&E'&H'&N'). destruct (same_run _ _ _ _ E R) as (s'&R'&E2). exists s'. split; [exact R'|].
  exists h'. split; auto. destruct E' as ((A1&A2&A3&A4)&A5&A6), E2 as ((B1&B2&B3&B4)&B5&B6).
  split; [split; [congruence|split; [congruence|split; congruence]]|]. split; intros t; [now rewrite A5|now rewrite A6].
Qed.
Lemma x_start : exists s, run step init [] = Some s /\ x_base s.
Proof. exists init. split; [reflexivity|]. exists []. repeat split. Qed.
Lemma x_ne : x_cyc <> []. Proof. discriminate. Qed.
Definition xst := cst _ _ step init [] x_cyc.
Definition xlb := clb _ [] x_cyc.
Lemma x_only : forall n l, xlb n = Some l -> In l [Call 0 OLock; Run 0 true; Call 1 OLock; Run 1 true; Call 0 OUnlock; Call 1 OUnlock].
Proof. intros n l E. apply clb_in in E. simpl in *. intuition. Qed.
Example mutex_fair_example : execution _ _ step init xst xlb /\ (forall n, no_relock (hist (xst n))) /\
  strongly_fair _ _ step mwho xst xlb /\ clock_runs xst xlb /\ holders_unlock xst xlb /\
  (forall n, exists m, n <= m /\ In (EAux 1 APark) (firstn 1 (hist (xst m)))).
Proof.
  pose proof (cyc_exec _ _ step init [] x_cyc x_base x_ne x_start x_next) as EX. split; [exact EX|].
  assert (L : length x_cyc = 24) by reflexivity.
  assert (Lb : forall k i, i < 24 -> xlb (24 * k + i) = nth_error x_cyc i) by (intros k i Li; exact (clb_cyc _ [] x_cyc k i Li)).
  split; [|split; [|split; [|split]]].
  - intros n. apply (grows _ _ EX n (0 + 24 * n)); [lia|].
    destruct (cyc_base _ _ step init [] x_cyc x_base x_start x_next n) as (h&((_&_&_&E)&_)&_&_&N). change (hist (x_form h)) with h in E. rewrite E in N. exact N.
  - intros t n. destruct (Nat.eq_dec t 0) as [->|N0]; [|destruct (Nat.eq_dec t 1) as [->|N1]].
    + exists (24 * n + 1). split; [lia|]. left. exists (Run 0 true). split; [|reflexivity]. apply Lb. lia.
    + exists (24 * n + 6). split; [lia|]. left. exists (Run 1 true). split; [|reflexivity]. apply Lb. lia.
    + exists n. split; auto. right. intros k _. apply idle_unable. apply (never _ _ t EX). intros j l E. apply x_only in E. simpl in E.
      destruct E as [<-|[<-|[<-|[<-|[<-|[<-|[]]]]]]]; simpl; split; congruence.
  - intros t n. exists n. split; auto. right. intros k K (E&_). apply x_only in E. simpl in E. destruct E as [E|[E|[E|[E|[E|[E|[]]]]]]]; discriminate.
  - intros u n H. destruct (Nat.eq_dec u 0) as [->|N0]; [|destruct (Nat.eq_dec u 1) as [->|N1]].
    + exists (24 * n + 11). split; [lia|]. apply Lb. lia.
    + exists (24 * n + 20). split; [lia|]. apply Lb. lia.
    + exfalso. apply holding_ret in H as (o&r&J). eapply no_ret; [exact EX| |exact J]. intros k (l&E&W). apply x_only in E. simpl in E.
      destruct E as [<-|[<-|[<-|[<-|[<-|[<-|[]]]]]]]; simpl in W; congruence.
  - intros n. exists (24 * n + 9). split; [lia|]. pose proof (cyc_base _ _ step init [] x_cyc x_base x_start x_next n) as B.
    destruct (cyc_seg _ _ step init [] x_cyc x_base x_start x_next n 9) as (R&_); [rewrite L; lia|]. change (length (@nil lbl) + length x_cyc * n) with (24 * n) in *.
    fold xst in *. destruct B as (h&E&_).
    assert (R2 : exists a, run step (x_form h) (firstn 9 x_cyc) = Some a /\ firstn 1 (hist a) = [EAux 1 APark]) by (eexists; split; [vm_compute; reflexivity|reflexivity]).
    destruct R2 as (a&R2&X). destruct (same_run _ _ _ _ E R2) as (s1&R1&((_&_&_&B4)&_)). assert (s1 = xst (24 * n + 9)) by congruence. subst s1. rewrite <- B4, X. now left.
Qed.
