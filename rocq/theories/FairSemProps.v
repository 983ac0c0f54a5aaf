(** C107: co_counting_semaphore in fair executions. *)
From Coq Require Import List ZArith Bool Arith Lia.
From Verif Require Import Base LinSpec LinLemmas HistSpec Monitor MonitorProofs FairSpec FairCycle MonFair SemSpec SemModel SemProofs.
Import ListNotations.
Local Open Scope Z_scope.

(** The call made at moment n returns. *)
Definition sem_returns (h : nat -> list sev) (t : tid) (o : sop) (n : nat) : Prop :=
  exists m r, (n < m)%nat /\ h (S m) = ERet t o r :: h m.
(** Somebody takes a permit at moment m. *)
Definition takes (h : nat -> list sev) (u : tid) (m : nat) : Prop :=
  exists o r, h (S m) = ELin u o r :: h m /\ permit (ELin u o r) = -1.
(** Somebody adds a permit at moment m. *)
Definition adds (init : Z) (h : nat -> list sev) (m : nat) : Prop := permits init (h (S m)) = permits init (h m) + 1.

(** What a step does to the number of permits. *)
Lemma dat_step : forall max s l s', WF sop_eqb sres_eqb s -> (forall t, thr (mhist s) t (ths s t)) -> sem_step max s l = Some s' ->
  (dat s' = dat s - 1 /\ exists u o r, mhist s' = ELin u o r :: mhist s /\ permit (ELin u o r) = -1 /\ ths s' u = TDone o r) \/ dat s' = dat s \/ dat s' = dat s + 1.
Proof.
  intros max s [t o|t b|t] s' W T H; unfold sem_step in H.
  - apply call_post in H. destruct H as (_&E&_). right; left; exact E.
  - pose proof H as H0. apply run_post with (1 := W) in H. destruct H as (o&l&Et&H). pose proof (run_self _ _ _ _ _ H0 Et) as Hs.
    assert (Hl : opl (mhist s) t o l) by (specialize (T t); destruct Et as [Et|(c&Et)]; rewrite Et in T; simpl in T; tauto).
    destruct l as [|[|k]| |]; cbn [sem_body] in H, Hs;
      repeat (match type of H with context [if ?c then _ else _] => destruct c end); try (destruct k); destruct H as (Hd&Hh&_); cbn in Hd; auto;
      left; split; auto; exists t, o; eexists; (split; [exact Hh|split; [destruct o; simpl in Hl; try contradiction; reflexivity|exact Hs]]).
  - apply leave_post in H. destruct H as (_&_&_&E&_). right; left; exact E.
Qed.

(** A release with units to add has units to add. *)
Definition rel_ok (x : tst sop sres sloc) : Prop := match x with TReady (ORelease k) (LRel O) => k <= 0 | _ => True end.
Lemma rel_step : forall max s l s', WF sop_eqb sres_eqb s -> (forall t, rel_ok (ths s t)) -> sem_step max s l = Some s' -> forall t, rel_ok (ths s' t).
Proof.
  intros max s [t o|t b|t] s' W T H; unfold sem_step in H.
  - apply call_post in H. destruct H as (_&_&_&_&_&P). apply (P (fun _ => rel_ok)); [intros _ [| | | |]; simpl; auto|auto|]. destruct o; simpl; auto.
    destruct (Z.to_nat n) eqn:E; auto. lia.
  - apply run_post with (1 := W) in H. destruct H as (o&l&_&H).
    assert (P : exists x, thr_post s s' t x /\ rel_ok x).
    { destruct l as [|[|k]| |]; cbn [sem_body] in H; repeat (match type of H with context [if ?c then _ else _] => destruct c end); try (destruct k); destruct H as (_&_&H&_);
        (eexists; split; [exact H|]); simpl; auto; destruct o; exact I. }
    destruct P as (x&P&R). apply (P (fun _ => rel_ok)); auto. intros _ [| | | |]; simpl; auto.
  - apply leave_post in H. destruct H as (o&r&_&_&_&_&_&P). apply (P (fun _ => rel_ok)); [intros _ [| | | |]; simpl; auto|auto|exact I].
Qed.

Section Fair.
  Variables init max : Z.
  Hypothesis Hi : 0 <= init <= max.
  Variables (st : nat -> mst Z sop sres saux sloc) (lb : nat -> option (mlbl sop)).
  Hypothesis EX : execution _ _ (sem_step max) (sem_init init) st lb.
  Hypothesis WFR : weakly_fair _ _ (sem_step max) mwho st lb.
  Notation h := (fun n => mhist (st n)).

  Lemma sinv_all : forall k, SInv init max (st k).
  Proof. intros k. destruct (exec_run _ _ _ _ _ _ _ _ st lb EX k) as (ls&R). exact (sinv_run init max Hi ls _ R). Qed.

  Lemma dat_next : forall k, (exists u, takes h u k /\ exists o r, ths (st (S k)) u = TDone o r /\ h (S k) = ELin u o r :: h k) \/ dat (st (S k)) = dat (st k) \/ dat (st (S k)) = dat (st k) + 1.
  Proof.
    intros k. pose proof (proj2 EX k) as H. destruct (lb k) as [l|]; [|rewrite H; auto]. destruct (dat_step max _ _ _ (s_wf _ _ _ (sinv_all k)) (s_thr _ _ _ (sinv_all k)) H) as [(_&u&o&r&A&B&C)|X]; [|auto].
    left. exists u. split; [exists o, r; auto|exists o, r; auto].
  Qed.
  (** Until somebody takes one, the permits do not get fewer; until somebody adds one, they do not get more. *)
  Lemma dat_up : forall n j, (exists k u, (n <= k < n + j)%nat /\ takes h u k) \/ dat (st n) <= dat (st (n + j)%nat).
  Proof.
    intros n. induction j as [|j [(k&u&A&B)|IH]]; [right; rewrite Nat.add_0_r; lia|left; exists k, u; split; [lia|auto]|]. rewrite Nat.add_succ_r.
    destruct (dat_next (n + j)) as [(u&T&_)|X]; [left; exists (n + j)%nat, u; split; [lia|auto]|right; lia].
  Qed.
  Lemma dat_down : forall n j, (exists k, (n <= k < n + j)%nat /\ adds init h k) \/ dat (st (n + j)%nat) <= dat (st n).
  Proof.
    intros n. induction j as [|j [(k&A&B)|IH]]; [right; rewrite Nat.add_0_r; lia|left; exists k; split; [lia|auto]|]. rewrite Nat.add_succ_r.
    pose proof (s_dat _ _ _ (sinv_all (S (n + j)))) as E1. pose proof (s_dat _ _ _ (sinv_all (n + j))) as E0.
    destruct (dat_next (n + j)) as [(u&(o&r&X&Pm)&_)|[X|X]].
    - right. assert (dat (st (S (n + j))) <= dat (st (n + j))); [|lia]. rewrite E1, E0. cbv beta in X. rewrite X. unfold permits. cbn [total]. lia.
    - right. lia.
    - left. exists (n + j)%nat. split; [lia|]. unfold adds. lia.
  Qed.

  (** Whenever a permit is there and a coroutine is in acquire() waiting for one, somebody gets one. *)
  Lemma acquire_progress : forall n t, phase_of sop_eqb sres_eqb (mhist (st n)) t = Some (PPending OAcquire) -> 0 < permits init (mhist (st n)) ->
    exists m u, (n <= m)%nat /\ takes h u m.
  Proof.
    intros n t P Pos. pose proof (sinv_all n) as I. rewrite (w_ph (s_wf _ _ _ I) t) in P. rewrite <- (s_dat _ _ _ I) in Pos.
    assert (U : exists u, ths (st n) u = TReady OAcquire LAcq \/ exists c, ths (st n) u = TWoken c OAcquire LAcq).
    { pose proof (s_thr _ _ _ I t) as T. destruct (ths (st n) t) as [|o l|c o l|c o l|o r] eqn:E; simpl in P, T; try discriminate; injection P as ->.
      - exists t. left. destruct l as [|k| |]; simpl in T; try contradiction. exact E.
      - destruct T as (T&Cv). destruct l as [|k| |]; simpl in T; try contradiction. injection Cv as <-.
        assert (J : In t (qs (st n) EMPTY)) by (apply (w_q (s_wf _ _ _ I)); eauto). pose proof (s_e _ _ _ I) as Q.
        destruct (qs (st n) EMPTY); [destruct J|]. specialize (Q ltac:(discriminate)). destruct (wk (st n) EMPTY) as [|u r] eqn:Wk; [simpl in Q; lia|].
        assert (Ju : In u (wk (st n) EMPTY)) by (rewrite Wk; now left). apply (w_wk (s_wf _ _ _ I)) in Ju. destruct Ju as (o'&l'&Eu). exists u. right. exists EMPTY.
        pose proof (s_thr _ _ _ I u) as Tu. rewrite Eu in Tu. simpl in Tu. destruct Tu as (Tu&Cv). destruct l' as [|[|k]| |]; try discriminate. destruct o'; simpl in Tu; try contradiction. exact Eu.
      - destruct T as (T&Cv). destruct l as [|k| |]; simpl in T; try contradiction. exists t. right. eauto. }
    destruct U as (u&U). destruct (run_fires _ _ _ _ _ _ _ sop_refl sres_refl _ _ _ st lb EX WFR n u OAcquire LAcq U) as (m&b&L&Lb&H&Eu).
    destruct (dat_up n (m - n)) as [(k&v&A&B)|D]; [exists k, v; split; [lia|auto]|]. replace (n + (m - n))%nat with m in D by lia.
    exists m, u. split; auto. assert (U' : ths (st m) u = TReady OAcquire LAcq \/ exists c, ths (st m) u = TWoken c OAcquire LAcq) by (rewrite Eu; exact U).
    apply run_post with (1 := s_wf _ _ _ (sinv_all m)) in H. destruct H as (o&l&Et&H).
    assert (X : o = OAcquire /\ l = LAcq) by (destruct U' as [U'|(c&U')], Et as [Et|(c'&Et)]; rewrite U' in Et; try discriminate; injection Et; auto). destruct X as (->&->).
    cbn [sem_body] in H. destruct (Z.eqb_spec (dat (st m)) 0); [lia|]. destruct H as (_&Hh&_). exists OAcquire, ROk. split; [exact Hh|reflexivity].
  Qed.
  Lemma rel_all : forall k t, rel_ok (ths (st k) t).
  Proof.
    induction k as [|k IH]; intros t; [rewrite (proj1 EX); exact I|]. pose proof (proj2 EX k) as H. destruct (lb k) as [l|]; [|rewrite H; apply IH].
    exact (rel_step max _ _ _ (s_wf _ _ _ (sinv_all k)) IH H t).
  Qed.
  (** Whenever there is room and a coroutine is in release() waiting for it, somebody adds a permit. *)
  Lemma release_progress : forall n t k, phase_of sop_eqb sres_eqb (mhist (st n)) t = Some (PPending (ORelease k)) -> 0 < k ->
    permits init (mhist (st n)) < max -> exists m, (n <= m)%nat /\ adds init h m.
  Proof.
    intros n t k P Kp Pos. pose proof (sinv_all n) as I. rewrite (w_ph (s_wf _ _ _ I) t) in P. rewrite <- (s_dat _ _ _ I) in Pos.
    assert (U : exists u k' j, ths (st n) u = TReady (ORelease k') (LRel (S j)) \/ exists c, ths (st n) u = TWoken c (ORelease k') (LRel (S j))).
    { pose proof (s_thr _ _ _ I t) as T. pose proof (rel_all n t) as Rl. destruct (ths (st n) t) as [|o l|c o l|c o l|o r] eqn:E; simpl in P, T; try discriminate; injection P as ->.
      - destruct l as [|[|j]| |]; simpl in T; try contradiction; [simpl in Rl; lia|]. exists t, k, j. left. exact E.
      - destruct T as (T&Cv). destruct l as [|[|j]| |]; simpl in T; try contradiction; [discriminate|]. injection Cv as <-.
        assert (J : In t (qs (st n) FULL)) by (apply (w_q (s_wf _ _ _ I)); eauto). pose proof (s_f _ _ _ I) as Q.
        destruct (qs (st n) FULL); [destruct J|]. specialize (Q ltac:(discriminate)). destruct (wk (st n) FULL) as [|u r] eqn:Wk; [simpl in Q; lia|].
        assert (Ju : In u (wk (st n) FULL)) by (rewrite Wk; now left). apply (w_wk (s_wf _ _ _ I)) in Ju. destruct Ju as (o'&l'&Eu). exists u.
        pose proof (s_thr _ _ _ I u) as Tu. rewrite Eu in Tu. simpl in Tu. destruct Tu as (Tu&Cv). destruct l' as [|[|j']| |]; try discriminate. destruct o' as [| | |k']; simpl in Tu; try contradiction.
        exists k', j'. right. exists FULL. exact Eu.
      - destruct T as (T&Cv). destruct l as [|[|j]| |]; simpl in T; try contradiction; [discriminate|]. exists t, k, j. right. eauto. }
    destruct U as (u&k'&j&U). destruct (run_fires _ _ _ _ _ _ _ sop_refl sres_refl _ _ _ st lb EX WFR n u _ _ U) as (m&b&L&Lb&H&Eu).
    destruct (dat_down n (m - n)) as [(i&A&B)|D]; [exists i; split; [lia|auto]|]. replace (n + (m - n))%nat with m in D by lia.
    exists m. split; auto. assert (U' : ths (st m) u = TReady (ORelease k') (LRel (S j)) \/ exists c, ths (st m) u = TWoken c (ORelease k') (LRel (S j))) by (rewrite Eu; exact U).
    apply run_post with (1 := s_wf _ _ _ (sinv_all m)) in H. destruct H as (o&l&Et&H).
    assert (X : l = LRel (S j)) by (destruct U' as [U'|(c&U')], Et as [Et|(c'&Et)]; rewrite U' in Et; try discriminate; injection Et; auto). subst l.
    unfold adds. rewrite <- (s_dat _ _ _ (sinv_all m)), <- (s_dat _ _ _ (sinv_all (S m))).
    cbn [sem_body] in H. destruct (Z.eqb_spec (dat (st m)) max); [lia|]. destruct j; destruct H as (Hd&_); exact Hd.
  Qed.
End Fair.

(** ** What holds: in a weakly fair execution, a permit that is there while somebody waits for one is taken by somebody, and room that is there
    while somebody waits to add a permit is used by somebody. *)
Theorem sem_progress_partial : forall init max st lb, 0 <= init <= max -> execution _ _ (sem_step max) (sem_init init) st lb -> weakly_fair _ _ (sem_step max) mwho st lb ->
  forall n t o, phase_of sop_eqb sres_eqb (mhist (st n)) t = Some (PPending o) ->
  match o with
  | OAcquire => 0 < permits init (mhist (st n)) -> exists m u, (n <= m)%nat /\ takes (fun n => mhist (st n)) u m
  | ORelease k => 0 < k -> permits init (mhist (st n)) < max -> exists m, (n <= m)%nat /\ adds init (fun n => mhist (st n)) m
  | OTryAcq | OTryUntil => True
  end.
Proof.
  intros init max st lb Hi EX WFR n t [| | |k] P; auto.
  - intros Pos. exact (acquire_progress init max Hi st lb EX WFR n t P Pos).
  - intros Kp Pos. exact (release_progress init max Hi st lb EX WFR n t k P Kp Pos).
Qed.
Print Assumptions sem_progress_partial.

(** try_acquire() always returns. *)
Theorem sem_try_partial : forall init max st lb, 0 <= init <= max -> execution _ _ (sem_step max) (sem_init init) st lb -> weakly_fair _ _ (sem_step max) mwho st lb ->
  forall n t, lb n = Some (MCall t OTryAcq) -> sem_returns (fun n => mhist (st n)) t OTryAcq n.
Proof.
  intros init max st lb Hi EX WFR n t C.
  destruct (call_served _ _ _ _ _ _ _ sop_refl sres_refl _ _ _ st lb EX WFR (fun _ => 0%nat) n t OTryAcq 0%nat C) as (m&r&L&H); [|exists m, r; auto].
  intros k _ _ _ Hin. pose proof (s_thr _ _ _ (sinv_all init max Hi st lb EX k) t) as T. split.
  - intros c p l E. rewrite E in *. simpl in Hin, T. subst p. destruct T as (T1&T2). destruct l; simpl in T1; try contradiction. discriminate.
  - intros l b A. assert (T' : opl (mhist (st k)) t OTryAcq l).
    { destruct (ths (st k) t) as [|p l'|c p l'|c p l'|p r]; simpl in A, Hin, T; try contradiction; subst p l'; tauto. }
    destruct l; simpl in T'; try contradiction. cbn [sem_body]. destruct (dat (st k) =? 0); exact I.
Qed.
Print Assumptions sem_try_partial.

(** ** An acquire() that never returns although permits are there again and again is overtaken again and again.
    Missing: the overtaking is not excluded (see the refutation below). *)
Theorem sem_overtaken_partial : forall init max st lb, 0 <= init <= max -> execution _ _ (sem_step max) (sem_init init) st lb -> weakly_fair _ _ (sem_step max) mwho st lb ->
  forall n t, lb n = Some (MCall t OAcquire) -> ~ sem_returns (fun n => mhist (st n)) t OAcquire n ->
  (forall k, exists m, (k <= m)%nat /\ 0 < permits init (mhist (st m))) ->
  forall k, exists m u, (k <= m)%nat /\ u <> t /\ takes (fun n => mhist (st n)) u m.
Proof.
  intros init max st lb Hi EX WFR n t C NR Pos k.
  pose proof (called _ _ _ _ _ _ _ _ st lb EX n t _ C) as C'.
  assert (In_ : forall m, (n < m)%nat -> inside _ _ _ (ths (st m) t) OAcquire).
  { intros m L. destruct (stays_inside _ _ _ _ _ _ _ sop_refl sres_refl _ _ _ st lb EX _ _ _ C' m L) as [(X&_)|(j&r&A&B)]; auto. exfalso. apply NR. exists j, r. split; [lia|auto]. }
  assert (ND : forall m r, (n < m)%nat -> ths (st m) t <> TDone OAcquire r).
  { intros m r L E. destruct (leaves _ _ _ _ _ _ _ sop_refl sres_refl _ _ _ st lb EX WFR m t _ _ E) as (j&A&B). apply NR. exists j, r. split; [lia|exact B]. }
  destruct (Pos (Nat.max k (S n))) as (m&L&Pm).
  destruct (acquire_progress init max Hi st lb EX WFR m t) as (m'&u&L'&T); [|exact Pm|].
  { rewrite (w_ph (s_wf _ _ _ (sinv_all init max Hi st lb EX m)) t). specialize (In_ m ltac:(lia)).
    destruct (ths (st m) t) as [|o l|c o l|c o l|o r] eqn:E; simpl in *; try contradiction; subst; auto. exfalso. exact (ND m r ltac:(lia) E). }
  exists m', u. split; [lia|]. split; [|exact T]. intros ->. destruct T as (o&r&Hh&_).
  assert (P : phase_of sop_eqb sres_eqb (mhist (st (S m'))) t <> None) by (rewrite (w_ph (s_wf _ _ _ (sinv_all init max Hi st lb EX (S m'))) t); discriminate).
  pose proof (w_ph (s_wf _ _ _ (sinv_all init max Hi st lb EX (S m'))) t) as Q. rewrite Hh in Q. specialize (In_ (S m') ltac:(lia)).
  assert (Z1 : exists r', ths (st (S m')) t = TDone OAcquire r').
  { simpl in Q. unfold phase_step in Q. simpl in Q. rewrite Nat.eqb_refl in Q.
    destruct (phase_of sop_eqb sres_eqb (mhist (st m')) t) as [[|p|p q]|]; simpl in Q; try discriminate.
    destruct (sop_eqb o p); try discriminate. destruct (ths (st (S m')) t) as [|o' l|c o' l|c o' l|o' r'] eqn:E; simpl in *; try contradiction; try discriminate. subst. eauto. }
  destruct Z1 as (r'&Z1). exact (ND (S m') r' ltac:(lia) Z1).
Qed.
Print Assumptions sem_overtaken_partial.

(** ** Refuted: a semaphore with one permit; coroutine 1 releases and acquires again and again, as in a critical section.  Coroutine 0 is in
    acquire(); each release wakes it, and each time it finds that coroutine 1 has taken the permit back.  Everybody who can make a step again
    and again makes steps again and again. *)
Definition b_pre : list (mlbl sop) := [MCall 1%nat OAcquire; MRun 1%nat false; MLeave 1%nat; MCall 0%nat OAcquire; MRun 0%nat false].
Definition b_cyc : list (mlbl sop) := [MCall 1%nat (ORelease 1); MRun 1%nat false; MLeave 1%nat; MCall 1%nat OAcquire; MRun 1%nat false; MLeave 1%nat; MRun 0%nat false].
Definition b_form (h : list sev) : mst Z sop sres saux sloc :=
  mkM 0 (fun t => match t with O => TWait EMPTY OAcquire LAcq | _ => TOut end) (fun c => match c with O => [0%nat] | _ => [] end) (fun _ => []) h.
Definition b_base (s : mst Z sop sres saux sloc) : Prop := exists h, meq _ _ _ _ _ (b_form h) s.
Notation bstep := (sem_step 1).
Notation binit := (sem_init 1).
Lemma b_start : exists s, run bstep binit b_pre = Some s /\ b_base s.
Proof. eexists. split; [vm_compute; reflexivity|]. eexists. split; [reflexivity|]. split; [reflexivity|]. split; [intros [|[|t]]; reflexivity|]. split; intros [|[|c]]; reflexivity. Qed.
Lemma b_next : forall s, b_base s -> exists s', run bstep s b_cyc = Some s' /\ b_base s'.
Proof.
  intros s (h&E). assert (R : exists a, run bstep (b_form h) b_cyc = Some a /\ b_base a).
  { eexists. split; [vm_compute; reflexivity|]. eexists. split; [reflexivity|]. split; [reflexivity|]. split; [intros [|[|t]]; reflexivity|]. split; intros [|[|c]]; reflexivity. }
  destruct R as (a&R&h'&E'). destruct (meq_run _ _ _ _ _ _ _ _ _ _ _ E R) as (s'&R'&E2). exists s'. split; [exact R'|]. exists h'. eapply meq_trans; eauto.
Qed.
Lemma b_ne : b_cyc <> []. Proof. discriminate. Qed.
Definition bst := cst _ _ bstep binit b_pre b_cyc.
Definition blb := clb _ b_pre b_cyc.
Lemma b_exec : execution _ _ bstep binit bst blb.
Proof. exact (cyc_exec _ _ bstep binit b_pre b_cyc b_base b_ne b_start b_next). Qed.
Lemma b_cl : forall k i, (i < 7)%nat -> blb (5 + 7 * k + i) = nth_error b_cyc i.
Proof. intros k i L. exact (clb_cyc _ b_pre b_cyc k i L). Qed.
Lemma b_permit : forall k, 0 < permits 1 (mhist (bst (5 + 7 * k + 2))).
Proof.
  intros k. pose proof (cyc_base _ _ bstep binit b_pre b_cyc b_base b_start b_next k) as (h&E).
  destruct (cyc_seg _ _ bstep binit b_pre b_cyc b_base b_start b_next k 2) as (R&_); [simpl; lia|].
  assert (X : exists a, run bstep (b_form h) (firstn 2 b_cyc) = Some a /\ dat a = 1) by (eexists; split; [vm_compute; reflexivity|reflexivity]).
  destruct X as (a&Ra&Da). destruct (meq_run _ _ _ _ _ _ _ _ _ _ _ E Ra) as (b&Rb&(Eb&_)).
  assert (Q : b = bst (5 + 7 * k + 2)) by (assert (SI : forall A (x y : A), Some x = Some y -> x = y) by congruence; apply SI; rewrite <- Rb; exact R). subst b.
  rewrite <- (s_dat _ _ _ (sinv_all 1 1 ltac:(lia) bst blb b_exec (5 + 7 * k + 2))), <- Eb, Da. lia.
Qed.
Theorem sem_starvation_refuted : exists st lb, execution _ _ (sem_step 1) (sem_init 1) st lb /\ strongly_fair _ _ (sem_step 1) mwho st lb /\
  (forall k, exists m, (k <= m)%nat /\ 0 < permits 1 (mhist (st m))) /\
  exists t n, lb n = Some (MCall t OAcquire) /\ ~ sem_returns (fun n => mhist (st n)) t OAcquire n.
Proof.
  exists bst, blb. pose proof b_exec as EX. split; [exact EX|]. split; [|split].
  - intros t n. destruct (Nat.eq_dec t 0) as [->|N0]; [|destruct (Nat.eq_dec t 1) as [->|N1]].
    + exists (5 + 7 * n + 6)%nat. split; [lia|]. left. exists (MRun 0%nat false). split; [|reflexivity]. rewrite b_cl by lia. reflexivity.
    + exists (5 + 7 * n + 1)%nat. split; [lia|]. left. exists (MRun 1%nat false). split; [|reflexivity]. rewrite b_cl by lia. reflexivity.
    + exists n. split; auto. right. intros k _. apply out_unable. left. apply (never_out _ _ _ _ _ _ _ sop_refl sres_refl _ _ _ bst blb EX t).
      intros j o E. apply clb_in in E. simpl in E. intuition (try discriminate; try congruence).
  - intros k. exists (5 + 7 * k + 2)%nat. split; [lia|]. apply b_permit.
  - exists 0%nat, 3%nat. split; [reflexivity|]. intros (m&r&L&E). apply (ret_label _ _ _ _ _ _ _ sop_refl sres_refl _ _ _ bst blb EX) in E.
    apply clb_in in E. simpl in E. intuition discriminate.
Qed.
Print Assumptions sem_starvation_refuted.
(** The same execution meets the hypotheses of the two theorems above. *)
Example sem_overtaken_case : weakly_fair _ _ (sem_step 1) mwho bst blb /\ blb 3%nat = Some (MCall 0%nat OAcquire) /\
  phase_of sop_eqb sres_eqb (mhist (bst 7%nat)) 0%nat = Some (PPending OAcquire) /\ permits 1 (mhist (bst 7%nat)) = 1 /\ takes (fun n => mhist (bst n)) 1%nat 9%nat.
Proof.
  split; [|split; [reflexivity|split; [vm_compute; reflexivity|split; [vm_compute; reflexivity|]]]].
  - intros t n. destruct (Nat.eq_dec t 0) as [->|N0]; [|destruct (Nat.eq_dec t 1) as [->|N1]].
    + exists (5 + 7 * n + 6)%nat. split; [lia|]. left. exists (MRun 0%nat false). split; [|reflexivity]. rewrite b_cl by lia. reflexivity.
    + exists (5 + 7 * n + 1)%nat. split; [lia|]. left. exists (MRun 1%nat false). split; [|reflexivity]. rewrite b_cl by lia. reflexivity.
    + exists n. split; auto. right. apply out_unable. left. apply (never_out _ _ _ _ _ _ _ sop_refl sres_refl _ _ _ bst blb b_exec t).
      intros j o E. apply clb_in in E. simpl in E. intuition (try discriminate; try congruence).
  - exists OAcquire, ROk. split; vm_compute; reflexivity.
Qed.
(** ... and one in which a release() waits for room, and a try_acquire() is made. *)
Definition r_ls : list (mlbl sop) := [MCall 0%nat (ORelease 1); MRun 0%nat false; MCall 1%nat OAcquire; MRun 1%nat false; MRun 0%nat false; MCall 2%nat OTryAcq; MRun 2%nat false; MLeave 0%nat; MLeave 1%nat; MLeave 2%nat].
Example sem_release_case : exists st lb, execution _ _ (sem_step 1) (sem_init 1) st lb /\ weakly_fair _ _ (sem_step 1) mwho st lb /\
  ths (st 2%nat) 0%nat = TWait FULL (ORelease 1) (LRel 1) /\ lb 5%nat = Some (MCall 2%nat OTryAcq) /\
  phase_of sop_eqb sres_eqb (mhist (st 4%nat)) 0%nat = Some (PPending (ORelease 1)) /\ permits 1 (mhist (st 4%nat)) = 0.
Proof.
  assert (R : exists s, run (sem_step 1) (sem_init 1) r_ls = Some s /\ forall t, ths s t = TOut) by (eexists; split; [vm_compute; reflexivity|intros t; do 3 (destruct t as [|t]; [reflexivity|]); reflexivity]).
  destruct R as (s&R&O). exists (fst_ _ _ (sem_step 1) (sem_init 1) r_ls), (flb _ r_ls). split; [exact (fin_exec _ _ _ _ _ _ R)|].
  split; [apply strong_weak; apply (fin_fair _ _ _ _ _ _ R); intros t; apply out_unable; auto|].
  split; [vm_compute; reflexivity|]. split; [reflexivity|]. split; vm_compute; reflexivity.
Qed.
