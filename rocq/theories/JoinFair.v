(** Joins in fair executions: who holds a lock gives it up, the finishing coroutine comes to its end, and so do the calls. *)
From Coq Require Import List Arith Bool Lia.
From Verif Require Import Base FairSpec JoinSpec JoinModel JoinProofs JoinLive JoinProps.
Import ListNotations.

(** The finishing coroutine is 0, the caller of call j is j + 1. *)
Definition jwho (l : jlbl) : option nat := match l with LFin => Some 0 | LStep j => Some (S j) | _ => None end.

Section JF.
  Variables (c : jcfg) (p0 : nat -> nat) (st : nat -> jst) (lb : nat -> option jlbl).
  Hypothesis EX : execution _ _ (jstep_ok c) (jinit p0) st lb.
  Hypothesis SF : strongly_fair _ _ (jstep_ok c) jwho st lb.
  Hypothesis NT : forall j, timed c j = false.
  Hypothesis NP : forall n j, lb n <> Some (LPre j).

  Lemma jf_inv : forall n, Inv c p0 (st n) /\ pend (st n) = [] /\ forall j, cp (st n) j = CD -> exists r, In (HRet j r) (jh (st n)).
  Proof.
    destruct EX as [E0 E]. induction n as [|n (I&P&D)]; [rewrite E0; split; [apply inv_init|split; [reflexivity|discriminate]]|].
    specialize (E n). specialize (NP n). destruct (lb n) as [l|]; [|now rewrite E]. split; [eapply inv_step; eauto|]. split; [|eapply cd_step; eauto].
    apply (pend_none c [l] (st n)); auto; [simpl; now rewrite E|]. intros j [->|[]]. now apply (NP j).
  Qed.
  Lemma jf_step : forall n, match lb n with Some l => jstep_ok c (st n) l = Some (st (S n)) | None => st (S n) = st n end.
  Proof. exact (proj2 EX). Qed.
  (** A call that has begun stays where it is until it makes a step itself; the same for the finishing coroutine. *)
  Lemma cp_other : forall n j, lb n <> Some (LStep j) -> cp (st n) j <> C0 -> cp (st (S n)) j = cp (st n) j.
  Proof.
    intros n j N Z. assert (E := jf_step n). specialize (NP n). destruct (lb n) as [l|]; [|now rewrite E].
    destruct l; jcases E; js; auto; try (unfold upd; destruct (Nat.eqb_spec j j0); subst; auto; congruence).
  Qed.
  Lemma fp_other : forall n, lb n <> Some LFin -> fp (st n) <> FRun -> fp (st (S n)) = fp (st n).
  Proof.
    intros n N Z. assert (E := jf_step n). destruct (lb n) as [l|]; [|now rewrite E].
    destruct l; jcases E; js; auto; congruence.
  Qed.
  Lemma lb_dec : forall n l, {lb n = Some l} + {lb n <> Some l}.
  Proof. intros n l. decide equality. repeat decide equality. Qed.

  Lemma first_c : forall j p d n, cp (st n) j = p -> p <> C0 -> lb (n + d) = Some (LStep j) -> exists m, n <= m /\ cp (st m) j = p /\ lb m = Some (LStep j).
  Proof.
    induction d as [|d IH]; intros n P Z L; [exists n; rewrite Nat.add_0_r in L; auto|].
    destruct (lb_dec n (LStep j)) as [Y|Y]; [exists n; auto|]. destruct (IH (S n)) as (m&A&B&C).
    - rewrite cp_other; congruence.
    - exact Z.
    - now rewrite Nat.add_succ_comm.
    - exists m. split; [lia|auto].
  Qed.
  Lemma moved_c : forall j d n, cp (st n) j <> C0 -> cp (st (n + d)) j <> cp (st n) j -> exists m, n <= m /\ lb m = Some (LStep j).
  Proof.
    induction d as [|d IH]; intros n Z N; [now rewrite Nat.add_0_r in N|]. destruct (lb_dec n (LStep j)) as [Y|Y]; [exists n; auto|].
    destruct (IH (S n)) as (m&A&B); [rewrite cp_other; auto| |exists m; split; [lia|auto]]. rewrite Nat.add_succ_comm. now rewrite (cp_other n).
  Qed.
  (** A call that can go on again and again goes on. *)
  Lemma go_c : forall j n p, cp (st n) j = p -> p <> C0 -> (forall m, n <= m -> exists k, m <= k /\ (cp (st k) j = p -> able _ _ (jstep_ok c) jwho (st k) (S j))) ->
    exists m, n <= m /\ cp (st m) j = p /\ lb m = Some (LStep j) /\ jstep_ok c (st m) (LStep j) = Some (st (S m)).
  Proof.
    intros j n p P Z A. assert (X : exists m, n <= m /\ lb m = Some (LStep j)).
    { destruct (SF (S j) n) as (m&L&[(l&E&W)|F]).
      - destruct l; try discriminate W. injection W as ->. eauto.
      - destruct (A m L) as (k&K&B). destruct (lb_dec n (LStep j)) as [Y|Y]; [exists n; auto|].
        apply (moved_c j (k - n) n); [congruence|]. replace (n + (k - n)) with k by lia. rewrite P. intros Q. exact (F k K (B Q)). }
    destruct X as (k&K&Y). destruct (first_c j p (k - n) n P Z) as (m&M1&M2&M3); [now replace (n + (k - n)) with k by lia|].
    exists m. repeat (split; auto). assert (E := jf_step m). now rewrite M3 in E.
  Qed.
  Lemma first_f : forall p d n, fp (st n) = p -> p <> FRun -> lb (n + d) = Some LFin -> exists m, n <= m /\ fp (st m) = p /\ lb m = Some LFin.
  Proof.
    induction d as [|d IH]; intros n P Z L; [exists n; rewrite Nat.add_0_r in L; auto|].
    destruct (lb_dec n LFin) as [Y|Y]; [exists n; auto|]. destruct (IH (S n)) as (m&A&B&C).
    - rewrite fp_other; congruence.
    - exact Z.
    - now rewrite Nat.add_succ_comm.
    - exists m. split; [lia|auto].
  Qed.
  Lemma moved_f : forall d n, fp (st n) <> FRun -> fp (st (n + d)) <> fp (st n) -> exists m, n <= m /\ lb m = Some LFin.
  Proof.
    induction d as [|d IH]; intros n Z N; [now rewrite Nat.add_0_r in N|]. destruct (lb_dec n LFin) as [Y|Y]; [exists n; auto|].
    destruct (IH (S n)) as (m&A&B); [rewrite fp_other; auto| |exists m; split; [lia|auto]]. rewrite Nat.add_succ_comm. now rewrite (fp_other n).
  Qed.
  Lemma go_f : forall n p, fp (st n) = p -> p <> FRun -> (forall m, n <= m -> exists k, m <= k /\ (fp (st k) = p -> able _ _ (jstep_ok c) jwho (st k) 0)) ->
    exists m, n <= m /\ fp (st m) = p /\ jstep_ok c (st m) LFin = Some (st (S m)).
  Proof.
    intros n p P Z A. assert (X : exists m, n <= m /\ lb m = Some LFin).
    { destruct (SF 0 n) as (m&L&[(l&E&W)|F]).
      - destruct l; try discriminate W. eauto.
      - destruct (A m L) as (k&K&B). destruct (lb_dec n LFin) as [Y|Y]; [exists n; auto|].
        apply (moved_f (k - n) n); [congruence|]. replace (n + (k - n)) with k by lia. rewrite P. intros Q. exact (F k K (B Q)). }
    destruct X as (k&K&Y). destruct (first_f p (k - n) n P Z) as (m&M1&M2&M3); [now replace (n + (k - n)) with k by lia|].
    exists m. repeat (split; auto). assert (E := jf_step m). now rewrite M3 in E.
  Qed.

  (** ** Locks *)
  Lemma able_c : forall s j s', jstep_ok c s (LStep j) = Some s' -> able _ _ (jstep_ok c) jwho s (S j).
  Proof. intros s j s' E. exists (LStep j), s'. auto. Qed.
  Lemma able_f : forall s s', jstep_ok c s LFin = Some s' -> able _ _ (jstep_ok c) jwho s 0.
  Proof. intros s s' E. exists LFin, s'. auto. Qed.
  (** The holder of finish_lock__ can always go on. *)
  Lemma holder_able : forall n j, chold c j (cp (st n) j) LF = true -> able _ _ (jstep_ok c) jwho (st n) (S j).
  Proof.
    intros n j H. destruct (jf_inv n) as ((O&D&W&P)&_&_). set (s := st n) in *.
    assert (OF : own s LF = Some (ACall j)) by (apply O; exact H).
    assert (OS : forall k, chold c k (cp s k) LF = true -> k = j) by (intros k K; assert (Y : own s LF = Some (ACall k)) by (apply O; exact K); congruence).
    destruct (cp s j) eqn:C; simpl in H; try discriminate H;
      try (assert (G := d_g _ _ _ D j); rewrite C, NT in G; exfalso; assert (false = true) by (apply G; auto); discriminate);
      try (eapply able_c; unfold jstep_ok, jstep, cstep; rewrite C; reflexivity).
    - (* C2 *) assert (F : own s (LS (env c j)) = None).
      { destruct (own s (LS (env c j))) as [a|] eqn:A; auto. apply O in A. destruct a as [|k|k|]; simpl in A; [destruct (fp s); discriminate| |destruct (bp s k); discriminate|destruct (rp s); discriminate].
        assert (k = j) as -> by (apply OS; destruct (cp s k); try discriminate A; reflexivity). rewrite C in A. discriminate. }
      eapply able_c. unfold jstep_ok, jstep, cstep, take, is_free. rewrite C, F. reflexivity.
    - (* C4 *) assert (F : own s LM = None).
      { destruct (own s LM) as [a|] eqn:A; auto. apply O in A. destruct a as [|k|k|]; simpl in A; [| |destruct (bp s k); discriminate|destruct (rp s); discriminate].
        - assert (X := d_not _ _ _ D j). rewrite C in X. specialize (X eq_refl). rewrite (d_fin _ _ _ D) in X. destruct (fp s); discriminate.
        - assert (k = j) as -> by (apply OS; destruct (cp s k); try discriminate A; reflexivity). rewrite C in A. discriminate. }
      eapply able_c. unfold jstep_ok, jstep, cstep, take, is_free. rewrite C, F. reflexivity.
  Qed.
  Definition crank (p : cpc) : nat := match p with C2 => 7 | C3 => 6 | C4 => 5 | C5 => 4 | C8 => 3 | C8b => 2 | C9 => 3 | C9b => 2 | _ => 0 end.
  (** What a step of the holder of finish_lock__ does. *)
  Lemma holder_step : forall n j, chold c j (cp (st n) j) LF = true -> jstep_ok c (st n) (LStep j) = Some (st (S n)) ->
    (chold c j (cp (st (S n)) j) LF = true /\ crank (cp (st (S n)) j) < crank (cp (st n) j) /\
      (forall e, chold c j (cp (st n) j) (LS e) = true -> chold c j (cp (st (S n)) j) (LS e) = true \/ own (st (S n)) (LS e) = None)) \/
    (own (st (S n)) LF = None /\ (cp (st (S n)) j = CP \/ cp (st (S n)) j = CE) /\ forall e, chold c j (cp (st n) j) (LS e) = false).
  Proof.
    intros n j H E. destruct (jf_inv n) as ((O&D&W&P)&_&_). assert (G := d_g _ _ _ D j). rewrite NT in G.
    destruct (cp (st n) j) eqn:C; simpl in H; try discriminate H; try (exfalso; assert (false = true) by (apply G; auto); discriminate);
      unfold jstep_ok, jstep, cstep, take in E; rewrite C in E; rewrite ?NT in E.
    - destruct (is_free _ _); [|discriminate]. injection E as E. rewrite <- E. js. rewrite upd_same. left. simpl. repeat split; auto; try lia; try discriminate.
    - injection E as E. rewrite <- E. left. destruct (fin (st n)); js; rewrite upd_same; simpl; repeat split; auto; lia.
    - destruct (is_free _ _); [|discriminate]. injection E as E. rewrite <- E. js. rewrite upd_same. left. simpl. repeat split; auto; lia.
    - injection E as E. rewrite <- E. js. rewrite upd_same. left. simpl. repeat split; auto; lia.
    - injection E as E. rewrite <- E. js. rewrite upd_same. left. simpl. repeat split; auto; try lia. intros e Q. right. now rewrite Q.
    - injection E as E. rewrite <- E. js. rewrite upd_same. right. simpl. auto.
    - injection E as E. rewrite <- E. js. rewrite upd_same. left. simpl. repeat split; auto; try lia. intros e Q. right. now rewrite Q.
    - injection E as E. rewrite <- E. js. rewrite upd_same. right. simpl. auto.
  Qed.
  Lemma hold_not0 : forall j p l, chold c j p l = true -> p <> C0.
  Proof. intros j p l H ->. destruct l; discriminate H. Qed.
  (** The holder of finish_lock__ gives it up, and comes to wait or to know the result. *)
  Lemma holder_ends : forall r n j, crank (cp (st n) j) <= r -> chold c j (cp (st n) j) LF = true ->
    exists m, n <= m /\ own (st m) LF = None /\ (cp (st m) j = CP \/ cp (st m) j = CE).
  Proof.
    induction r as [|r IH]; intros n j R H;
      (destruct (go_c j n _ eq_refl (hold_not0 _ _ _ H)) as (m&L&C&_&E); [intros m L; exists m; split; auto; intros Q; apply holder_able; now rewrite Q|]);
      assert (H' : chold c j (cp (st m) j) LF = true) by (now rewrite C); destruct (holder_step m j H' E) as [(A&B&_)|(A&B&_)].
    - rewrite C in B. lia.
    - exists (S m). auto.
    - rewrite C in B. destruct (IH (S m) j) as (k&K&X&Y); [lia|exact A|]. exists k. split; [lia|auto].
    - exists (S m). auto.
  Qed.
  Lemma ls_ends : forall e r n j, crank (cp (st n) j) <= r -> chold c j (cp (st n) j) (LS e) = true -> exists m, n <= m /\ own (st m) (LS e) = None.
  Proof.
    assert (U : forall j p e, chold c j p (LS e) = true -> chold c j p LF = true) by (intros j p e Q; destruct p; try discriminate Q; reflexivity).
    induction r as [|r IH]; intros n j R H;
      (destruct (go_c j n _ eq_refl (hold_not0 _ _ _ H)) as (m&L&C&_&E); [intros m L; exists m; split; auto; intros Q; apply holder_able; rewrite Q; eauto|]);
      rewrite <- C in H; destruct (holder_step m j (U _ _ _ H) E) as [(A&B&Y)|(_&_&Y)]; try (rewrite (Y e) in H; discriminate H).
    - rewrite C in B. lia.
    - rewrite C in B. destruct (Y e H) as [Q|Q]; [|exists (S m); auto]. destruct (IH (S m) j) as (k&K&X); [lia|exact Q|]. exists k. split; [lia|auto].
  Qed.
  (** Both kinds of lock are free again and again. *)
  Lemma ls_free : forall e n, exists m, n <= m /\ own (st m) (LS e) = None.
  Proof.
    intros e n. destruct (own (st n) (LS e)) as [a|] eqn:A; [|exists n; auto]. destruct (jf_inv n) as ((O&_)&_&_). apply O in A.
    destruct a as [|k|k|]; simpl in A; [destruct (fp (st n)); discriminate| |destruct (bp (st n) k); discriminate|destruct (rp (st n)); discriminate].
    eapply ls_ends; eauto.
  Qed.
  Lemma lf_free_again : forall n, exists m, n <= m /\ own (st m) LF = None.
  Proof.
    intros n. destruct (own (st n) LF) as [a|] eqn:A; [|exists n; auto]. destruct (jf_inv n) as ((O&_)&_&_). apply O in A.
    destruct a as [|k|k|]; simpl in A; [| |destruct (bp (st n) k); discriminate|destruct (rp (st n)); discriminate].
    - destruct (fp (st n)) eqn:F; try discriminate A. destruct (go_f n FSet F) as (m&L&P&E); [discriminate| |].
      + intros m L. exists m. split; auto. intros Q. eapply able_f. unfold jstep_ok, jstep, fstep. rewrite Q. reflexivity.
      + exists (S m). split; [lia|]. unfold jstep_ok, jstep, fstep in E. rewrite P in E. injection E as E. rewrite <- E. reflexivity.
    - destruct (holder_ends _ n k (le_n _) A) as (m&L&X&_). eauto.
  Qed.

  (** ** The finishing coroutine *)
  Lemma pub_ends : forall d r n, length r <= d -> fp (st n) = FPub r -> exists m, n <= m /\ fp (st m) = FDone.
  Proof.
    induction d as [|d IH]; intros r n L F;
      (destruct (go_f n _ F) as (m&M&P&E); [discriminate|intros m M; exists m; split; auto; intros Q; destruct r; eapply able_f; unfold jstep_ok, jstep, fstep; rewrite Q; reflexivity|]);
      unfold jstep_ok, jstep, fstep in E; rewrite P in E; destruct r as [|j r]; try (simpl in L; lia);
      try (injection E as E; exists (S m); split; [lia|]; rewrite <- E; reflexivity).
    rewrite NT in E. injection E as E. assert (F1 : fp (st (S m)) = FW j r) by (rewrite <- E; reflexivity).
    destruct (go_f _ _ F1) as (m1&M1&P1&E1); [discriminate|intros k K; exists k; split; auto; intros Q; eapply able_f; unfold jstep_ok, jstep, fstep; rewrite Q; reflexivity|].
    unfold jstep_ok, jstep, fstep in E1. rewrite P1 in E1. injection E1 as E1. assert (F2 : fp (st (S m1)) = FK j r) by (rewrite <- E1; reflexivity).
    destruct (go_f _ _ F2) as (m2&M2&P2&E2); [discriminate| |].
    - intros k K. destruct (ls_free (env c j) k) as (k'&K'&X). exists k'. split; auto. intros Q. eapply able_f. unfold jstep_ok, jstep, fstep, during, is_free. rewrite Q, X. reflexivity.
    - unfold jstep_ok, jstep, fstep, during in E2. rewrite P2 in E2. destruct (is_free _ _); [|discriminate]. injection E2 as E2.
      destruct (IH r (S m2)) as (k&K&X); [simpl in L; lia|rewrite <- E2; reflexivity|]. exists k. split; [lia|auto].
  Qed.
  Lemma finish_ends : forall n, fp (st n) = FLk -> exists m, n <= m /\ fp (st m) = FDone.
  Proof.
    intros n F. destruct (go_f _ _ F) as (m&M&P&E); [discriminate| |].
    { intros k K. destruct (lf_free_again k) as (k'&K'&X). exists k'. split; auto. intros Q. destruct (jf_inv k') as (_&PE&_).
      eapply able_f. unfold jstep_ok, jstep, fstep, takef, lf_free, is_free. rewrite Q, X, PE. reflexivity. }
    unfold jstep_ok, jstep, fstep, takef in E. rewrite P in E. destruct (lf_free _ _ _); [|discriminate]. injection E as E. assert (F1 : fp (st (S m)) = FSet) by (rewrite <- E; reflexivity).
    destruct (go_f _ _ F1) as (m1&M1&P1&E1); [discriminate|intros k K; exists k; split; auto; intros Q; eapply able_f; unfold jstep_ok, jstep, fstep; rewrite Q; reflexivity|].
    unfold jstep_ok, jstep, fstep in E1. rewrite P1 in E1. injection E1 as E1. assert (F2 : fp (st (S m1)) = FPubL) by (rewrite <- E1; reflexivity).
    destruct (go_f _ _ F2) as (m2&M2&P2&E2); [discriminate| |].
    - intros k K. exists k. split; auto. intros Q. destruct (jf_inv k) as ((O&D&_)&_&_). assert (X : own (st k) LM = None).
      { destruct (own (st k) LM) as [a|] eqn:A; auto. apply O in A. destruct a as [|i|i|]; simpl in A; [rewrite Q in A; discriminate| |destruct (bp (st k) i); discriminate|destruct (rp (st k)); discriminate].
        assert (X := d_not _ _ _ D i). rewrite (d_fin _ _ _ D), Q in X. destruct (cp (st k) i); try discriminate A. discriminate (X eq_refl). }
      eapply able_f. unfold jstep_ok, jstep, fstep, take, is_free. rewrite Q, X. reflexivity.
    - unfold jstep_ok, jstep, fstep, take in E2. rewrite P2 in E2. destruct (is_free _ _); [|discriminate]. injection E2 as E2.
      destruct (pub_ends _ (subs (st m2)) (S m2) (le_n _)) as (k&K&X); [rewrite <- E2; reflexivity|]. exists k. split; [lia|auto].
  Qed.
  Lemma done_stays : forall n m, n <= m -> fp (st n) = FDone -> fp (st m) = FDone.
  Proof.
    intros n m L F. induction L as [|m L IH]; auto. destruct (lb_dec m LFin) as [Y|Y]; [|rewrite fp_other; congruence].
    assert (E := jf_step m). rewrite Y in E. unfold jstep_ok, jstep, fstep in E. rewrite IH in E. discriminate.
  Qed.

  (** ** The calls *)
  Lemma result_returns : forall n j, cp (st n) j = CE -> exists m, n <= m /\ cp (st m) j = CD.
  Proof.
    intros n j F. destruct (go_c j n _ F) as (m&M&P&_&E); [discriminate|intros k K; exists k; split; auto; intros Q; eapply able_c; unfold jstep_ok, jstep, cstep; rewrite Q; reflexivity|].
    unfold jstep_ok, jstep, cstep in E. rewrite P in E. destruct (exc (st m)) as [e|]; injection E as E.
    - assert (F1 : cp (st (S m)) j = CE2 e) by (rewrite <- E; js; apply upd_same).
      destruct (go_c j (S m) _ F1) as (m1&M1&P1&_&E1); [discriminate|intros k K; exists k; split; auto; intros Q; eapply able_c; unfold jstep_ok, jstep, cstep; rewrite Q; reflexivity|].
      unfold jstep_ok, jstep, cstep in E1. rewrite P1 in E1. injection E1 as E1. exists (S m1). split; [lia|]. rewrite <- E1. js. apply upd_same.
    - exists (S m). split; [lia|]. rewrite <- E. js. apply upd_same.
  Qed.
  Lemma wait_returns : forall d n j, fp (st d) = FDone -> cp (st n) j = CP -> exists m, n <= m /\ cp (st m) j = CD.
  Proof.
    intros d n j FD F. destruct (go_c j n _ F) as (m&M&P&_&E); [discriminate| |].
    - intros k K. exists (k + d). split; [lia|]. intros Q. assert (F' := done_stays d (k + d) ltac:(lia) FD). destruct (jf_inv (k + d)) as ((O&D&W&_)&_&_).
      assert (X : wt (st (k + d)) j = false).
      { destruct (wt (st (k + d)) j) eqn:Y; auto. destruct (w_todo _ _ W j Y) as [Z|[Z|[Z|Z]]]; try congruence.
        - unfold todo in Z. rewrite F' in Z. destruct Z.
        - assert (N : bp (st (k + d)) j <> BN) by congruence. apply (d_b _ _ _ D) in N. rewrite NT in N. destruct N. discriminate. }
      eapply able_c. unfold jstep_ok, jstep, cstep. rewrite Q, X. reflexivity.
    - unfold jstep_ok, jstep, cstep in E. rewrite P, NT in E. destruct (wt _ _); [discriminate|]. injection E as E.
      destruct (result_returns (S m) j) as (k&K&X); [rewrite <- E; js; apply upd_same|]. exists k. split; [lia|auto].
  Qed.
  (** A call comes to the place where it waits for the end, or has its result. *)
  Lemma call_waits : forall n j, cp (st n) j = C1 -> exists m, n <= m /\ (cp (st m) j = CP \/ cp (st m) j = CE).
  Proof.
    intros n j F. destruct (go_c j n _ F) as (m&M&P&_&E); [discriminate| |].
    - intros k K. destruct (lf_free_again k) as (k'&K'&X). exists k'. split; auto. intros Q. destruct (jf_inv k') as (_&PE&_).
      eapply able_c. unfold jstep_ok, jstep, cstep, takef, lf_free, is_free. rewrite Q, X, PE. reflexivity.
    - unfold jstep_ok, jstep, cstep, takef in E. rewrite P in E. destruct (lf_free _ _ _); [|discriminate]. injection E as E.
      destruct (holder_ends _ (S m) j (le_n _)) as (k&K&_&X); [rewrite <- E; js; rewrite upd_same; reflexivity|]. exists k. split; [lia|auto].
  Qed.
  Lemma call_returns : forall n j d r, lb d = Some (LEnd r) -> lb n = Some (LCall j) -> exists m r, n < m /\ In (HRet j r) (jh (st m)).
  Proof.
    intros n j d r D L. assert (E := jf_step n). rewrite L in E. assert (E1 := jf_step d). rewrite D in E1.
    destruct (finish_ends (S d)) as (f&_&FD); [jcases E1; js; reflexivity|].
    destruct (call_waits (S n) j) as (m&M&X); [jcases E; js; apply upd_same|].
    assert (Y : exists k, m <= k /\ cp (st k) j = CD) by (destruct X as [X|X]; [now apply (wait_returns f)|now apply result_returns]).
    destruct Y as (k&K&Y). destruct (jf_inv k) as (_&_&Z). destruct (Z j Y) as (r'&R). exists k, r'. split; [lia|exact R].
  Qed.
End JF.
