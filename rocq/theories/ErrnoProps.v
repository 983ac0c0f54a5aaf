(** C123: an I/O call looks at the error number of its own system call. *)
From Coq Require Import List Arith ZArith Bool Lia.
From Verif Require Import Base IoSpec IoModel.
From Verif Require Import ErrnoModel.
Import ListNotations.

(** REFUTED, first way: the call would have blocked; before errno is looked at, the coroutine is preempted, and the next one on the thread meets an
    error.  The call fails though nothing failed. *)
Theorem errno_same_thread_refuted : exists s,
  run (estep retry_io false false (fun _ => 0)) (einit (fun _ => EOTHER 0))
    [ESwitch 0 1; EBegin 1; ESys 1 (Err EAGAIN); ESwitch 0 2; EBegin 2; ESys 2 (Err (EOTHER 9)); EJudge 2; ESwitch 0 1; EJudge 1] = Some s /\
  answers s 1 = [Err EAGAIN] /\ eph_of s 1 = XDone (-1)%Z /\ ~ truthful blocks (answers s 1) (-1)%Z.
Proof.
  eexists. split; [vm_compute; reflexivity|]. split; [reflexivity|]. split; [reflexivity|]. intros (es&a&E&_&H).
  destruct es as [|e [|e' es]]; [|discriminate E|discriminate E]. injection E as <-. destruct H as [H _]. apply H. now left.
Qed.
Print Assumptions errno_same_thread_refuted.
(** With moving corrected (C44) there is another way: it comes to another thread, where errno is another one. *)
Theorem errno_moved_refuted : exists s,
  run (estep retry_io false true (fun _ => 0)) (einit (fun _ => EOTHER 0))
    [ESwitch 0 1; EBegin 1; ESys 1 (Err EAGAIN); ESwitch 0 2; ESwitch 7 1; EJudge 1] = Some s /\
  answers s 1 = [Err EAGAIN] /\ eph_of s 1 = XDone (-1)%Z /\ at_ s 1 = Some 7 /\ ~ truthful blocks (answers s 1) (-1)%Z.
Proof.
  eexists. split; [vm_compute; reflexivity|]. do 3 (split; [reflexivity|]). intros (es&a&E&_&H).
  destruct es as [|e [|e' es]]; [|discriminate E|discriminate E]. injection E as <-. destruct H as [H _]. apply H. now left.
Qed.
Print Assumptions errno_moved_refuted.
(** Second way: a real error is taken for "would block", and the call is made again: the error is lost. *)
Theorem errno_lost_refuted : exists s,
  run (estep retry_io false false (fun _ => 0)) (einit (fun _ => EOTHER 0))
    [ESwitch 0 1; EBegin 1; ESys 1 (Err (EOTHER 5)); ESwitch 0 2; EBegin 2; ESys 2 (Err EAGAIN); ESwitch 0 1; EJudge 1; ESys 1 (Ret 4); EJudge 1] = Some s /\
  answers s 1 = [Err (EOTHER 5); Ret 4] /\ eph_of s 1 = XDone 4%Z /\ ~ truthful blocks (answers s 1) 4%Z.
Proof.
  eexists. split; [vm_compute; reflexivity|]. split; [reflexivity|]. split; [reflexivity|]. intros (es&a&E&T&H).
  destruct es as [|e es]; [discriminate E|]. injection E as <- _. destruct (T (EOTHER 5) (or_introl eq_refl)); discriminate.
Qed.
Print Assumptions errno_lost_refuted.

Lemma toint_ok : forall n, (Z.of_nat n <= maxrw)%Z -> toint n = Z.of_nat n /\ toint n <> (-1)%Z.
Proof.
  intros n H. unfold maxrw in H. unfold toint. cbv zeta. rewrite Z.mod_small by lia. destruct (Z.ltb_spec (Z.of_nat n) 2147483648); lia.
Qed.

(** What each coroutine has got so far. *)
Definition got_ok (g : errno -> Prop) (p : eph) (l : list ans) : Prop :=
  match p with
  | XIdle => l = []
  | XSys => exists es, l = map Err es /\ forall e, In e es -> g e
  | XJudge ret => exists es a, l = map Err es ++ [a] /\ (forall e, In e es -> g e) /\
      match a with Ret n => ret = Z.of_nat n /\ (Z.of_nat n <= maxrw)%Z | Err e => ret = (-1)%Z end
  | XDone r => exists es a, l = map Err es ++ [a] /\ (forall e, In e es -> g e) /\ match a with Ret n => r = Z.of_nat n | Err e => r = (-1)%Z end
  end.
Lemma part_step : forall retry gd mv home s l s', (forall c, got_ok (fun _ => True) (eph_of s c) (answers s c)) -> estep retry gd mv home s l = Some s' ->
  forall c, got_ok (fun _ => True) (eph_of s' c) (answers s' c).
Proof.
  intros retry gd mv home s l s' H E x. destruct l as [c|c a|c|c e|t c]; simpl in E.
  - destruct (at_ s c), (eph_of s c) eqn:P; try discriminate. injection E as <-. simpl. destruct (Nat.eq_dec x c) as [->|N]; [|rewrite upd_other by auto; apply H].
    rewrite upd_same. specialize (H c). rewrite P in H. simpl in H. exists []. now rewrite H.
  - destruct (at_ s c) as [t|], (eph_of s c) eqn:P; try discriminate. destruct (match a with Ret n => _ | Err _ => true end) eqn:Q; [|discriminate].
    destruct (sysret a (errs s t)) as [ret e] eqn:R. injection E as <-. simpl. destruct (Nat.eq_dec x c) as [->|N]; [|rewrite !upd_other by auto; apply H].
    rewrite !upd_same. specialize (H c). rewrite P in H. destruct H as (es&->&F). exists es, a. split; [reflexivity|]. split; [exact F|].
    destruct a as [n|e']; simpl in R; injection R as <- <-; [|reflexivity]. apply Z.leb_le in Q. split; [now apply toint_ok|exact Q].
  - destruct (at_ s c) as [t|], (eph_of s c) as [| |ret|] eqn:P; try discriminate. injection E as <-. simpl.
    destruct (Nat.eq_dec x c) as [->|N]; [|rewrite !upd_other by auto; apply H]. rewrite upd_same. specialize (H c). rewrite P in H. destruct H as (es&a&->&F&A).
    unfold round. destruct a as [n|e].
    + destruct A as [-> L]. replace (Z.of_nat n =? -1)%Z with false by (symmetry; apply Z.eqb_neq; lia). exists es, (Ret n). auto.
    + subst ret. simpl. destruct (retry (errs s t)); [|exists es, (Err e); auto]. exists (es ++ [e]). rewrite map_app. auto.
  - destruct (at_ s c) as [t|], (eph_of s c); try discriminate; injection E as <-; apply H.
  - destruct (match run_on s t with Some d => _ | None => false end); [discriminate|]. destruct (at_ s c), (mv || (home c =? t)); try discriminate. injection E as <-. apply H.
Qed.
(** What holds with preemption anywhere: a result other than -1 is the result of the call's last system call, -1 is returned only if that failed, and
    all system calls before failed. *)
Theorem errno_partial : forall retry mv home e0 ls s c r, run (estep retry false mv home) (einit e0) ls = Some s -> eph_of s c = XDone r ->
  exists es a, answers s c = map Err es ++ [a] /\ match a with Ret n => r = Z.of_nat n | Err _ => r = (-1)%Z end.
Proof.
  intros retry mv home e0 ls s c r R D. assert (H : forall c, got_ok (fun _ => True) (eph_of s c) (answers s c)).
  { revert R. apply (run_inv (estep retry false mv home) (fun s => forall c, got_ok (fun _ => True) (eph_of s c) (answers s c))); [intros d; reflexivity|].
    intros s1 l s2 K E. eapply part_step; eassumption. }
  specialize (H c). rewrite D in H. destruct H as (es&a&E&_&A). eauto.
Qed.
Print Assumptions errno_partial.

(** With preemption closed in between the claim holds in all executions, whether coroutines move or not. *)
Section G.
  Variable retry : errno -> bool.
  Variable mv : bool.
  Variable home : nat -> nat.
  Record GI (s : est) : Prop := mkGI {
    g_at : forall c t, at_ s c = Some t <-> run_on s t = Some c;
    g_ok : forall c, got_ok (fun e => retry e = true) (match eph_of s c with XDone _ => XIdle | p => p end) (match eph_of s c with XDone _ => [] | _ => answers s c end);
    g_j : forall c ret, eph_of s c = XJudge ret -> exists t es a, at_ s c = Some t /\ answers s c = es ++ [a] /\ forall e, a = Err e -> errs s t = e;
    g_d : forall c r, eph_of s c = XDone r -> truthful (fun e => retry e = true) (answers s c) r }.
  Lemma gi_init : forall e0, GI (einit e0).
  Proof. intros e0. constructor; simpl; try discriminate. - intros c t. split; discriminate. - reflexivity. Qed.
  Lemma gi_step : forall s l s', GI s -> estep retry true mv home s l = Some s' -> GI s'.
  Proof.
    intros s l s' [H1 H2 H3 H4] E. destruct l as [c|c a|c|c e|t c]; simpl in E.
    - destruct (at_ s c) eqn:Q, (eph_of s c) eqn:P; try discriminate. injection E as <-.
      constructor; simpl; [exact H1|intros x|intros x ret|intros x r]; (destruct (Nat.eq_dec x c) as [->|N]; [rewrite upd_same|rewrite upd_other by auto]);
        try discriminate; try apply H2; try apply H3; try apply H4. specialize (H2 c). rewrite P in H2. simpl in *. exists []. now rewrite H2.
    - destruct (at_ s c) as [t|] eqn:Q, (eph_of s c) eqn:P; try discriminate. destruct (match a with Ret n => _ | Err _ => true end) eqn:M; [|discriminate].
      destruct (sysret a (errs s t)) as [ret e] eqn:R. injection E as <-. constructor; simpl; [exact H1|intros x|intros x ret'|intros x r].
      + destruct (Nat.eq_dec x c) as [->|N]; [rewrite !upd_same|rewrite !upd_other by auto; apply H2]. specialize (H2 c). rewrite P in H2. destruct H2 as (es&->&F).
        exists es, a. split; [reflexivity|]. split; [exact F|]. destruct a as [n|e']; simpl in R; injection R as <- <-; [|reflexivity].
        apply Z.leb_le in M. split; [now apply toint_ok|exact M].
      + destruct (Nat.eq_dec x c) as [->|N]; [rewrite !upd_same|rewrite !upd_other by auto].
        * intros _. exists t, (answers s c), a. split; [exact Q|]. split; [reflexivity|]. intros e' ->. simpl in R. injection R as _ <-. now rewrite upd_same.
        * intros J. destruct (H3 x ret' J) as (u&es&b&A1&A2&A3). exists u, es, b. split; [exact A1|]. split; [exact A2|]. intros e' K.
          rewrite upd_other; [now apply A3|]. intros ->. apply H1 in A1, Q. congruence.
      + destruct (Nat.eq_dec x c) as [->|N]; [rewrite !upd_same; discriminate|rewrite !upd_other by auto; apply H4].
    - destruct (at_ s c) as [t|] eqn:Q, (eph_of s c) as [| |ret|] eqn:P; try discriminate. injection E as <-.
      assert (A := H2 c). rewrite P in A. destruct A as (es&a&A1&A2&A3). destruct (H3 c ret P) as (u&es'&a'&B1&B2&B3).
      assert (u = t) by congruence. subst u. rewrite A1 in B2. apply app_inj_tail in B2. destruct B2 as [_ <-].
      constructor; simpl; [exact H1|intros x|intros x ret'|intros x r]; (destruct (Nat.eq_dec x c) as [->|N]; [rewrite !upd_same|rewrite !upd_other by auto]);
        try (apply H2); try (apply H3); try (apply H4); unfold round; destruct a as [n|e].
      + destruct A3 as [-> L]. replace (Z.of_nat n =? -1)%Z with false by (symmetry; apply Z.eqb_neq; lia). reflexivity.
      + subst ret. simpl. rewrite (B3 e eq_refl). destruct (retry e) eqn:Y; [|reflexivity]. exists (es ++ [e]). rewrite A1, map_app. split; [reflexivity|].
        intros e' I. apply in_app_or in I. destruct I as [I|[<-|[]]]; auto.
      + destruct A3 as [-> L]. replace (Z.of_nat n =? -1)%Z with false by (symmetry; apply Z.eqb_neq; lia). discriminate.
      + subst ret. simpl. destruct (retry (errs s t)); discriminate.
      + destruct A3 as [-> L]. replace (Z.of_nat n =? -1)%Z with false by (symmetry; apply Z.eqb_neq; lia). intros F. injection F as <-. exists es, (Ret n). auto.
      + subst ret. simpl. rewrite (B3 e eq_refl). destruct (retry e) eqn:Y; [discriminate|]. intros F. injection F as <-. exists es, (Err e).
        split; [exact A1|]. split; [exact A2|]. split; [congruence|reflexivity].
    - destruct (at_ s c) as [t|] eqn:Q; [|discriminate].
      assert (K : match eph_of s c with XIdle | XDone _ => True | _ => False end /\ s' = mkE (upd (errs s) t e) (run_on s) (at_ s) (eph_of s) (answers s))
        by (destruct (eph_of s c); try discriminate; injection E as <-; auto). destruct K as [K ->].
      constructor; simpl; auto. intros x ret J. destruct (H3 x ret J) as (u&es&b&A1&A2&A3). exists u, es, b. split; [exact A1|]. split; [exact A2|]. intros e' F.
      rewrite upd_other; [now apply A3|]. intros ->. apply H1 in A1, Q. assert (x = c) by congruence. subst x. now rewrite J in K.
    - destruct (match run_on s t with Some d => _ | None => false end) eqn:G; [discriminate|]. destruct (at_ s c) eqn:Q, (mv || (home c =? t)); try discriminate. injection E as <-.
      assert (N : forall u, run_on s u <> Some c) by (intros u F; apply H1 in F; congruence).
      constructor; simpl; auto.
      + intros x u. destruct (Nat.eq_dec x c) as [->|Nx].
        * rewrite upd_same. destruct (Nat.eq_dec u t) as [->|Nu]; [rewrite upd_same; tauto|]. rewrite upd_other by auto. split; [congruence|intros F; now apply N in F].
        * rewrite upd_other by auto. destruct (Nat.eq_dec u t) as [->|Nu].
          -- rewrite upd_same. split; [|congruence]. destruct (run_on s t) as [d|] eqn:W.
             ++ destruct (Nat.eq_dec x d) as [->|Nd]; [rewrite upd_same; discriminate|rewrite upd_other by auto]. intros F. apply H1 in F. congruence.
             ++ intros F. apply H1 in F. congruence.
          -- rewrite upd_other by auto. destruct (run_on s t) as [d|] eqn:W; [|apply H1].
             destruct (Nat.eq_dec x d) as [->|Nd]; [rewrite upd_same|rewrite upd_other by auto; apply H1].
             split; [discriminate|]. intros F. apply H1 in F, W. congruence.
      + intros x ret J. destruct (H3 x ret J) as (u&es&b&A1&A2&A3). exists u, es, b. split; [|auto]. rewrite upd_other by congruence.
        destruct (run_on s t) as [d|]; [|exact A1]. destruct (Nat.eq_dec x d) as [->|Nd]; [rewrite J in G; discriminate G|now rewrite upd_other].
  Qed.
End G.
Theorem errno_corrected_all : forall retry mv home e0 ls s c r, run (estep retry true mv home) (einit e0) ls = Some s -> eph_of s c = XDone r ->
  truthful (fun e => retry e = true) (answers s c) r.
Proof.
  intros retry mv home e0 ls s c r R D. assert (H : GI retry s) by (revert R; apply run_inv; [apply gi_init|apply gi_step]). now apply (g_d _ _ H).
Qed.
Print Assumptions errno_corrected_all.
(** Two coroutines on one thread, the first one waiting once and moved to another thread. *)
Example errno_example : exists s,
  run (estep retry_io true true (fun _ => 0)) (einit (fun _ => EOTHER 0))
    [ESwitch 0 1; EBegin 1; ESys 1 (Err EAGAIN); EJudge 1; ESwitch 0 2; EBegin 2; ESys 2 (Err (EOTHER 9)); EJudge 2; ESwitch 7 1; ESys 1 (Ret 3); EJudge 1] = Some s /\
  eph_of s 1 = XDone 3%Z /\ eph_of s 2 = XDone (-1)%Z /\
  run (estep retry_io true true (fun _ => 0)) (einit (fun _ => EOTHER 0)) [ESwitch 0 1; EBegin 1; ESys 1 (Err EAGAIN); ESwitch 0 2] = None.
Proof. eexists. split; [vm_compute; reflexivity|]. repeat split. Qed.
