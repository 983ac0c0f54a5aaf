(** C129: in a fair execution a pipeline over a source that ends comes to its end, and the reader has the whole result. *)
From Coq Require Import List Arith Bool Lia.
From Verif Require Import Base FairSpec PipeSpec PipeModel PipeProofs PipeLive PipeProps.
Import ListNotations.

(** Steps made before moment n. *)
Fixpoint made (lb : nat -> option lbl) (n : nat) : nat := match n with 0 => 0 | S m => made lb m + match lb m with Some _ => 1 | None => 0 end end.

Section End_.
  Variables (V : Type) (src : list V) (sz : size) (sts : list (stage V)) (who : lbl -> option nat).
  Notation step := (pstep V (nth_error src) sz sts).
  Hypothesis OK : Forall stage_ok sts.
  Hypothesis Z : sz_ok sz.
  Hypothesis WHO : forall l, l <> RClose -> who l <> None.
  Variables (st : nat -> pst V) (lb : nat -> option lbl).
  Hypothesis EX : execution (pst V) lbl step (pinit V sts) st lb.
  Hypothesis WF : weakly_fair (pst V) lbl step who st lb.
  Lemma made_run : forall n, exists ls, run step (pinit V sts) ls = Some (st n) /\ length ls = made lb n.
  Proof.
    destruct EX as [E0 E]. induction n as [|n (ls&R&L)]; [exists []; rewrite E0; auto|]. specialize (E n). simpl. destruct (lb n) as [l|].
    - exists (ls ++ [l]). rewrite run_app, R. simpl. rewrite E, app_length, L. auto.
    - exists ls. rewrite E, L. auto.
  Qed.
  Lemma made_mono : forall n m, n <= m -> made lb n <= made lb m.
  Proof. intros n m L. induction L; simpl; lia. Qed.
  Lemma made_same : forall n m, n <= m -> made lb m = made lb n -> st m = st n.
  Proof.
    intros n m L. induction L as [|m L IH]; [auto|]. simpl. intros H. pose proof (made_mono n m L). destruct EX as [_ E]. specialize (E m).
    destruct (lb m); [lia|]. rewrite E. apply IH. lia.
  Qed.
  Lemma goes_on : forall n, rend V (st n) = false -> exists m, n <= m /\ made lb n < made lb m.
  Proof.
    intros n R. destruct (made_run n) as (ls&H&_). destruct (pipe_never_stuck _ _ _ _ _ _ OK Z H R) as (a&A&B).
    destruct (who a) as [t|] eqn:W; [|now destruct (WHO a A)]. destruct (WF t n) as (m&L&[(l&E&_)|D]).
    - exists (S m). split; [lia|]. pose proof (made_mono n m L). simpl. rewrite E. lia.
    - exists m. split; auto. pose proof (made_mono n m L). destruct (Nat.eq_dec (made lb m) (made lb n)) as [E|E]; [|lia].
      exfalso. apply D. rewrite (made_same n m L E). destruct (step (st n) a) as [s'|] eqn:F; [|congruence]. now exists a, s'.
  Qed.
  Lemma reaches_end : exists n, rend V (st n) = true.
  Proof.
    destruct (pipe_finite V src sz sts OK) as (b&HB). assert (BD : forall n, made lb n <= b) by (intros n; destruct (made_run n) as (ls&H&<-); eauto).
    assert (G : forall d n, b - made lb n <= d -> exists m, rend V (st m) = true).
    { induction d as [|d IH]; intros n L; (destruct (rend V (st n)) eqn:R; [now exists n|]); destruct (goes_on n R) as (m&Lm&H); pose proof (BD m).
      - lia. - apply (IH m). lia. }
    apply (G b 0). lia.
  Qed.
End End_.

(** Any stages, forks too; any division of the steps among coroutines, as long as each step but the reader's close is somebody's. *)
Theorem pipe_fair_end : forall V src sz (sts : list (stage V)) who st lb, Forall stage_ok sts -> sz_ok sz ->
  (forall l, l <> RClose -> who l <> None) ->
  execution (pst V) lbl (pstep V (nth_error src) sz sts) (pinit V sts) st lb ->
  weakly_fair (pst V) lbl (pstep V (nth_error src) sz sts) who st lb -> (forall n, lb n <> Some RClose) ->
  exists n, rend V (st n) = true /\ pipe_rel sts src (got V (st n)).
Proof.
  intros V src sz sts who st lb OK Z WHO EX WF NC. destruct (reaches_end V src sz sts who OK Z WHO st lb EX WF) as (n&R). exists n. split; auto.
  destruct (made_run V src sz sts st lb EX n) as (ls&H&_). destruct (v_end _ _ _ _ _ (pipe_inv _ _ _ _ OK _ _ H) R). eapply pipe_complete; eauto.
  clear - EX NC. destruct EX as [E0 E]. induction n as [|n IH]; [now rewrite E0|]. specialize (E n). destruct (lb n) as [l|] eqn:L; [|now rewrite E].
  assert (NL : l <> RClose) by (intros ->; now apply (NC n)). rewrite <- IH. revert E. generalize (st n) (st (S n)). clear - NL. intros s s' E.
  destruct l as [|k j| |]; [| | |congruence]; cbn [pstep] in E; unfold step_src, step_stage in E.
  all: repeat match type of E with Some _ = Some _ => injection E as <-; reflexivity | None = Some _ => discriminate E | context[match ?x with _ => _ end] => destruct x eqn:? end.
Qed.
Print Assumptions pipe_fair_end.

(** With a reader that may close the channel: the reader still sees the end, having got a beginning of the result. *)
Theorem pipe_fair_stops : forall V src sz (sts : list (stage V)) who st lb, Forall stage_ok sts -> sz_ok sz ->
  (forall l, l <> RClose -> who l <> None) ->
  execution (pst V) lbl (pstep V (nth_error src) sz sts) (pinit V sts) st lb ->
  weakly_fair (pst V) lbl (pstep V (nth_error src) sz sts) who st lb ->
  exists n rest, rend V (st n) = true /\ pipe_rel sts src (got V (st n) ++ rest).
Proof.
  intros V src sz sts who st lb OK Z WHO EX WF. destruct (reaches_end V src sz sts who OK Z WHO st lb EX WF) as (n&R). exists n.
  destruct (made_run V src sz sts st lb EX n) as (ls&H&_). destruct (pipe_prefix V src sz sts ls _ OK H) as (rest&P). now exists rest.
Qed.
Print Assumptions pipe_fair_stops.

(** The hypotheses can be met: two items through a fork of two workers (fork_ls of PipeProps.v), then nothing more. *)
Definition ewho (l : lbl) : option nat := match l with RClose => None | _ => Some 0 end.
Definition estep := pstep nat (nth_error [10;20]) Unlimited fork_sts.
Fixpoint eat (s : pst nat) (ls : list lbl) (n : nat) : pst nat :=
  match n, ls with S m, l :: r => match estep s l with Some s' => eat s' r m | None => s end | _, _ => s end.
Definition elb (n : nat) : option lbl := nth_error fork_ls n.
Lemma eat_exec : forall ls s, run estep s ls <> None ->
  forall n, match nth_error ls n with Some l => estep (eat s ls n) l = Some (eat s ls (S n)) | None => eat s ls (S n) = eat s ls n end.
Proof.
  induction ls as [|l ls IH]; intros s H n; [now destruct n|]. simpl in H. destruct (estep s l) as [s'|] eqn:E; [|congruence]. destruct n as [|n].
  - simpl. rewrite E. now destruct ls.
  - specialize (IH s' H n). cbn [nth_error]. change (eat s (l :: ls) (S (S n))) with (match estep s l with Some s' => eat s' ls (S n) | None => s end).
    change (eat s (l :: ls) (S n)) with (match estep s l with Some s' => eat s' ls n | None => s end). rewrite E. exact IH.
Qed.
Lemma eat_end : forall ls s s', run estep s ls = Some s' -> forall n, length ls <= n -> eat s ls n = s'.
Proof.
  induction ls as [|l ls IH]; intros s s' H n L; [injection H as <-; now destruct n|]. simpl in H, L. destruct n as [|n]; [lia|]. simpl.
  destruct (estep s l) as [s1|]; [|discriminate]. apply IH; auto. lia.
Qed.
Example pipe_fair_end_example : Forall stage_ok fork_sts /\ sz_ok Unlimited /\ (forall l, l <> RClose -> ewho l <> None) /\
  execution (pst nat) lbl estep (pinit nat fork_sts) (eat (pinit nat fork_sts) fork_ls) elb /\
  weakly_fair (pst nat) lbl estep ewho (eat (pinit nat fork_sts) fork_ls) elb /\ (forall n, elb n <> Some RClose) /\
  got nat (eat (pinit nat fork_sts) fork_ls (length fork_ls)) = [21; 11].
Proof.
  split; [repeat constructor|]. split; [exact I|]. split; [intros []; simpl; congruence|]. split; [|split; [|split]].
  - split; [reflexivity|]. apply eat_exec. vm_compute. discriminate.
  - intros t n. destruct (run estep (pinit nat fork_sts) fork_ls) as [s'|] eqn:E; [|vm_compute in E; discriminate].
    exists (n + length fork_ls). split; [lia|]. right. rewrite (eat_end _ _ _ E) by lia. vm_compute in E. injection E as <-. intros (l&s2&W&S2).
    destruct l as [|k j| |]; try discriminate. destruct k as [|k]; [destruct j as [|[|[|j]]]; discriminate|destruct k; discriminate].
  - intros n H. apply nth_error_In in H. vm_compute in H. repeat (destruct H as [H|H]; [discriminate|]). exact H.
  - reflexivity.
Qed.
