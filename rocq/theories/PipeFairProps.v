(** C128: a pipeline of maps over a source without end gives its reader every item. *)
From Coq Require Import List Arith Bool Lia.
From Verif Require Import Base FairSpec PipeSpec PipeModel PipeProofs PipeLive PipeProps.
From Verif Require Import PipeFair.
Import ListNotations.

(** One item through all stages, first stage first. *)
Definition through {V} (fs : list (V -> V)) (x : V) : V := fold_left (fun y f => f y) fs x.

Lemma fun_maps : forall V (fs : list (V -> V)) l, pipe_fun (map SMap fs) l = map (through fs) l.
Proof.
  intros V fs. induction fs as [|f fs IH]; intros l; [symmetry; apply map_id|]. unfold pipe_fun in *. cbn [map fold_left stage_fun]. rewrite IH, map_map. reflexivity.
Qed.
Section Content.
  Variables (V : Type) (g : nat -> V) (sz : size) (fs : list (V -> V)).
  Notation sts := (map (@SMap V) fs).
  Notation step := (pstep V (fun i => Some (g i)) sz sts).
  Hypothesis SZ : forall n, sz = Fixed n -> 0 < n.
  Lemma cnt_act : forall s l s', act V sz fs s l s' -> cnt V (stg V s' 0) <= S (cnt V (stg V s 0)).
  Proof. intros s l s' A. destruct A; cbn; unfold upd; simpl; lia. Qed.
  Lemma as_list : forall ls s, run step (pinit V sts) ls = Some s -> ~ In RClose ls -> forall K, length ls <= K ->
    run (pstep V (nth_error (map g (seq 0 K))) sz sts) (pinit V sts) ls = Some s /\ PInv V sz fs s /\ cnt V (stg V s 0) <= length ls.
  Proof.
    induction ls as [|l ls IH] using rev_ind; intros s H NI K L.
    - injection H as <-. split; [reflexivity|]. split; [now apply pinv_init|]. simpl. lia.
    - rewrite app_length in *. simpl in *. rewrite run_app in H |- *. destruct (run step (pinit V sts) ls) as [s0|] eqn:E; [|discriminate]. simpl in H.
      destruct (step s0 l) as [s1|] eqn:E1; [|discriminate]. injection H as <-. destruct (IH s0 eq_refl) with (K := K) as (R&I&C); [intros X; apply NI, in_app_iff; auto|lia|].
      assert (NL : l <> RClose) by (intros ->; apply NI, in_app_iff; simpl; auto).
      assert (GEN : forall i, (fun i => Some (g i)) i <> None) by discriminate.
      split; [|split; [eapply (pinv_step V _ sz fs GEN SZ); eauto|]].
      + rewrite R. simpl. replace (pstep V (nth_error (map g (seq 0 K))) sz sts s0 l) with (step s0 l); [now rewrite E1|].
        destruct l; try reflexivity. cbn [pstep]. unfold step_src. destruct (cts V (stg V s0 0) 0); try reflexivity.
        rewrite nth_error_map. rewrite (nth_error_nth' (seq 0 K) 0) by (rewrite seq_length; lia). rewrite seq_nth by lia. reflexivity.
      + pose proof (cnt_act _ _ _ (step_act V _ sz fs GEN SZ _ _ _ I NL E1)). lia.
  Qed.
  Lemma got_prefix : forall ls s, run step (pinit V sts) ls = Some s -> ~ In RClose ls ->
    forall n, n < length (got V s) -> nth_error (got V s) n = Some (through fs (g n)).
  Proof.
    intros ls s H NI n Ln. destruct (as_list ls s H NI (length ls) (le_n _)) as (R&_).
    destruct (pipe_fun_prefix V (map g (seq 0 (length ls))) sz sts ls s) as (rest&E); [| |exact R|].
    - apply Forall_forall. intros x X. apply in_map_iff in X. now destruct X as (f&<-&_).
    - apply forallb_forall. intros x X. apply in_map_iff in X. now destruct X as (f&<-&_).
    - rewrite fun_maps, map_map in E. rewrite <- (nth_error_app1 (got V s) rest Ln), <- E, nth_error_map.
      assert (n < length ls). { apply (f_equal (@length V)) in E. rewrite map_length, seq_length, app_length in E. lia. }
      rewrite (nth_error_nth' (seq 0 _) 0) by (now rewrite seq_length). now rewrite seq_nth.
  Qed.
End Content.
Lemma exec_run : forall V gen sz (sts : list (stage V)) st lb, execution (pst V) lbl (pstep V gen sz sts) (pinit V sts) st lb ->
  (forall n, lb n <> Some RClose) -> forall n, exists ls, run (pstep V gen sz sts) (pinit V sts) ls = Some (st n) /\ ~ In RClose ls.
Proof.
  intros V gen sz sts st lb [E0 E] NC. induction n as [|n (ls&R&NI)]; [exists []; rewrite E0; auto|]. specialize (E n). destruct (lb n) as [l|] eqn:L.
  - exists (ls ++ [l]). rewrite run_app, R. simpl. rewrite E. split; auto. intros X. apply in_app_iff in X. destruct X as [X|[->|[]]]; [auto|]. now apply (NC n).
  - exists ls. now rewrite E.
Qed.

(** Whatever the functions and the size of the source's channel: in an execution where no coroutine able to go on is passed over for ever, and
    the reader goes on reading, the reader gets the n-th item of the source, through all stages, as its n-th item. *)
Theorem pipe_flows : forall V (g : nat -> V) sz (fs : list (V -> V)) st lb, sz_ok sz ->
  execution (pst V) lbl (pstep V (fun i => Some (g i)) sz (map SMap fs)) (pinit V (map SMap fs)) st lb ->
  weakly_fair (pst V) lbl (pstep V (fun i => Some (g i)) sz (map SMap fs)) (pwho V fs) st lb ->
  (forall n, lb n <> Some RClose) ->
  forall n, exists m, nth_error (got V (st m)) n = Some (through fs (g n)).
Proof.
  intros V g sz fs st lb Z EX WF NC n. assert (GEN : forall i, (fun i => Some (g i)) i <> None) by discriminate.
  assert (SZ : forall k, sz = Fixed k -> 0 < k) by (intros k ->; exact Z).
  destruct (reader_gets V _ sz fs GEN SZ st lb EX NC WF (S n)) as (m&L). exists m.
  destruct (exec_run _ _ _ _ _ _ EX NC m) as (ls&R&NI). eapply got_prefix; eauto.
Qed.
Print Assumptions pipe_flows.

(** The hypotheses can be met: 0, 1, 2, ... over an unbuffered channel through one stage that adds one, all taking turns. *)
Definition xstep := pstep nat (fun i => Some i) Unbuffered (map SMap [S]).
Definition xl (n : nat) : lbl := nth (n mod 6) [Src; Src; Run 0 0; Run 0 0; RPop; Src] Src.
Fixpoint xst (n : nat) : pst nat := match n with 0 => pinit nat (map SMap [S]) | S m => match xstep (xst m) (xl m) with Some s => s | None => xst m end end.
Definition xready (s : pst nat) : Prop :=
  cts nat (stg nat s 0) 0 = CSrc /\ cts nat (stg nat s 1) 0 = CPop /\ (forall i, clo nat (chs nat s i) = false) /\ buf nat (chs nat s 0) = [] /\ buf nat (chs nat s 1) = [] /\ rend nat s = false.
Lemma xround : forall s, xready s -> exists s1 s2 s3 s4 s5 s6, xstep s Src = Some s1 /\ xstep s1 Src = Some s2 /\ xstep s2 (Run 0 0) = Some s3 /\
  xstep s3 (Run 0 0) = Some s4 /\ xstep s4 RPop = Some s5 /\ xstep s5 Src = Some s6 /\ xready s6.
Proof.
  intros s (A&B&C&D&E&F). unfold xready. pose proof (C 0) as C0. pose proof (C 1) as C1.
  do 6 eexists. do 6 (split; [cbn; unfold step_src, step_stage, room, last_ch; cbn; unfold upd; cbn; rewrite ?A, ?B, ?C0, ?C1, ?D, ?E, ?F; cbn; rewrite ?A, ?B, ?C0, ?C1, ?D, ?E, ?F; cbn; reflexivity|]).
  cbn. unfold upd. cbn. repeat split; auto. intros [|[|i]]; cbn; auto.
Qed.
Definition xlb (n : nat) : option lbl := Some (xl n).
Lemma xl_at : forall q r, r < 6 -> xl (q * 6 + r) = nth r [Src; Src; Run 0 0; Run 0 0; RPop; Src] Src.
Proof. intros q r L. unfold xl. rewrite Nat.add_comm, Nat.mod_add by lia. now rewrite Nat.mod_small. Qed.
Lemma xready_at : forall q, xready (xst (q * 6)) /\ forall r, r < 6 -> xstep (xst (q * 6 + r)) (xl (q * 6 + r)) = Some (xst (S (q * 6 + r))).
Proof.
  assert (NX : forall n s, xstep (xst n) (xl n) = Some s -> xst (S n) = s) by (intros n s E; simpl; now rewrite E).
  assert (G : forall q, xready (xst (q * 6)) -> xready (xst (S q * 6)) /\ forall r, r < 6 -> xstep (xst (q * 6 + r)) (xl (q * 6 + r)) = Some (xst (S (q * 6 + r)))).
  { intros q R. destruct (xround _ R) as (s1&s2&s3&s4&s5&s6&E1&E2&E3&E4&E5&E6&R').
    assert (T1 : xst (S (q * 6 + 0)) = s1) by (apply NX; rewrite xl_at, Nat.add_0_r by lia; exact E1).
    assert (T2 : xst (S (q * 6 + 1)) = s2) by (apply NX; rewrite xl_at by lia; replace (q * 6 + 1) with (S (q * 6 + 0)) by lia; rewrite T1; exact E2).
    assert (T3 : xst (S (q * 6 + 2)) = s3) by (apply NX; rewrite xl_at by lia; replace (q * 6 + 2) with (S (q * 6 + 1)) by lia; rewrite T2; exact E3).
    assert (T4 : xst (S (q * 6 + 3)) = s4) by (apply NX; rewrite xl_at by lia; replace (q * 6 + 3) with (S (q * 6 + 2)) by lia; rewrite T3; exact E4).
    assert (T5 : xst (S (q * 6 + 4)) = s5) by (apply NX; rewrite xl_at by lia; replace (q * 6 + 4) with (S (q * 6 + 3)) by lia; rewrite T4; exact E5).
    assert (T6 : xst (S (q * 6 + 5)) = s6) by (apply NX; rewrite xl_at by lia; replace (q * 6 + 5) with (S (q * 6 + 4)) by lia; rewrite T5; exact E6).
    split; [replace (S q * 6) with (S (q * 6 + 5)) by lia; now rewrite T6|].
    intros r L. rewrite xl_at by lia. destruct r as [|[|[|[|[|[|r]]]]]]; [| | | | | |lia]; rewrite ?T1, ?T2, ?T3, ?T4, ?T5, ?T6.
    - rewrite Nat.add_0_r. exact E1.
    - replace (q * 6 + 1) with (S (q * 6 + 0)) by lia. rewrite T1. exact E2.
    - replace (q * 6 + 2) with (S (q * 6 + 1)) by lia. rewrite T2. exact E3.
    - replace (q * 6 + 3) with (S (q * 6 + 2)) by lia. rewrite T3. exact E4.
    - replace (q * 6 + 4) with (S (q * 6 + 3)) by lia. rewrite T4. exact E5.
    - replace (q * 6 + 5) with (S (q * 6 + 4)) by lia. rewrite T5. exact E6. }
  assert (R : forall q, xready (xst (q * 6))) by (induction q as [|q IH]; [repeat split|now apply G]).
  intros q. split; [apply R|]. now apply G.
Qed.
Example pipe_flows_example : sz_ok Unbuffered /\ execution (pst nat) lbl xstep (pinit nat (map SMap [S])) xst xlb /\
  weakly_fair (pst nat) lbl xstep (pwho nat [S]) xst xlb /\ (forall n, xlb n <> Some RClose) /\ got nat (xst 18) = [1; 2; 3].
Proof.
  split; [exact I|]. split; [|split; [|split]].
  - split; [reflexivity|]. intros n. cbn [xlb]. pose proof (Nat.div_mod n 6 ltac:(lia)) as D. pose proof (Nat.mod_upper_bound n 6 ltac:(lia)) as U.
    replace n with (n / 6 * 6 + n mod 6) by lia. now apply xready_at.
  - intros t n. assert (GO : forall r, r < 6 -> pwho nat [S] (nth r [Src; Src; Run 0 0; Run 0 0; RPop; Src] Src) = Some t ->
      exists m, n <= m /\ (moves lbl (pwho nat [S]) xlb t m \/ ~ able (pst nat) lbl xstep (pwho nat [S]) (xst m) t)).
    { intros r L W. exists (n * 6 + r). split; [lia|]. left. exists (xl (n * 6 + r)). split; [reflexivity|]. now rewrite xl_at. }
    destruct t as [|[|[|t]]]; [apply (GO 0)|apply (GO 2)|apply (GO 4)|]; try reflexivity; try lia.
    exists n. split; [lia|]. right. intros (l&s'&W&E). destruct l as [|k j| |]; try discriminate. injection W as ->. cbn in E. unfold step_stage in E. cbn in E. destruct t; discriminate.
  - intros n. unfold xlb, xl. pose proof (Nat.mod_upper_bound n 6 ltac:(lia)). destruct (n mod 6) as [|[|[|[|[|[|r]]]]]]; try discriminate; lia.
  - reflexivity.
Qed.
