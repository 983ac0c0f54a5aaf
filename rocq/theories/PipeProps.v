(** C28-C31: pipelines. *)
From Coq Require Import List Arith Bool Lia Permutation.
From Verif Require Import Base PipeSpec PipeModel PipeProofs PipeLive.
Import ListNotations.

(** ** C28 *)
Lemma rel_fun : forall V (sts : list (stage V)) xs ys, forallb (fun st => negb (is_fork st)) sts = true ->
  pipe_rel sts xs ys -> ys = pipe_fun sts xs.
Proof.
  induction sts as [|st r IH]; intros xs ys F H; simpl in *; auto. apply andb_prop in F as [F1 F2].
  destruct H as (m&H1&H2). rewrite (IH _ _ F2 H2). f_equal. destruct st; try discriminate; exact H1.
Qed.

(** Whatever the schedule, the values received so far extend to a result of the sequential pipeline. *)
Theorem pipe_prefix : forall V src sz (sts : list (stage V)) ls s, Forall stage_ok sts ->
  run (pstep V (nth_error src) sz sts) (pinit V sts) ls = Some s ->
  exists rest, pipe_rel sts src (got V s ++ rest).
Proof.
  intros V src sz sts ls s Hok H. pose proof (pipe_inv _ _ _ _ Hok _ _ H) as HI.
  destruct (all_pre V (nth_error src) sz sts Hok src s (fun i => eq_refl) HI (length sts) (le_n _)) as [[r HP] _].
  unfold Full in HP. rewrite firstn_all in HP.
  destruct (v_ch _ _ _ _ s HI (length sts)) as (C&_). rewrite C, <- app_assoc in HP.
  rewrite (v_got _ _ _ _ s HI). eauto.
Qed.
Print Assumptions pipe_prefix.

(** When the end channel is closed and drained (and the reader is not the one who closed it) the values received are a
    result of the sequential pipeline. *)
Theorem pipe_complete : forall V src sz (sts : list (stage V)) ls s, Forall stage_ok sts ->
  run (pstep V (nth_error src) sz sts) (pinit V sts) ls = Some s ->
  clo V (last_ch V sts s) = true -> buf V (last_ch V sts s) = [] -> rcl V s = false ->
  pipe_rel sts src (got V s).
Proof.
  intros V src sz sts ls s Hok H HC HB HR. pose proof (pipe_inv _ _ _ _ Hok _ _ H) as HI.
  destruct (all_pre V (nth_error src) sz sts Hok src s (fun i => eq_refl) HI (length sts) (le_n _)) as [_ HF].
  unfold Full, last_ch in *. rewrite firstn_all in HF. pose proof (v_rcl _ _ _ _ s HI) as VR. unfold n in VR.
  destruct (v_ch _ _ _ _ s HI (length sts)) as (C1&C2&_). rewrite VR in HR.
  rewrite (v_got _ _ _ _ s HI). rewrite C1, HB, app_nil_r in HF. apply HF. destruct (C2 HC); congruence.
Qed.
Print Assumptions pipe_complete.

(** Without fork the result is a function of the source. *)
Theorem pipe_fun_prefix : forall V src sz (sts : list (stage V)) ls s, Forall stage_ok sts ->
  forallb (fun st => negb (is_fork st)) sts = true ->
  run (pstep V (nth_error src) sz sts) (pinit V sts) ls = Some s ->
  exists rest, pipe_fun sts src = got V s ++ rest.
Proof.
  intros V src sz sts ls s Hok HF H. destruct (pipe_prefix V src sz sts ls s Hok H) as [r R].
  exists r. symmetry. now apply rel_fun.
Qed.
Print Assumptions pipe_fun_prefix.

Theorem pipe_fun_complete : forall V src sz (sts : list (stage V)) ls s, Forall stage_ok sts ->
  forallb (fun st => negb (is_fork st)) sts = true ->
  run (pstep V (nth_error src) sz sts) (pinit V sts) ls = Some s ->
  clo V (last_ch V sts s) = true -> buf V (last_ch V sts s) = [] -> rcl V s = false ->
  got V s = pipe_fun sts src.
Proof. intros. apply rel_fun; auto. eapply pipe_complete; eauto. Qed.
Print Assumptions pipe_fun_complete.

(** A concrete pipeline: [1..7] | skip 1 | filter odd | group 2 sum | take 1, over a channel of size 1, run round robin. *)
Definition ex_src := [1;2;3;4;5;6;7].
Definition ex_sts : list (stage nat) := [SSkip 1; SFilter Nat.odd; SGroup 2 (fun l => fold_left Nat.add l 0); STake 1].
(** Run the labels, ignoring those that are not enabled. *)
Fixpoint sched {V} (step : pst V -> lbl -> option (pst V)) (s : pst V) (ls : list lbl) : list lbl * pst V :=
  match ls with
  | [] => ([], s)
  | a :: r => match step s a with
              | Some s' => let (l, e) := sched step s' r in (a :: l, e)
              | None => sched step s r
              end
  end.
Definition ex_robin := concat (repeat [Src; Run 0 0; Run 1 0; Run 2 0; Run 3 0; RPop] 40).
Definition ex_step := pstep nat (nth_error ex_src) (Fixed 1) ex_sts.

Example pipe_ex :
  Forall stage_ok ex_sts /\
  let (ls, s) := sched ex_step (pinit nat ex_sts) ex_robin in
  option_map (got nat) (run ex_step (pinit nat ex_sts) ls) = Some [8] /\ pipe_fun ex_sts ex_src = [8] /\
  rend nat s = true /\ rcl nat s = false /\ clo nat (last_ch nat ex_sts s) = true /\ buf nat (last_ch nat ex_sts s) = [].
Proof. split; [repeat constructor|]. vm_compute. auto 10. Qed.

(** ** C29 *)
(** When a fork stage has closed its output, it has consumed all its input and produced the images of it. *)
Theorem fork_multiset : forall V gen sz (sts : list (stage V)) ls s k w f, Forall stage_ok sts ->
  run (pstep V gen sz sts) (pinit V sts) ls = Some s -> nth_error sts k = Some (SFork w f) -> 1 <= w ->
  clo V (chs V s (S k)) = true -> byc V (chs V s (S k)) = false ->
  clo V (chs V s k) = true /\ buf V (chs V s k) = [] /\ outs V (chs V s k) = ins V (chs V s k) /\
  Permutation (ins V (chs V s (S k))) (map f (ins V (chs V s k))).
Proof.
  intros V gen sz sts ls s k w f Hok H E Hw HC HB. pose proof (pipe_inv _ _ _ _ Hok _ _ H) as HI.
  destruct (v_ch _ _ _ _ s HI (S k)) as (_&C2&_). destruct (v_ch _ _ _ _ s HI k) as (D1&_&_&D4).
  destruct (v_st _ _ _ _ s HI k _ E) as (_&_&_&_&_&A6&_).
  destruct (C2 HC) as [?|F]; [congruence|]. destruct (A6 F) as [[[F1 F2]|[T|[g T]]] R].
  - rewrite D1, F2, app_nil_r. split; [auto|]. split; [auto|]. split; [auto|]. destruct w; [lia|exact R].
  - contradiction.
  - injection T as -> ->. lia.
Qed.
Print Assumptions fork_multiset.

(** At any time it has produced only images of input items, each at most once. *)
Theorem fork_contained : forall V gen sz (sts : list (stage V)) ls s k w f, Forall stage_ok sts ->
  run (pstep V gen sz sts) (pinit V sts) ls = Some s -> nth_error sts k = Some (SFork w f) ->
  exists rest, Permutation (ins V (chs V s (S k)) ++ rest) (map f (ins V (chs V s k))).
Proof.
  intros V gen sz sts ls s k w f Hok H E. pose proof (pipe_inv _ _ _ _ Hok _ _ H) as HI.
  destruct (v_ch _ _ _ _ s HI k) as (D1&_). destruct (v_st _ _ _ _ s HI k _ E) as (_&_&_&(lost&A&_)&_).
  exists (pend V (stg V s (S k)) w ++ lost ++ map f (buf V (chs V s k))).
  rewrite D1, map_app, !app_assoc. apply Permutation_app_tail. rewrite <- app_assoc. exact A.
Qed.
Print Assumptions fork_contained.

(** Two workers; the second overtakes the first, so the order is not kept. *)
Definition fork_sts : list (stage nat) := [SFork 2 S].
Definition fork_ls := [Src; Src; Src; Src; Src; Src; Run 0 1; Run 0 2; Run 0 2; Run 0 1; Run 0 1; Run 0 2; Run 0 0; Run 0 0; RPop; RPop; RPop].
Example fork_ex :
  option_map (fun s => (got nat s, rend nat s, clo nat (chs nat s 1), byc nat (chs nat s 1), ins nat (chs nat s 0)))
    (run (pstep nat (nth_error [10;20]) Unlimited fork_sts) (pinit nat fork_sts) fork_ls) = Some ([21;11], true, true, false, [10;20]).
Proof. reflexivity. Qed.

(** ** C30 *)
(** Over a finite source the number of steps is bounded, whatever is scheduled. *)
Theorem pipe_finite : forall V src sz (sts : list (stage V)), Forall stage_ok sts ->
  exists bound, forall ls s, run (pstep V (nth_error src) sz sts) (pinit V sts) ls = Some s -> length ls <= bound.
Proof.
  intros V src sz sts Hok. exists (mu V sts (length src) (pinit V sts)). intros ls s H.
  pose proof (mu_run V (nth_error src) sz sts Hok (length src) ls s) as M.
  assert (nth_error src (length src) = None) by now apply nth_error_None. specialize (M H0 H). lia.
Qed.
Print Assumptions pipe_finite.

(** As long as the reader has not seen the end, a coroutine of the pipeline or the reader can move. *)
Theorem pipe_never_stuck : forall V gen sz (sts : list (stage V)) ls s, Forall stage_ok sts -> sz_ok sz ->
  run (pstep V gen sz sts) (pinit V sts) ls = Some s -> rend V s = false ->
  exists a, a <> RClose /\ pstep V gen sz sts s a <> None.
Proof.
  intros V gen sz sts ls s Hok Hz H HR. pose proof (pipe_inv _ _ _ _ Hok _ _ H) as HI.
  set (cand := flat_map (fun k => match nth_error sts k with Some st => map (Run k) (seq 0 (width V st)) | None => [] end) (seq 0 (length sts))).
  destruct (find (fun a => match pstep V gen sz sts s a with Some _ => true | None => false end) (Src :: cand)) as [a|] eqn:F.
  - destruct (find_some _ _ F) as [I T]. exists a. split.
    + destruct I as [<-|I]; [discriminate|]. apply in_flat_map in I as (k&_&I).
      destruct (nth_error sts k); [|contradiction]. apply in_map_iff in I as (j&<-&_). discriminate.
    + destruct (pstep V gen sz sts s a); congruence.
  - exists RPop. split; [discriminate|]. apply (progress V gen sz sts s HI Hz HR).
    assert (N := find_none _ _ F). cbv beta in N. split.
    + specialize (N Src (or_introl eq_refl)). destruct (pstep V gen sz sts s Src); congruence.
    + intros k j. destruct (pstep V gen sz sts s (Run k j)) eqn:P; auto. exfalso.
      assert (Q := P). simpl in P. unfold step_stage in P. destruct (nth_error sts k) as [st|] eqn:E; [|discriminate].
      assert (J : j < width V st). { apply (active V gen sz sts s k st j HI E). intros X. rewrite X in P. discriminate. }
      assert (I : In (Run k j) (Src :: cand)).
      { right. apply in_flat_map. exists k. split; [apply in_seq; split; [lia|apply nth_error_Some; congruence]|].
        rewrite E. apply in_map, in_seq. lia. }
      specialize (N _ I). rewrite Q in N. discriminate.
Qed.
Print Assumptions pipe_never_stuck.

(** Together with C28: when nothing can move any more, the reader has the whole result. *)
Theorem pipe_finishes : forall V src sz (sts : list (stage V)) ls s, Forall stage_ok sts -> sz_ok sz ->
  run (pstep V (nth_error src) sz sts) (pinit V sts) ls = Some s -> rcl V s = false ->
  (forall a, a <> RClose -> pstep V (nth_error src) sz sts s a = None) -> pipe_rel sts src (got V s).
Proof.
  intros V src sz sts ls s Hok Hz H HR Q. destruct (rend V s) eqn:R.
  - destruct (v_end _ _ _ _ s (pipe_inv _ _ _ _ Hok _ _ H) R). eapply pipe_complete; eauto.
  - destruct (pipe_never_stuck _ _ _ _ _ _ Hok Hz H R) as (a&A&B). now rewrite (Q a A) in B.
Qed.
Print Assumptions pipe_finishes.

(** ** C64: group(0, f) pushes for ever although its source is empty. *)
Theorem pipe_finite_refuted : exists (sts : list (stage nat)), forall m, exists ls s,
  run (pstep nat (nth_error []) Unlimited sts) (pinit nat sts) ls = Some s /\ length ls = m.
Proof.
  exists [SGroup 0 (fun _ => 0)]. intros m. exists (repeat (Run 0 0) m).
  assert (G : forall q s, cts nat (stg nat s 1) 0 = CPush 0 -> clo nat (chs nat s 1) = false ->
    exists s', run (pstep nat (nth_error []) Unlimited [SGroup 0 (fun _ => 0)]) s (repeat (Run 0 0) q) = Some s').
  { induction q as [|q IH]; intros s H C; [exists s; reflexivity|]. cbn [repeat run pstep step_stage nth_error]. rewrite H, C.
    apply IH; [reflexivity|exact C]. }
  destruct (G m (pinit nat [SGroup 0 (fun _ => 0)]) eq_refl eq_refl) as [s' R]. exists s'. split; [exact R|apply repeat_length].
Qed.
Print Assumptions pipe_finite_refuted.

Example live_ex :
  sz_ok (Fixed 1) /\ Forall stage_ok ex_sts /\
  (let (ls, s) := sched ex_step (pinit nat ex_sts) (firstn 60 ex_robin) in length ls = 23 /\ rend nat s = false) /\
  (let (ls, s) := sched ex_step (pinit nat ex_sts) ex_robin in length ls <= mu nat ex_sts 7 (pinit nat ex_sts) /\ 40 < length ls).
Proof. split; [simpl; lia|]. split; [repeat constructor|]. vm_compute. split; [auto|]. lia. Qed.

(** ** C31 *)
(** What holds: when no coroutine of the pipeline can move, every stage has ended, and so has the source if its channel is
    unlimited or is closed, or its consumer is a take or a group.  Missing for the full claim: the source, when another
    stage reads its channel (see below). *)
Theorem pipe_stops_partial : forall V gen sz (sts : list (stage V)) ls s, Forall stage_ok sts -> sz_ok sz ->
  run (pstep V gen sz sts) (pinit V sts) ls = Some s -> quiet V gen sz sts s ->
  (forall k j, k < length sts -> cts V (stg V s (S k)) j = CHalt) /\
  (sz = Unlimited \/ clo V (chs V s 0) = true \/
   match sts with STake _ :: _ | SGroup _ _ :: _ => True | [] => rcl V s = true | _ => False end ->
   cts V (stg V s 0) 0 = CHalt).
Proof.
  intros V gen sz sts ls s Hok Hz H Q. pose proof (pipe_inv _ _ _ _ Hok _ _ H) as HI. split.
  - intros k j Hk. eapply quiet_halt; eauto.
  - intros D. eapply quiet_src; eauto. destruct D as [D|[D|D]]; auto. right.
    destruct sts as [|st r]; [|].
    + destruct (v_ch _ _ _ _ s HI 0) as (_&_&C&_). apply C. pose proof (v_rcl _ _ _ _ s HI) as R. simpl in R. congruence.
    + pose proof (quiet_first V gen sz (st :: r) s st r HI Hz Q eq_refl) as F. destruct st; auto; contradiction.
Qed.
Print Assumptions pipe_stops_partial.

(** source (channel of size 1) | filter | take 1: the reader has its item and has seen the end, nobody can move, and the
    source coroutine waits for ever for room in its channel. *)
Definition stop_sts : list (stage nat) := [SFilter (fun _ => true); STake 1].
Definition stop_ls := [Src;Src;Run 0 0;Run 0 0;Run 1 0;Run 1 0;Run 1 0;Run 1 0;Src;Src;Run 0 0;Run 0 0;Run 0 0;Src;Src;Src;RPop;RPop].
Theorem pipe_source_stuck_refuted : exists src sz (sts : list (stage nat)) ls s,
  sz_ok sz /\ Forall stage_ok sts /\ run (pstep nat (nth_error src) sz sts) (pinit nat sts) ls = Some s /\
  rend nat s = true /\ clo nat (last_ch nat sts s) = true /\
  quiet nat (nth_error src) sz sts s /\ cts nat (stg nat s 0) 0 <> CHalt.
Proof.
  destruct (run (pstep nat (nth_error [1;2;3;4]) (Fixed 1) stop_sts) (pinit nat stop_sts) stop_ls) as [s|] eqn:E;
    [|vm_compute in E; discriminate].
  exists [1;2;3;4], (Fixed 1), stop_sts, stop_ls, s. split; [simpl; lia|]. split; [repeat constructor|]. split; [exact E|].
  vm_compute in E. injection E as <-. split; [reflexivity|]. split; [reflexivity|]. split; [|discriminate]. split; [reflexivity|].
  intros k j. do 2 (destruct k as [|k]; [destruct j as [|j]; reflexivity|]). destruct k; reflexivity.
Qed.
Print Assumptions pipe_source_stuck_refuted.

(** An endless source with an unlimited channel | filter | take 1: after the reader has seen the end, the source keeps
    filling its channel and is never stopped, whatever happens next. *)
Theorem pipe_source_runs_refuted : exists gen (sts : list (stage nat)) ls s,
  Forall stage_ok sts /\ run (pstep nat gen Unlimited sts) (pinit nat sts) ls = Some s /\ rend nat s = true /\
  (forall ls' s', run (pstep nat gen Unlimited sts) s ls' = Some s' ->
     pstep nat gen Unlimited sts s' Src <> None /\ (cts nat (stg nat s' 0) 0 = CSrc \/ exists v, cts nat (stg nat s' 0) 0 = CPush v)).
Proof.
  destruct (run (pstep nat (fun i => Some i) Unlimited stop_sts) (pinit nat stop_sts) stop_ls) as [s|] eqn:E;
    [|vm_compute in E; discriminate].
  exists (fun i => Some i), stop_sts, stop_ls, s. split; [repeat constructor|]. split; [exact E|].
  vm_compute in E. injection E as <-. split; [reflexivity|].
  set (P := fun s : pst nat => clo nat (chs nat s 0) = false /\ rend nat s = true /\
     (forall k j, k < 2 -> cts nat (stg nat s (S k)) j = CHalt) /\
     (cts nat (stg nat s 0) 0 = CSrc \/ exists v, cts nat (stg nat s 0) 0 = CPush v)).
  intros ls' s' R. assert (HP : P s').
  { revert R. apply (run_inv _ P).
    - split; [reflexivity|]. split; [reflexivity|]. split; [|right; eexists; reflexivity].
      intros k j Hk. destruct k as [|[|k]]; [| |lia]; destruct j; reflexivity.
    - clear. intros s a s' (P1&P2&P3&P4) H. destruct a as [|k j| |]; cbn [pstep] in H.
      + unfold step_src in H. rewrite P1 in H. unfold room in H.
        destruct P4 as [P4|[v P4]]; rewrite P4 in H; injection H as <-.
        * split; [exact P1|]. split; [exact P2|]. split; [exact P3|]. right. eexists. reflexivity.
        * split; [exact P1|]. split; [exact P2|]. split; [exact P3|]. left. reflexivity.
      + unfold step_stage in H. destruct k as [|[|k]]; cbn [nth_error stop_sts] in H.
        * rewrite (P3 0 j) in H by lia. discriminate.
        * rewrite (P3 1 j) in H by lia. discriminate.
        * destruct k; discriminate.
      + rewrite P2 in H. discriminate.
      + destruct (rcl nat s); [discriminate|]. injection H as <-. split; [exact P1|]. split; [exact P2|]. split; [exact P3|exact P4]. }
  destruct HP as (P1&_&_&P4). split; auto. cbn [pstep]. unfold step_src. rewrite P1. unfold room.
  destruct P4 as [P4|[v P4]]; rewrite P4; discriminate.
Qed.
Print Assumptions pipe_source_runs_refuted.

(** The positive part is met by the same pipeline with take first. *)
Definition stop2_sts : list (stage nat) := [STake 1; SFilter (fun _ => true)].
Example stops_ex :
  exists ls s, run (pstep nat (nth_error [1;2;3;4]) (Fixed 1) stop2_sts) (pinit nat stop2_sts) ls = Some s /\
  quiet nat (nth_error [1;2;3;4]) (Fixed 1) stop2_sts s /\ cts nat (stg nat s 0) 0 = CHalt /\ got nat s = [1] /\ length (ins nat (chs nat s 0)) < 4.
Proof.
  set (p := sched (pstep nat (nth_error [1;2;3;4]) (Fixed 1) stop2_sts) (pinit nat stop2_sts) (concat (repeat [Src; Run 0 0; Run 1 0; RPop] 20))).
  destruct p as [ls s] eqn:Ep. exists ls, s. vm_compute in Ep. injection Ep as <- <-.
  split; [vm_compute; reflexivity|]. split; [|vm_compute; auto]. split; [reflexivity|].
  intros k j. do 2 (destruct k as [|k]; [destruct j as [|j]; reflexivity|]). destruct k; reflexivity.
Qed.
