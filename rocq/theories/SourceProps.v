(** C102: a pipeline reads the object it was made from only while that object exists. *)
From Coq Require Import List Arith Bool Lia.
From Verif Require Import Base PipeSpec PipeModel PipeProofs SourceModel.
Import ListNotations.

(** When the caller ends the object: [P] holds of the pipeline at that moment. *)
Definition ends_when {V} o src sz (sts : list (stage V)) (P : pst V -> Prop) (ls : list ev) : Prop :=
  forall l1 l2 s, ls = l1 ++ End :: l2 -> run (lstep o src sz sts) (linit sts) l1 = Some s -> P (pp s).
(** Stages that stop before their input ends: take, and a fork without workers. *)
Definition stops_early {V} (st : stage V) : bool := match st with STake _ => true | SFork 0 _ => true | _ => false end.

(** *** The pipeline under the object *)
Fixpoint pipes (ls : list ev) : list lbl := match ls with [] => [] | Pipe l :: r => l :: pipes r | End :: r => pipes r end.
Lemma pipes_app : forall a b, pipes (a ++ b) = pipes a ++ pipes b.
Proof. induction a as [|[l|] a IH]; intros b; simpl; rewrite ?IH; auto. Qed.
Lemma below : forall V o src sz (sts : list (stage V)) ls s, run (lstep o src sz sts) (linit sts) ls = Some s ->
  run (pstep V (nth_error src) sz sts) (pinit V sts) (pipes ls) = Some (pp s).
Proof.
  intros V o src sz sts ls. induction ls as [|e ls IH] using rev_ind; intros s H; [now injection H as <-|].
  rewrite run_app in H. destruct (run _ (linit sts) ls) as [s1|] eqn:R; [|discriminate]. specialize (IH _ eq_refl). rewrite pipes_app, run_app, IH.
  cbn [run] in H. destruct (lstep o src sz sts s1 e) as [s2|] eqn:E; [|discriminate]. injection H as <-. destruct e as [l|]; simpl in *.
  - destruct (pstep V (nth_error src) sz sts (pp s1) l); [|discriminate]. injection E as <-. reflexivity.
  - destruct (there s1); [|discriminate]. injection E as <-. reflexivity.
Qed.
(** If a property of the pipeline that its steps keep, and under which they do not read the object, holds when the object
    ends, the object is never read afterwards. *)
Lemma kept : forall V o src sz (sts : list (stage V)) (P Q : pst V -> Prop), Forall stage_ok sts ->
  (forall p, Inv V (nth_error src) sz sts p -> P p -> Q p) ->
  (forall p l p', Inv V (nth_error src) sz sts p -> Q p -> pstep V (nth_error src) sz sts p l = Some p' -> Q p') ->
  (forall p l, Q p -> reads o src p l = false) ->
  forall ls s, run (lstep o src sz sts) (linit sts) ls = Some s -> ends_when o src sz sts P ls ->
  bad s = false /\ (there s = false -> Q (pp s)).
Proof.
  intros V o src sz sts P Q Hok PQ K N ls. induction ls as [|e ls IH] using rev_ind; intros s H W.
  { injection H as <-. split; [reflexivity|discriminate]. }
  rewrite run_app in H. destruct (run _ (linit sts) ls) as [s1|] eqn:R; [|discriminate]. cbn [run] in H.
  destruct (lstep o src sz sts s1 e) as [s2|] eqn:E; [|discriminate]. injection H as <-.
  assert (HI : Inv V (nth_error src) sz sts (pp s1)) by (eapply pipe_inv; [exact Hok|eapply below; eauto]).
  destruct (IH s1 eq_refl) as [B T]. { intros l1 l2 s -> X. eapply (W l1 (l2 ++ [e])); eauto. now rewrite <- app_assoc. }
  destruct e as [l|]; simpl in E.
  - destruct (pstep V (nth_error src) sz sts (pp s1) l) as [p|] eqn:S; [|discriminate]. injection E as <-. simpl. rewrite B. split.
    + destruct (there s1); [reflexivity|]. simpl. apply N. auto.
    + intros F. eapply K; eauto.
  - destruct (there s1) eqn:Th; [|discriminate]. injection E as <-. simpl. split; auto. intros _. apply PQ; auto. eapply (W ls []); eauto.
Qed.
Lemma halted_stays : forall V gen sz (sts : list (stage V)) p l p', cts V (stg V p 0) 0 = CHalt -> pstep V gen sz sts p l = Some p' -> cts V (stg V p' 0) 0 = CHalt.
Proof.
  intros V gen sz sts p [|k j| |] p' C S; cbn [pstep] in S.
  - unfold step_src in S. rewrite C in S. discriminate.
  - unfold step_stage in S. destruct (nth_error sts k); [|discriminate].
    repeat match type of S with context [match ?x with _ => _ end] => destruct x eqn:?E end; try discriminate; injection S as <-; exact C.
  - repeat match type of S with context [match ?x with _ => _ end] => destruct x eqn:?E end; try discriminate; injection S as <-; exact C.
  - destruct (rcl V p); [discriminate|]. injection S as <-. exact C.
Qed.
Lemma fin_down : forall V gen sz (sts : list (stage V)) p, Inv V gen sz sts p -> existsb stops_early sts = false ->
  forall k, k <= length sts -> fin V (chs V p k) = true -> fin V (chs V p 0) = true.
Proof.
  intros V gen sz sts p HI E. induction k as [|k IH]; intros L F; auto. apply IH; [lia|].
  destruct (nth_error sts k) as [st|] eqn:N; [|apply nth_error_None in N; lia].
  assert (SE : stops_early st = false). { destruct (stops_early st) eqn:X; auto. rewrite <- E. symmetry. apply existsb_exists. exists st. split; auto. eapply nth_error_In; eauto. }
  assert (C : comp V st (chs V p k) (chs V p (S k))).
  { pose proof (v_st _ _ _ _ p HI k st N) as X. destruct st as [f|q|m|m|m f|f i|w f]; cbn [SI] in X.
    7: { destruct X as (_&_&_&_&_&X&_). auto. }
    all: destruct X as (_&X); destruct (cts V (stg V p (S k)) 0); try contradiction;
      try (destruct X as (_&X&_); congruence); try (destruct X as (_&X&_); destruct X as [(_&X&_)|X]; [congruence|exact X]);
      try (destruct X as (_&_&X); destruct X as [(_&X&_)|X]; [congruence|exact X]). }
  destruct C as [[(D&_)|[D|(f&->)]] _]; auto; [|discriminate]. destruct st; try contradiction. discriminate.
Qed.

(** *** What holds *)
(** A pipeline made from a container, from bounds or from a function never reads the caller's object after the constructor. *)
Theorem source_copied_partial : forall V o src sz (sts : list (stage V)) ls s, In o [OContainer; OBounds; OFunction] ->
  run (lstep o src sz sts) (linit sts) ls = Some s -> bad s = false.
Proof.
  intros V o src sz sts ls s I. assert (R : refers o = false) by (destruct I as [<-|[<-|[<-|[]]]]; reflexivity).
  apply (run_inv _ (fun s => bad s = false)); [reflexivity|].
  clear - R. intros s e s' B E. destruct e as [l|]; simpl in E.
  - destruct (pstep V (nth_error src) sz sts (pp s) l); [|discriminate]. injection E as <-. simpl. rewrite B. unfold reads. rewrite R. simpl.
    destruct l; try now rewrite andb_false_r. destruct (cts V (stg V (pp s) 0) 0); now rewrite andb_false_r.
  - destruct (there s); [|discriminate]. injection E as <-. exact B.
Qed.
Print Assumptions source_copied_partial.

(** Whatever it was made from: if no stage stops early and the object is kept until the reader, not having closed the
    channel itself, has seen the end, the object is never read after its end. *)
Theorem source_waited_partial : forall V o src sz (sts : list (stage V)) ls s, Forall stage_ok sts -> existsb stops_early sts = false ->
  run (lstep o src sz sts) (linit sts) ls = Some s ->
  ends_when o src sz sts (fun p => rend V p = true /\ rcl V p = false) ls -> bad s = false.
Proof.
  intros V o src sz sts ls s Hok E H W.
  refine (proj1 (kept V o src sz sts _ (fun p => cts V (stg V p 0) 0 = CHalt) Hok _ _ _ ls s H W)).
  - intros p HI [R C]. destruct (v_end _ _ _ _ p HI R) as [X _]. rewrite (v_rcl _ _ _ _ p HI) in C. unfold n in *.
    assert (F : fin V (chs V p (length sts)) = true). { destruct (v_ch _ _ _ _ p HI (length sts)) as (_&Y&_). destruct (Y X); congruence. }
    pose proof (fin_down V _ sz sts p HI E _ (le_n _) F) as G. pose proof (v_src _ _ _ _ p HI) as S0. destruct S0 as (_&_&_&_&S0).
    destruct (cts V (stg V p 0) 0); try contradiction; auto; first [congruence | destruct S0 as [S0 _]; congruence].
  - intros p l p' _ C S. eapply halted_stays; eauto.
  - intros p l C. unfold reads. destruct l; auto. now rewrite C.
Qed.
Print Assumptions source_waited_partial.

(** Made from a list, an array or pointers: it is enough to keep the items until all of them have been taken out of the
    first channel, whatever the stages. *)
Theorem source_taken_partial : forall V o src sz (sts : list (stage V)) ls s, Forall stage_ok sts -> In o [OList; OArray; OPtrs] ->
  run (lstep o src sz sts) (linit sts) ls = Some s ->
  ends_when o src sz sts (fun p => length src <= length (outs V (chs V p 0))) ls -> bad s = false.
Proof.
  intros V o src sz sts ls s Hok I H W. assert (L : links o = false) by (destruct I as [<-|[<-|[<-|[]]]]; reflexivity).
  refine (proj1 (kept V o src sz sts _ (fun p => length src <= cnt V (stg V p 0)) Hok _ _ _ ls s H W)).
  - intros p HI X. destruct (v_src _ _ _ _ p HI) as (_&C&_). destruct (v_ch _ _ _ _ p HI 0) as (D&_). rewrite D, app_length in C. lia.
  - clear. intros p l p' _ C S. destruct l as [|k j| |]; cbn [pstep] in S.
    + unfold step_src in S. repeat match type of S with context [match ?x with _ => _ end] => destruct x eqn:?E end; try discriminate; injection S as <-; cbn; lia.
    + unfold step_stage in S. destruct (nth_error sts k); [|discriminate].
      repeat match type of S with context [match ?x with _ => _ end] => destruct x eqn:?E end; try discriminate; injection S as <-; exact C.
    + repeat match type of S with context [match ?x with _ => _ end] => destruct x eqn:?E end; try discriminate; injection S as <-; exact C.
    + destruct (rcl V p); [discriminate|]. injection S as <-. exact C.
  - intros p l C. unfold reads. destruct l; auto. destruct (cts V (stg V p 0) 0); auto. rewrite L, (proj2 (nth_error_None _ _) C). now rewrite andb_false_r.
Qed.
Print Assumptions source_taken_partial.

(** Without items nothing is read, whatever the object and whenever it ends. *)
Theorem source_empty_partial : forall V o sz (sts : list (stage V)) ls s, Forall stage_ok sts ->
  run (lstep o [] sz sts) (linit sts) ls = Some s -> bad s = false.
Proof.
  intros V o sz sts ls. induction ls as [|e ls IH] using rev_ind; intros s Hok H; [now injection H as <-|].
  rewrite run_app in H. destruct (run _ (linit sts) ls) as [s1|] eqn:R; [|discriminate]. cbn [run] in H. specialize (IH s1 Hok eq_refl).
  assert (HI : Inv V (nth_error []) sz sts (pp s1)) by (eapply pipe_inv; [exact Hok|eapply below; eauto]).
  destruct (v_src _ _ _ _ (pp s1) HI) as (_&_&_&C&_).
  assert (Z0 : cnt V (stg V (pp s1) 0) = 0). { destruct (cnt V (stg V (pp s1) 0)) eqn:E; auto. exfalso. apply (C 0); [lia|reflexivity]. }
  destruct e as [l|]; simpl in H.
  - destruct (pstep V (nth_error []) sz sts (pp s1) l); [|discriminate]. injection H as <-. simpl. rewrite IH. simpl.
    unfold reads. destruct l; try apply andb_false_r. destruct (cts V (stg V (pp s1) 0) 0); try apply andb_false_r. rewrite Z0. simpl. now rewrite !andb_false_r.
  - destruct (there s1); [|discriminate]. injection H as <-. exact IH.
Qed.
Print Assumptions source_empty_partial.

(** *** What does not *)
(** The object ends before the coroutine has run, as a list in braces does when the pipeline is named or only its channel is
    kept: every execution in which one item gets into the first channel reads the dead object. *)
Theorem source_early : forall V o src sz (sts : list (stage V)) ls s, Forall stage_ok sts -> In o [OList; OArray; OPtrs; ONodes] ->
  run (lstep o src sz sts) (linit sts) (End :: ls) = Some s -> ins V (chs V (pp s) 0) <> [] -> bad s = true.
Proof.
  intros V o src sz sts ls s Hok N H I. assert (R : refers o = true) by (destruct N as [<-|[<-|[<-|[<-|[]]]]]; reflexivity). cbn [run lstep linit there pp bad] in H.
  set (J := fun s => there s = false /\ (bad s = true \/ (cnt V (stg V (pp s) 0) = 0 /\ (cts V (stg V (pp s) 0) 0 = CSrc \/ cts V (stg V (pp s) 0) 0 = CCloseOut \/ cts V (stg V (pp s) 0) 0 = CHalt)))).
  assert (X : J s).
  { revert H. apply (run_inv _ J); [split; [reflexivity|]; right; split; [reflexivity|now left]|]. clear - R. intros s e s' [T X] E. destruct e as [l|]; simpl in E.
    2: { rewrite T in E. discriminate. }
    destruct (pstep V (nth_error src) sz sts (pp s) l) as [p|] eqn:S; [|discriminate]. injection E as <-. split; [exact T|]. simpl. rewrite T.
    destruct X as [->|(C&X)]; [now left|]. simpl. destruct l as [|k j| |]; cbn [pstep] in S.
    - unfold step_src in S. destruct X as [X|[X|X]]; rewrite X in S.
      + rewrite C in S. cbn [reads]. rewrite X, R, C. destruct (nth_error src 0); injection S as <-; [left; simpl; apply orb_true_r|].
        right. split; [exact C|]. right. left. simpl. apply upd_same.
      + injection S as <-. right. split; [exact C|]. right. right. simpl. apply upd_same.
      + discriminate.
    - right. unfold step_stage in S. destruct (nth_error sts k); [|discriminate].
      repeat match type of S with context [match ?x with _ => _ end] => destruct x eqn:?E end; try discriminate; injection S as <-; (split; [exact C|exact X]).
    - right. repeat match type of S with context [match ?x with _ => _ end] => destruct x eqn:?E end; try discriminate; injection S as <-; (split; [exact C|exact X]).
    - right. destruct (rcl V (pp s)); [discriminate|]. injection S as <-. split; [exact C|exact X]. }
  destruct X as [_ [X|(C&_)]]; auto. exfalso.
  assert (HI : Inv V (nth_error src) sz sts (pp s)). { eapply pipe_inv; [exact Hok|]. apply (below V o src sz sts (End :: ls)). exact H. }
  destruct (v_src _ _ _ _ (pp s) HI) as (_&L&_). rewrite C in L. now destruct (ins V (chs V (pp s) 0)).
Qed.
Print Assumptions source_early.
(** auto ch = co_pipeline<int>({1, 2, 3}) | filter(...) | chan(): the list is gone at the semicolon, the coroutine reads it. *)
Definition sc_sts : list (stage nat) := [SFilter Nat.odd].
Definition sc_ls : list ev := [End; Pipe Src; Pipe Src; Pipe (Run 0 0); Pipe (Run 0 0); Pipe RPop].
Theorem source_early_refuted : exists src sz (sts : list (stage nat)) ls s, Forall stage_ok sts /\
  run (lstep OList src sz sts) (linit sts) (End :: ls) = Some s /\
  ins nat (chs nat (pp s) 0) <> [] /\ got nat (pp s) = [1] /\ bad s = true.
Proof.
  exists [1;2;3], Unlimited, sc_sts, (tl sc_ls). eexists. split; [repeat constructor|]. split; [vm_compute; reflexivity|]. vm_compute. repeat split. discriminate.
Qed.
Print Assumptions source_early_refuted.

(** Waiting for the end is not enough when a stage stops early: a local array, arr | stream() | take(1) | to<vector>(): the
    reader has the result and has seen the end, the array goes out of scope, the source still reads it. *)
Definition tk_sts : list (stage nat) := [STake 1].
Definition tk_ls : list ev := map Pipe [Src; Src; Run 0 0; Run 0 0; Run 0 0; RPop; RPop] ++ [End; Pipe Src].
Theorem source_waited_refuted : exists src sz (sts : list (stage nat)) ls s,
  sz = Unlimited /\ Forall stage_ok sts /\ run (lstep OArray src sz sts) (linit sts) ls = Some s /\
  ends_when OArray src sz sts (fun p => rend nat p = true /\ rcl nat p = false /\ got nat p = pipe_fun sts src) ls /\ bad s = true.
Proof.
  exists [1;2;3], Unlimited, tk_sts, tk_ls. eexists. split; [reflexivity|]. split; [repeat constructor|]. split; [vm_compute; reflexivity|]. split; [|vm_compute; reflexivity].
  intros l1 l2 s E. unfold tk_ls in E. simpl in E.
  do 7 (destruct l1 as [|? l1]; [discriminate E|]; injection E as <- E). destruct l1 as [|? l1].
  - intros R. vm_compute in R. injection R as <-. vm_compute. auto.
  - injection E as <- E. destruct l1 as [|? l1]; [discriminate|]. injection E as <- E. destruct l1; discriminate E.
Qed.
Print Assumptions source_waited_refuted.
(** Nor is it when the reader closes the channel. *)
Definition cl_ls : list ev := map Pipe [Src; Src; RPop; RClose; RPop] ++ [End; Pipe Src].
Theorem source_closed_refuted : exists src ls s, run (lstep OArray src Unlimited []) (linit (@nil (stage nat))) ls = Some s /\
  ends_when OArray src Unlimited [] (fun p => rend nat p = true) ls /\ bad s = true.
Proof.
  exists [1;2;3], cl_ls. eexists. split; [vm_compute; reflexivity|]. split; [|vm_compute; reflexivity].
  intros l1 l2 s E. unfold cl_ls in E. simpl in E.
  do 5 (destruct l1 as [|? l1]; [discriminate E|]; injection E as <- E). destruct l1 as [|? l1].
  - intros R. vm_compute in R. injection R as <-. vm_compute. reflexivity.
  - injection E as <- E. destruct l1 as [|? l1]; [discriminate|]. injection E as <- E. destruct l1; discriminate E.
Qed.
Print Assumptions source_closed_refuted.
(** A std::list must outlive even the last item: the loop goes on to the next node after the reader has taken the item. *)
Definition nd_ls : list ev := map Pipe [Src; Src; RPop] ++ [End; Pipe Src].
Theorem source_taken_refuted : exists src ls s, run (lstep ONodes src Unlimited []) (linit (@nil (stage nat))) ls = Some s /\
  ends_when ONodes src Unlimited [] (fun p => got nat p = src) ls /\ bad s = true.
Proof.
  exists [1], nd_ls. eexists. split; [vm_compute; reflexivity|]. split; [|vm_compute; reflexivity].
  intros l1 l2 s E. unfold nd_ls in E. simpl in E.
  do 3 (destruct l1 as [|? l1]; [discriminate E|]; injection E as <- E). destruct l1 as [|? l1].
  - intros R. vm_compute in R. injection R as <-. vm_compute. reflexivity.
  - injection E as <- E. destruct l1 as [|? l1]; [discriminate|]. injection E as <- E. destruct l1; discriminate E.
Qed.
Print Assumptions source_taken_refuted.

(** The hypotheses of the positive theorems are met: a vector given up at once; an array kept to the end of the results;
    an array kept until its items have left the first channel. *)
Example source_copied_ex : exists s, run (lstep OContainer [1;2;3] Unlimited sc_sts) (linit sc_sts) sc_ls = Some s /\ got nat (pp s) = [1] /\ there s = false.
Proof. eexists. split; [vm_compute; reflexivity|]. vm_compute. auto. Qed.
Definition wt_ls : list ev := map Pipe [Src; Src; Src; Src; Run 0 0; Run 0 0; Src; Run 0 0; Src; Run 0 0; Run 0 0; RPop; RPop] ++ [End].
Example source_waited_ex : exists s, run (lstep OArray [1;2] Unlimited sc_sts) (linit sc_sts) wt_ls = Some s /\
  ends_when OArray [1;2] Unlimited sc_sts (fun p => rend nat p = true /\ rcl nat p = false) wt_ls /\ existsb stops_early sc_sts = false /\ got nat (pp s) = [1] /\ there s = false.
Proof.
  eexists. split; [vm_compute; reflexivity|]. split; [|vm_compute; auto].
  intros l1 l2 s E. unfold wt_ls in E. simpl in E.
  do 13 (destruct l1 as [|? l1]; [discriminate E|]; injection E as <- E). destruct l1 as [|? l1].
  - intros R. vm_compute in R. injection R as <-. vm_compute. auto.
  - injection E as <- E. destruct l1; discriminate E.
Qed.
Definition tn_ls : list ev := map Pipe [Src; Src; Src; Src; Run 0 0; Run 0 0; Run 0 0] ++ [End; Pipe Src; Pipe RPop].
Example source_taken_ex : exists s, run (lstep OArray [1;2] Unlimited sc_sts) (linit sc_sts) tn_ls = Some s /\
  ends_when OArray [1;2] Unlimited sc_sts (fun p => length [1;2] <= length (outs nat (chs nat p 0))) tn_ls /\ rend nat (pp s) = false /\ there s = false.
Proof.
  eexists. split; [vm_compute; reflexivity|]. split; [|vm_compute; auto].
  intros l1 l2 s E. unfold tn_ls in E. simpl in E.
  do 7 (destruct l1 as [|? l1]; [discriminate E|]; injection E as <- E). destruct l1 as [|? l1].
  - intros R. vm_compute in R. injection R as <-. vm_compute. auto.
  - injection E as <- E. do 2 (destruct l1 as [|? l1]; [discriminate E|]; injection E as <- E). destruct l1; discriminate E.
Qed.
Example source_empty_ex : exists s, run (lstep ONodes [] Unlimited sc_sts) (linit sc_sts) (End :: map Pipe [Src; Src; Run 0 0; Run 0 0; RPop]) = Some s /\
  rend nat (pp s) = true /\ there s = false.
Proof. eexists. split; [vm_compute; reflexivity|]. vm_compute. auto. Qed.
