(** C52, C55, C70: the switch of context. *)
From Coq Require Import List Arith ZArith Bool Lia.
From Verif Require Import Base MemBase AsmSpec AsmModel AsmProofs.
Import ListNotations.
Local Open Scope Z_scope.

(** A thread that executes coroutine c (which may be the idle context) while no other is prepared yet. *)
Definition start_state (c : nat) (m : mach) : astate := {| ma := m; cur := c; ready := fun _ => false; hist := [] |}.
Definition start_ok (L : layout) (c : nat) (m : mach) : Prop := (c < nco L)%nat /\ words m /\ lo L c + 8 <= rg m SP <= hi L c.

Lemma run_Inv : forall L c m ls s, wf L -> start_ok L c m -> run (astep L) (start_state c m) ls = Some s -> Inv L s.
Proof.
  intros L c m ls s W (C & M & S) R. refine (run_inv (astep L) (Inv L) (start_state c m) _ _ ls R).
  - constructor; simpl; auto; try discriminate. intros post c0 i x pre E. now destruct post.
  - intros a l b I H. eapply step_inv; eauto.
Qed.
Lemma run_born : forall L c m ls s, wf L -> run (astep L) (start_state c m) ls = Some s -> born_ok L (hist s).
Proof.
  intros L c m ls s W R. refine (run_inv (astep L) (fun s => born_ok L (hist s)) (start_state c m) _ _ ls R).
  - intros d i [].
  - intros a l b I H. eapply born_step; eauto.
Qed.

(** C52, and more: not only the coroutines that called switch_to but also those interrupted by the switch signal find their 16 general purpose
    registers, flags, next instruction and stack unchanged. *)
Theorem switch_preserves : forall L c m ls s, wf L -> start_ok L c m -> run (astep L) (start_state c m) ls = Some s -> preserved (hist s).
Proof. intros L c m ls s W O R. exact (v_pres _ _ (run_Inv L c m ls s W O R)). Qed.
Print Assumptions switch_preserves.

(** The caller of switch_to is recorded where co_env.cpp 324-328 looks for it. *)
Theorem switch_records : forall L c m ls s d ret s', wf L -> start_ok L c m -> run (astep L) (start_state c m) ls = Some s -> astep L s (LSwitch d ret) = Some s' ->
  cur s' = d /\ ld (mem (ma s')) (blk L d + 256) = blk L (cur s).
Proof.
  intros L c m ls s d ret s' W O R H. pose proof (run_Inv L c m ls s W O R) as I. split; [|exact (switch_pre_step L s d ret s' W I H)].
  unfold astep in H; cbv beta iota zeta in H. destruct (_ && _); [|discriminate].
  remember (setip _ _) as m0 eqn:Em0. remember (exec _ _) as m1 eqn:Em1. clear Em1 Em0. injection H as <-. reflexivity.
Qed.
Print Assumptions switch_records.

(** C55, what holds: a prepared coroutine, when it is first run, enters real_entry with its own co_ctx as argument and its stack pointer inside
    its stack; the alignment is right exactly if the top of its stack is a multiple of 16. *)
Theorem new_start_partial : forall L c m ls s, wf L -> start_ok L c m -> run (astep L) (start_state c m) ls = Some s ->
  forall post d i x mid j pre, hist s = post ++ AIn d i x :: mid ++ ABorn d j :: pre -> never_left d mid ->
  enters (entry L) (blk L d) i /\ inside (lo L d) (hi L d) i /\ (aligned i <-> hi L d mod 16 = 0).
Proof.
  intros L c m ls s W O R post d i x mid j pre E N.
  pose proof (switch_preserves L c m ls s W O R _ _ _ _ _ E) as P. rewrite left_never in P by auto. injection P as <-.
  destruct (run_born L c m ls s W R d j) as (B1 & B2 & B3 & B4).
  { rewrite E. apply in_or_app. right. right. apply in_or_app. right. now left. }
  split; auto. split; auto. unfold aligned. rewrite B3. replace (hi L d - 8 + 8) with (hi L d) by lia. reflexivity.
Qed.
Print Assumptions new_start_partial.
(** Stacks come from mmap (co_stack_factory.cpp 11-28), so their base is a multiple of the page size: the size decides. *)
Theorem new_start_size_partial : forall L c m ls s, wf L -> start_ok L c m -> run (astep L) (start_state c m) ls = Some s ->
  forall post d i x mid j pre, hist s = post ++ AIn d i x :: mid ++ ABorn d j :: pre -> never_left d mid ->
  lo L d mod 4096 = 0 -> (hi L d - lo L d) mod 16 = 0 -> aligned i.
Proof.
  intros L c m ls s W O R post d i x mid j pre E N A B. destruct (new_start_partial L c m ls s W O R _ _ _ _ _ _ _ E N) as (_ & _ & F). apply F.
  apply Z.mod_divide in A; [|lia]. destruct A as [k A]. apply Z.mod_divide in B; [|lia]. destruct B as [q B].
  replace (hi L d) with ((q + k * 256) * 16) by lia. apply Z.mod_mul. lia.
Qed.
Print Assumptions new_start_size_partial.

(** A layout with two coroutines; the stack of the second has z bytes. *)
Definition lay (z : Z) : layout :=
  {| nco := 2; blk := fun c => match c with O => 1000 | _ => 2000 end; lo := fun c => match c with O => 4096 | _ => 8192 end;
     hi := fun c => match c with O => 4352 | _ => 8192 + z end; entry := 77; start := 99 |}.
Lemma lay_wf : forall z, 16 <= z < 4096 -> wf (lay z).
Proof.
  intros z Z. constructor; unfold blk_size, word; cbn [nco blk lo hi lay entry start]; try lia.
  - intros [|[|c]] H; lia.
  - intros [|[|c]] H; lia.
  - intros [|[|c]] [|[|d]] H1 H2 N; lia.
  - intros [|[|c]] [|[|d]] H1 H2 N; lia.
  - intros [|[|c]] [|[|d]] H1 H2; lia.
Qed.
Definition mach0 : mach := {| rg := fun r => match r with SP => 4300 | _ => 5 end; fl := 2; vec := 11; rip := 500; mem := fun _ => 0 |}.
Lemma mach0_ok : forall z, start_ok (lay z) 0 mach0.
Proof.
  intros z. split; [simpl; lia|]. split; [|simpl; lia]. split; [intros []; unfold word; simpl; lia|]. unfold word, bytemem. simpl. repeat split; intros; lia.
Qed.
Definition some_regs (sp : Z) : reg -> Z := fun r => match r with SP => sp | _ => 3 + off r end.

(** Coroutine 0 fills its registers and a word of its stack and calls; coroutine 1 starts, changes registers and its stack, and calls back. *)
Definition ping : list alabel :=
  [LInit 1; LWork (some_regs 4304) 70 12 600 [(4310, 42); (50, 1)]; LSwitch 1 601; LWork (some_regs 8300) 6 13 700 [(8301, 43)]; LSwitch 0 701;
   LWork (some_regs 4200) 0 0 800 []; LSwitch 1 801].
Example switch_preserves_ex : wf (lay 256) /\ start_ok (lay 256) 0 mach0 /\
  option_map (fun s => match hist s with
    | AIn 1 i _ :: _ :: AIn 0 j _ :: _ => (nth 15 (i_regs i) 0, i_flags i, i_rip i, nth 1 (i_stack i) 0, (nth 15 (i_regs j) 0, nth 0 (i_regs j) 0, i_flags j, i_rip j, nth 6 (i_stack j) 0))
    | _ => (0, 0, 0, 0, (0, 0, 0, 0, 0)) end) (run (astep (lay 256)) (start_state 0 mach0) ping) = Some (8300, 6, 701, 43, (4304, 3, 70, 601, 42)).
Proof. split; [apply lay_wf; lia|]. split; [apply mach0_ok|]. vm_compute. reflexivity. Qed.

Example switch_records_ex : option_map (fun s => (ld (mem (ma s)) (1000 + 256), cur s)) (run (astep (lay 256)) (start_state 0 mach0) (firstn 5 ping)) = Some (2000, 0%nat).
Proof. vm_compute. reflexivity. Qed.

(** In this run coroutine 1 starts as new_start_partial says. *)
Example new_start_ex : exists s post i x mid j pre, run (astep (lay 256)) (start_state 0 mach0) (firstn 3 ping) = Some s /\
  hist s = post ++ AIn 1 i x :: mid ++ ABorn 1 j :: pre /\ never_left 1 mid /\ i_regs i = [0; 0; 0; 0; 0; 0; 0; 0; 2000; 0; 8440; 0; 0; 0; 0; 8440] /\ i_rip i = 77 /\ aligned i.
Proof.
  destruct (run (astep (lay 256)) (start_state 0 mach0) (firstn 3 ping)) as [s|] eqn:E; [|exfalso; assert (F : option_map (fun _ => tt) (run (astep (lay 256)) (start_state 0 mach0) (firstn 3 ping)) = None) by (rewrite E; reflexivity); vm_compute in F; discriminate F].
  assert (H : option_map hist (run (astep (lay 256)) (start_state 0 mach0) (firstn 3 ping)) = Some (hist s)) by (rewrite E; reflexivity).
  remember (hist s) as h eqn:Eh in H. vm_compute in H. injection H as H. exists s, [].
  match type of H with [AIn 1 ?i ?x; ?a; ABorn 1 ?j] = _ => exists i, x, [a], j, [] end. split; auto. split; [rewrite <- Eh, <- H; reflexivity|].
  split; [intros e [<-|[]]; discriminate|]. repeat split.
Qed.

(** C55 fails for stack sizes that are not multiples of 16: with 1000 bytes the stack is misaligned in every function. *)
Theorem new_start_align_refuted : exists L c m ls s post d i x mid j pre, wf L /\ start_ok L c m /\ run (astep L) (start_state c m) ls = Some s /\
  hist s = post ++ AIn d i x :: mid ++ ABorn d j :: pre /\ never_left d mid /\ lo L d mod 4096 = 0 /\ ~ aligned i.
Proof.
  exists (lay 1000), 0%nat, mach0, (firstn 3 ping).
  destruct (run (astep (lay 1000)) (start_state 0 mach0) (firstn 3 ping)) as [s|] eqn:E; [|exfalso; assert (F : option_map (fun _ => tt) (run (astep (lay 1000)) (start_state 0 mach0) (firstn 3 ping)) = None) by (rewrite E; reflexivity); vm_compute in F; discriminate F].
  assert (H : option_map hist (run (astep (lay 1000)) (start_state 0 mach0) (firstn 3 ping)) = Some (hist s)) by (rewrite E; reflexivity).
  remember (hist s) as h eqn:Eh in H. vm_compute in H. injection H as H. exists s, [], 1%nat.
  match type of H with [AIn 1 ?i ?x; ?a; ABorn 1 ?j] = _ => exists i, x, [a], j, [] end.
  split; [apply lay_wf; lia|]. split; [apply mach0_ok|]. split; auto. split; [rewrite <- Eh, <- H; reflexivity|].
  split; [intros e [<-|[]]; discriminate|]. split; [reflexivity|]. unfold aligned. vm_compute. discriminate.
Qed.
Print Assumptions new_start_align_refuted.
(** It also fails for sizes below 8: the first stack pointer, and the word stored there, lie below the stack. *)
Theorem new_start_tiny_refuted : forall L d M, word (blk L d) -> word (blk L d + blk_size) -> word (hi L d - 8) -> lo L d <= hi L d < lo L d + 8 ->
  (blk L d + blk_size <= hi L d - 8 \/ hi L d <= blk L d) ->
  ld (init_mem L d M) (blk L d + off SP) < lo L d.
Proof.
  intros L d M W1 W2 W3 H K. unfold blk_size in *.
  assert (E : init_mem L d M = sd (sd (sd (sd (sd M (blk L d + off SP) (hi L d - 8)) (blk L d + off BP) (hi L d - 8)) (blk L d + off_ip) (entry L)) (blk L d + off DI) (blk L d)) (hi L d - 8) (start L)).
  { unfold init_mem. f_equal. unfold off, off_ip. repeat (rewrite ld_sd_other by lia). now rewrite ld_sd. }
  rewrite E. unfold off, off_ip. repeat (rewrite ld_sd_other by lia). rewrite ld_sd by auto. lia.
Qed.
Print Assumptions new_start_tiny_refuted.
Example new_start_tiny_ex : ld (init_mem (lay 4) 1 (fun _ => 0)) (2000 + off SP) = 8188.
Proof. vm_compute. reflexivity. Qed.

(** C70, what holds: an interrupted coroutine finds its general purpose registers, flags, next instruction and the stack above its stack pointer. *)
Theorem preempt_partial : forall L c m ls s, wf L -> start_ok L c m -> run (astep L) (start_state c m) ls = Some s ->
  forall post d i x mid j y pre, hist s = post ++ AIn d i x :: mid ++ ACut d j y :: pre -> never_left d mid -> i = j.
Proof.
  intros L c m ls s W O R post d i x mid j y pre E N. pose proof (switch_preserves L c m ls s W O R _ _ _ _ _ E) as P.
  assert (Q : left_with d (mid ++ ACut d j y :: pre) = Some j).
  { clear - N. induction mid as [|e h IH]; simpl; [now rewrite Nat.eqb_refl|].
    assert (N' : never_left d h) by (intros z Z; apply N; now right). pose proof (N e (or_introl eq_refl)) as Ne.
    destruct e; auto; (destruct (Nat.eqb_spec c d); [contradiction|auto]). }
  congruence.
Qed.
Print Assumptions preempt_partial.
(** Coroutine 0 is interrupted, coroutine 1 runs and calls switch_to(1, 0). *)
Definition cut : list alabel :=
  [LInit 1; LWork (some_regs 4304) 70 12 600 [(4300, 42); (4310, 41)]; LSignal 1 [(4150, 9)]; LWork (some_regs 8300) 6 13 700 []; LSwitch 0 701].
Definition cut_view (h : list aevent) : option (image * extra * (image * extra)) :=
  match h with AIn 0 i x :: ACall 1 _ :: AIn 1 _ _ :: ACut 0 j y :: _ => Some (i, x, (j, y)) | _ => None end.
Lemma cut_run : exists s i x b d e j y pre, run (astep (lay 256)) (start_state 0 mach0) cut = Some s /\
  hist s = AIn 0 i x :: ACall 1 b :: AIn 1 d e :: ACut 0 j y :: pre /\ x_vec x = 13 /\ x_vec y = 12 /\ nth 124 (x_red x) 0 = 0 /\ nth 124 (x_red y) 0 = 42 /\
  nth 6 (i_stack i) 0 = 41.
Proof.
  destruct (run (astep (lay 256)) (start_state 0 mach0) cut) as [s|] eqn:E; [|exfalso; assert (F : option_map (fun _ => tt) (run (astep (lay 256)) (start_state 0 mach0) cut) = None) by (rewrite E; reflexivity); vm_compute in F; discriminate F].
  assert (H : option_map hist (run (astep (lay 256)) (start_state 0 mach0) cut) = Some (hist s)) by (rewrite E; reflexivity).
  remember (hist s) as h eqn:Eh in H. vm_compute in H. injection H as H. exists s.
  match type of H with AIn 0 ?i ?x :: ACall 1 ?b :: AIn 1 ?d ?e :: ACut 0 ?j ?y :: ?pre = _ => exists i, x, b, d, e, j, y, pre end.
  split; auto. split; [rewrite <- Eh, <- H; reflexivity|]. repeat split.
Qed.
(** The hypotheses of preempt_partial are met by it. *)
Example preempt_ex : exists s i x mid j y pre, run (astep (lay 256)) (start_state 0 mach0) cut = Some s /\
  hist s = [] ++ AIn 0 i x :: mid ++ ACut 0 j y :: pre /\ never_left 0 mid.
Proof.
  destruct cut_run as (s & i & x & b & d & e & j & y & pre & R & H & _). exists s, i, x, [ACall 1 b; AIn 1 d e], j, y, pre. split; auto. split; auto.
  intros z [<-|[<-|[]]]; simpl; auto.
Qed.
(** C70 is false: an interrupted coroutine continues with the vector registers of another... *)
Theorem preempt_vec_refuted : exists L c m ls s, wf L /\ start_ok L c m /\ run (astep L) (start_state c m) ls = Some s /\ ~ keeps_vec (hist s).
Proof.
  destruct cut_run as (s & i & x & b & d & e & j & y & pre & R & H & V1 & V2 & _). exists (lay 256), 0%nat, mach0, cut, s.
  split; [apply lay_wf; lia|]. split; [apply mach0_ok|]. split; auto. intros K. specialize (K [] 0%nat i x _ H y eq_refl). lia.
Qed.
Print Assumptions preempt_vec_refuted.
(** ...and its red zone, in which compiled code keeps local variables of leaf functions, is overwritten by the instruction of switch_to that
    pushes the flags and the address to return to. *)
Theorem preempt_red_refuted : exists L c m ls s, wf L /\ start_ok L c m /\ run (astep L) (start_state c m) ls = Some s /\ ~ keeps_red (hist s).
Proof.
  destruct cut_run as (s & i & x & b & d & e & j & y & pre & R & H & _ & _ & V1 & V2 & _). exists (lay 256), 0%nat, mach0, cut, s.
  split; [apply lay_wf; lia|]. split; [apply mach0_ok|]. split; auto. intros K. specialize (K [] 0%nat i x _ H y eq_refl). rewrite K in V1. lia.
Qed.
Print Assumptions preempt_red_refuted.
