(** C82-C84: I/O objects and descriptors. *)
From Coq Require Import List Arith Bool Lia.
From Verif Require Import Base HistSpec FdSpec FdModel FdProofs.
Import ListNotations.

(** All answers of the kernel good. *)
Definition good : ans := AGot true true.

(** ** C82: what is done through an object is done to its own file *)
(** Refuted by copies, which get_endpoint and optional hand out: socket 0 is copied to 1 and closed; socket 2 gets the same
    descriptor; what is then written through 1 goes to the connection of 2. *)
Theorem own_file_copy_refuted : exists ls s, Forall (fun l => l <> LClose 0 false) ls /\ run fstep finit ls = Some s /\
  made_for (fh s) 1 = Some 3 /\ In (VAct 1 4 true) (fh s) /\ made_for (fh s) 2 = Some 4.
Proof.
  exists [LMake KSocket 0 good; LCopy 1 0; LClose 0 true; LMake KSocket 2 good; LIo 1]. eexists.
  split; [repeat constructor; discriminate|]. split; [vm_compute; reflexivity|]. repeat split; cbn; auto.
Qed.
Print Assumptions own_file_copy_refuted.
(** Refuted without copies: close reports an error (EINTR, EIO) although the descriptor is gone; the object keeps it, and closing
    again closes the file of another object, through which nothing works any more. *)
Theorem own_file_close_refuted : exists ls s, Forall (fun l => forall p o, l <> LCopy p o) ls /\ run fstep finit ls = Some s /\
  made_for (fh s) 0 = Some 3 /\ In (VRel 0 4) (fh s) /\ made_for (fh s) 1 = Some 4 /\ In (VBad 1) (fh s).
Proof.
  exists [LMake KSocket 0 good; LClose 0 false; LMake KOpen 1 good; LClose 0 true; LIo 1]. eexists.
  split; [repeat constructor; discriminate|]. split; [vm_compute; reflexivity|]. repeat split; cbn; auto 10.
Qed.
Print Assumptions own_file_close_refuted.
(** In all executions: as long as the object's file is open, every call goes there; after a close through this very object
    succeeded nothing is done through it any more; and in executions without copies and failing closes every call goes to the
    object's own file.  What is missing is what is false: calls after another copy, or a failed close, gave up the descriptor. *)
Theorem own_file_partial : forall ls s, run fstep finit ls = Some s ->
  own_file_while_open (fh s) /\ closed_is_closed (fh s) /\ (Forall (fun l => plain l = true) ls -> own_file (fh s)).
Proof.
  intros ls s R. pose proof (FI_reach _ _ R) as V. split; [|split]; [apply (f_h1 _ V)|apply (f_h2 _ V)|].
  intros F. apply (p_h _ (FP_reach _ _ F R)).
Qed.
Print Assumptions own_file_partial.
(** Two sockets, an accepted connection; one is closed and its descriptor used again; calls on all. *)
Example own_file_example : exists ls s, run fstep finit ls = Some s /\ Forall (fun l => plain l = true) ls /\
  In (VAct 0 3 true) (fh s) /\ In (VAct 2 5 true) (fh s) /\ In (VAct 1 4 true) (fh s) /\ In (VRel 1 4) (fh s) /\ In (VBad 1) (fh s) /\ In (VAct 3 6 true) (fh s).
Proof.
  exists [LMake KSocket 0 good; LMake KOpen 1 good; LMake (KAccept 0) 2 good; LIo 2; LIo 1; LClose 1 true; LMake KSocket 3 good; LIo 1; LIo 3]. eexists.
  split; [vm_compute; reflexivity|]. split; [repeat constructor|]. cbn. auto 20.
Qed.

(** ** C83: no descriptor is lost *)
(** Refuted: when init_fd fails, open, socket and accept hand out an object without the descriptor, which stays open: nothing
    anybody does through the library closes it. *)
Theorem descriptor_leak_refuted : exists ls s o d, run fstep finit ls = Some s /\ In (VMade o d) (fh s) /\ made_for (fh s) o = Some d /\
  forall ls' s', run fstep s ls' = Some s' -> ~ released (fh s') d.
Proof.
  exists [LMake KSocket 0 (AGot true false)]. eexists. exists 0, 3. split; [vm_compute; reflexivity|].
  split; [left; reflexivity|]. split; [reflexivity|]. intros ls' s' R. eapply lost_for_ever; [| |exact R].
  - apply (FI_reach [LMake KSocket 0 (AGot true false)]). reflexivity.
  - instantiate (1 := 3). split; [reflexivity|]. split; [reflexivity|]. intros [|o]; cbn; discriminate.
Qed.
Print Assumptions descriptor_leak_refuted.
(** Refuted also when init_fd succeeds: an object that goes out of scope does not close its descriptor. *)
Theorem descriptor_scope_refuted : exists ls s o d, Forall (fun l => tidy l = true) ls /\ run fstep finit ls = Some s /\ In (VMade o d) (fh s) /\
  forall ls' s', run fstep s ls' = Some s' -> ~ released (fh s') d.
Proof.
  exists [LMake KSocket 0 good; LDrop 0]. eexists. exists 0, 3. split; [repeat constructor|]. split; [vm_compute; reflexivity|].
  split; [right; left; reflexivity|]. intros ls' s' R. eapply lost_for_ever; [| |exact R].
  - apply (FI_reach [LMake KSocket 0 good; LDrop 0]). reflexivity.
  - instantiate (1 := 3). split; [reflexivity|]. split; [reflexivity|]. intros [|o]; cbn; discriminate.
Qed.
Print Assumptions descriptor_scope_refuted.
(** If init_fd succeeds and objects are destroyed only after their file was closed or while another object stands for the same
    one, then at every moment each file is closed already or there is an object whose close closes it.  What is missing is
    those two conditions, without which it is false. *)
Theorem descriptor_kept_partial : forall ls s o d, Forall (fun l => tidy l = true) ls -> run fstep finit ls = Some s -> dropped_well (fh s) ->
  In (VMade o d) (fh s) -> released (fh s) d \/
  exists p s', made_for (fh s) p = Some d /\ fstep s (LClose p true) = Some s' /\ released (fh s') d.
Proof.
  intros ls s o d F R D I. pose proof (FI_reach _ _ R) as V. pose proof (FL_reach _ _ F R D) as W.
  assert (Dec : released (fh s) d \/ ~ released (fh s) d).
  { destruct (existsb (fun v => match v with VRel _ d' => d =? d' | _ => false end) (fh s)) eqn:X.
    - left. apply existsb_exists in X. destruct X as (v&Iv&E). destruct v; try discriminate. apply Nat.eqb_eq in E. subst. eexists; eauto.
    - right. intros [q Iq]. assert (Y : existsb (fun v => match v with VRel _ d' => d =? d' | _ => false end) (fh s) = true).
      { apply existsb_exists. eexists. split; [exact Iq|]. apply Nat.eqb_refl. } congruence. }
  destruct Dec as [Rd|Nd]; auto. right. destruct (l_some _ W _ _ I) as [X|[p M]]; [contradiction|].
  destruct (l_fd _ W _ _ M Nd) as [f Ob]. pose proof (f_own _ V _ _ _ Ob M Nd) as T.
  exists p. cbn [fstep]. rewrite Ob, T. eexists. split; [exact M|]. split; [reflexivity|]. exists p. right. left. reflexivity.
Qed.
Print Assumptions descriptor_kept_partial.
(** Executions that meet the conditions: a copy is made and the original dropped; the copy is closed, then dropped. *)
Example descriptor_kept_example : exists ls s, Forall (fun l => tidy l = true) ls /\ run fstep finit ls = Some s /\ dropped_well (fh s) /\
  In (VMade 0 3) (fh s) /\ made_for (fh s) 1 = None /\ released (fh s) 3 /\ In (VMade 2 4) (fh s) /\ ~ released (fh s) 4.
Proof.
  exists [LMake KSocket 0 good; LCopy 1 0; LDrop 0; LMake KOpen 2 good; LClose 1 true; LDrop 1]. eexists.
  split; [repeat constructor|]. split; [vm_compute; reflexivity|]. cbn [fh].
  split; [|split; [|split; [|split; [|split]]]].
  - apply always_at_cons. split; [intros d E; left; exists 1; right; left; cbn in E; now injection E as <-|].
    do 3 (apply always_at_cons; split; [exact I|]).
    apply always_at_cons. split; [intros d E; right; exists 1; split; [discriminate|exact E]|].
    do 2 (apply always_at_cons; split; [exact I|]). apply always_at_nil.
  - cbn. auto 10.
  - reflexivity.
  - exists 1. cbn. auto.
  - cbn. auto.
  - intros [o X]. cbn in X. destruct X as [X|[X|[X|[X|[X|[X|[X|[]]]]]]]]; discriminate.
Qed.

(** ** C84: I/O calls never block the thread *)
(** Refuted: co_io::fcntl and ioctl pass on the address of their arguments (C69); setting any flag may end the non-blocking mode,
    and the next read blocks the thread with all its coroutines. *)
Theorem io_blocks_refuted : exists ls s, Forall (fun l => plain l = true) ls /\ run fstep finit ls = Some s /\
  made_for (fh s) 0 = Some 3 /\ In (VAct 0 3 false) (fh s).
Proof.
  exists [LMake KSocket 0 good; LFcntl 0 false; LIo 0]. eexists. split; [repeat constructor|]. split; [vm_compute; reflexivity|].
  split; [reflexivity|]. cbn. auto.
Qed.
Print Assumptions io_blocks_refuted.
(** Unless a client sets flags, every call on an object's own file is in non-blocking mode, so every call is if there are no copies
    and failing closes; and connect sleeps in select no longer than the time-out in total.  What is missing are executions with
    such settings, for which it is false. *)
Theorem io_blocks_partial : (forall ls s, Forall (fun l => calm l = true) ls -> run fstep finit ls = Some s ->
    own_never_blocks (fh s) /\ (Forall (fun l => plain l = true) ls -> never_blocks (fh s))) /\
  (forall t slept r, selects t slept = Some r -> list_sum slept + r = t).
Proof.
  split.
  - intros ls s F R. pose proof (n_h _ (FN_reach _ _ F R)) as H. split; auto. intros P n v o E.
    pose proof (H n v o E) as H1. pose proof (p_h _ (FP_reach _ _ P R) n v o E) as H2. destruct v; auto.
  - intros t slept. revert t. induction slept as [|x l IH]; intros t r E; cbn [selects list_sum] in *.
    + injection E as <-. reflexivity.
    + destruct (Nat.leb_spec x t); [|discriminate]. specialize (IH _ _ E). unfold list_sum in *. cbn. lia.
Qed.
Print Assumptions io_blocks_partial.
Example io_blocks_example : exists ls s, Forall (fun l => calm l = true) ls /\ Forall (fun l => plain l = true) ls /\ run fstep finit ls = Some s /\
  In (VAct 0 3 true) (fh s) /\ In (VAct 1 4 true) (fh s) /\ selects 10 [4; 6; 0; 0] = Some 0.
Proof.
  exists [LMake KSocket 0 good; LMake (KAccept 0) 1 good; LIo 1; LClose 0 true]. eexists.
  split; [repeat constructor|]. split; [repeat constructor|]. split; [vm_compute; reflexivity|]. cbn. auto 10.
Qed.
