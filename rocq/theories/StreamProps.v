(** C103: the size given to a pipeline limits how many items are under way in it. *)
From Coq Require Import List Arith ZArith Bool Lia.
From Verif Require Import Base PipeSpec PipeModel PipeProofs StreamModel.
Import ListNotations.

(** At most as many items as were asked for; a channel of size 0 holds the item that is being handed over. *)
Definition limit (z : Z) : nat := Nat.max 1 (Z.to_nat z).
Local Arguments limit : simpl never.

(** *** What holds: the first channel of a pipeline made by a constructor. *)
Definition bounded (b : nat) (V : Type) (p : pst V) : Prop := length (buf V (chs V p 0)) <= b.
Lemma src_bound : forall V gen z (sts : list (stage V)) p p', (0 <= z)%Z -> bounded (limit z) V p -> step_src V gen (chan_of z) p = Some p' -> bounded (limit z) V p'.
Proof.
  intros V gen z sts p p' Z B S. unfold bounded in *. unfold step_src in S.
  destruct (cts V (stg V p 0) 0); try discriminate.
  - destruct (gen (cnt V (stg V p 0))); injection S as <-; exact B.
  - destruct (clo V (chs V p 0)); [injection S as <-; exact B|]. destruct (room V (chan_of z) (chs V p 0)) eqn:R; [|discriminate]. injection S as <-.
    cbn - [limit]. rewrite app_length. simpl length. unfold room, chan_of in R. destruct (Z.ltb_spec z 0); [lia|]. destruct (Z.eqb_spec z 0) as [->|].
    + destruct (buf V (chs V p 0)); [|discriminate]. simpl. unfold limit. simpl. lia.
    + apply Nat.ltb_lt in R. unfold limit. destruct (Z.to_nat z); lia.
  - destruct (clo V (chs V p 0)); [injection S as <-; exact B|]. destruct (buf V (chs V p 0)) eqn:E; [|discriminate]. injection S as <-. cbn. rewrite E. simpl. lia.
  - injection S as <-. exact B.
Qed.
Lemma stage_bound : forall V (sts : list (stage V)) b p k j p', bounded b V p -> step_stage V sts p k j = Some p' -> bounded b V p'.
Proof.
  intros V sts b p k j p' B H. unfold bounded in *. unfold step_stage in H. destruct (nth_error sts k) as [st|]; [|discriminate].
  destruct (cts V (stg V p (S k)) j); try discriminate.
  - destruct (buf V (chs V p k)) as [|v r] eqn:E; [destruct (clo V (chs V p k)); [|discriminate]; injection H as <-; exact B|]. injection H as <-. cbn.
    destruct k as [|k]; [rewrite ?upd_same; cbn; rewrite E in B; simpl in B; lia|]. first [exact B | now rewrite upd_other by lia].
  - destruct (clo V (chs V p (S k))); injection H as <-; cbn; [exact B|]. first [exact B | now rewrite upd_other by lia].
  - destruct (joined V st (stg V p (S k))); [|discriminate]. injection H as <-. exact B.
  - injection H as <-. cbn. first [exact B | now rewrite upd_other by lia].
  - injection H as <-. cbn. destruct k as [|k]; [rewrite ?upd_same; exact B|]. first [exact B | now rewrite upd_other by lia].
Qed.
Theorem first_bound_partial : forall V gen z (sts : list (stage V)) ls p, (0 <= z)%Z ->
  run (pstep V gen (first_size (ByConstructor z)) sts) (pinit V sts) ls = Some p ->
  length (buf V (chs V p 0)) <= limit z /\ (sts = [] -> in_channels sts p <= limit z).
Proof.
  intros V gen z sts ls p Z H. assert (B : bounded (limit z) V p).
  { revert H. apply (run_inv _ (bounded (limit z) V)); [unfold bounded; simpl; lia|]. intros s [|k j| |] s' B S; cbn [pstep] in S.
    - eapply src_bound; eauto.
    - eapply stage_bound; eauto.
    - destruct (rend V s); [discriminate|]. unfold bounded, last_ch in *. destruct (buf V (chs V s (length sts))) as [|v r] eqn:E; [destruct (clo V (chs V s (length sts))); [|discriminate]; injection S as <-; exact B|].
      injection S as <-. cbn. destruct sts; [simpl in *; rewrite E in B; simpl in B; lia|]. simpl. exact B.
    - destruct (rcl V s); [discriminate|]. injection S as <-. unfold bounded, last_ch in *. cbn. destruct sts; [exact B|]. simpl. exact B. }
  split; [exact B|]. intros ->. unfold in_channels. simpl. unfold bounded in B. lia.
Qed.
Print Assumptions first_bound_partial.
Example first_bound_ex : exists p, run (pstep nat (fun i => Some i) (first_size (ByConstructor 2)) [SMap S]) (pinit nat [SMap S]) [Src;Src;Src;Src;Src] = Some p /\
  length (buf nat (chs nat p 0)) = limit 2 /\ pstep nat (fun i => Some i) (first_size (ByConstructor 2)) [SMap S] p Src = None.
Proof. eexists. split; [vm_compute; reflexivity|]. split; reflexivity. Qed.

(** *** What does not *)
(** The size given to stream is ignored: whatever it is, the first channel can hold any number of items. *)
Theorem stream_bound_refuted : forall (z : Z) (m : nat), exists ls p,
  run (pstep nat (fun i => Some i) (first_size (ByStream z)) []) (pinit nat []) ls = Some p /\ length (buf nat (chs nat p 0)) = m /\ in_channels [] p = m.
Proof.
  intros z m. assert (G : exists ls p, run (pstep nat (fun i => Some i) Unlimited []) (pinit nat []) ls = Some p /\
    cts nat (stg nat p 0) 0 = CSrc /\ clo nat (chs nat p 0) = false /\ length (buf nat (chs nat p 0)) = m).
  { induction m as [|m (ls&p&R&A&B&C)]; [exists []; eexists; split; [reflexivity|]; cbn; auto|].
    exists (ls ++ [Src; Src]). eexists. split; [rewrite run_app, R; cbn [run pstep]; unfold step_src at 1; rewrite A; cbn [run pstep]; unfold step_src; cbn; rewrite B; reflexivity|].
    cbn. rewrite app_length, C. simpl. split; [reflexivity|]. split; [exact B|lia]. }
  destruct G as (ls&p&R&A&B&C). exists ls, p. split; [exact R|]. split; [exact C|]. unfold in_channels. simpl. lia.
Qed.
Print Assumptions stream_bound_refuted.

(** A stage undoes the limit: its own channel is unlimited and it empties the first one. *)
Theorem stage_bound_refuted : forall (z : Z) (m : nat), (0 <= z)%Z -> exists ls p,
  run (pstep nat (fun i => Some i) (first_size (ByConstructor z)) [SMap S]) (pinit nat [SMap S]) ls = Some p /\ got nat p = [] /\ in_channels [SMap S] p = m.
Proof.
  intros z m Z. assert (G : exists ls p, run (pstep nat (fun i => Some i) (chan_of z) [SMap S]) (pinit nat [SMap S]) ls = Some p /\ got nat p = [] /\
    cts nat (stg nat p 0) 0 = CSrc /\ cts nat (stg nat p 1) 0 = CPop /\ clo nat (chs nat p 0) = false /\ clo nat (chs nat p 1) = false /\
    buf nat (chs nat p 0) = [] /\ length (buf nat (chs nat p 1)) = m).
  { induction m as [|m (ls&p&R&A0&A&B&C&D&E&F)]; [exists []; eexists; split; [reflexivity|]; cbn; auto 10|].
    assert (RM : room nat (chan_of z) (chs nat p 0) = true).
    { unfold room, chan_of. destruct (Z.ltb_spec z 0); [lia|]. rewrite E. destruct (Z.eqb_spec z 0); [reflexivity|]. apply Nat.ltb_lt. simpl. lia. }
    destruct (chan_of z) eqn:K; [exfalso; unfold chan_of in K; destruct (Z.ltb_spec z 0); [lia|]; destruct (z =? 0)%Z; discriminate| |].
    - exists (ls ++ [Src; Src; Run 0 0; Run 0 0; Src]). eexists. split.
      + rewrite run_app, R. cbn [run pstep]. unfold step_src at 1. rewrite A. cbn [run pstep]. unfold step_src at 1. cbn. rewrite C. cbn in RM. rewrite ?RM, ?E.
        cbn. try unfold step_stage at 1. cbn. rewrite B, ?E. cbn. try unfold step_stage at 1. cbn. rewrite D. cbn. unfold step_src. cbn. rewrite ?C. cbn. reflexivity.
      + cbn. rewrite app_length, F. simpl. repeat split; auto. lia.
    - exists (ls ++ [Src; Src; Run 0 0; Run 0 0]). eexists. split.
      + rewrite run_app, R. cbn [run pstep]. unfold step_src at 1. rewrite A. cbn [run pstep]. unfold step_src at 1. cbn. rewrite C. cbn in RM. rewrite ?RM, ?E.
        cbn. try unfold step_stage at 1. cbn. rewrite B, ?E. cbn. try unfold step_stage at 1. cbn. rewrite D. cbn. reflexivity.
      + cbn. rewrite app_length, F. simpl. repeat split; auto. lia. }
  destruct G as (ls&p&R&A0&_&_&_&_&E&F). exists ls, p. split; [exact R|]. split; [exact A0|]. unfold in_channels. simpl. rewrite E, F. simpl. lia.
Qed.
Print Assumptions stage_bound_refuted.
