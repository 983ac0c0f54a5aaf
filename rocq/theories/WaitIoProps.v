(** C125: transfers wait instead of reporting that they would block. *)
From Coq Require Import List Arith ZArith Bool Lia.
From Verif Require Import Base IoSpec IoModel IoProps.
From Verif Require Import WaitIoModel.
Import ListNotations.

(** A call of [f] that fails, fails for a reason other than those in [temp]: the last answer of the system was an error outside it. *)
Definition waits_out (temp : errno -> Prop) (f : iofun) : Prop :=
  forall e0 answers s, (forall a, In a answers -> capped a) -> run (fun_step f) (fun_init e0) answers = Some s -> ires s = Some (-1)%Z ->
  exists es e, answers = map Err (es ++ [e]) /\ ~ temp e /\ (forall x, In x es -> temp x).

Lemma waits_truthful : forall temp f, temps (fun_retry f) temp -> waits_out temp f.
Proof.
  intros temp f T e0 answers s C R E. destruct (io_run_shape _ _ T answers e0 s (-1)%Z C R E) as (es&a&P&Q&A). destruct a as [n|e]; [exfalso; lia|].
  destruct A as [A _]. exists es, e. rewrite map_app. auto.
Qed.
(** accept, send, recv, recvfrom, sendmsg and recvmsg wait out would-block and interruption; read and write would-block. *)
Theorem waits_partial : forall f, match f with
  | FRead | FWrite => waits_out blocks f
  | FSendto => True
  | _ => waits_out blocks_or_intr f
  end.
Proof. intros []; try exact I; apply waits_truthful; try apply temps_io; apply temps_net. Qed.
Print Assumptions waits_partial.
(** Any of these calls goes on exactly as long as it gets such answers: it has not returned after any number of them, and returns with the first other answer
    (sendto: with the first answer). *)
Theorem waits_goes_on : forall f e0 es, (forall x, In x es -> fun_retry f x = true) ->
  (exists s, run (fun_step f) (fun_init e0) (map Err es) = Some s /\ ires s = None) /\
  (forall n, (Z.of_nat n <= maxrw)%Z -> exists s, run (fun_step f) (fun_init e0) (map Err es ++ [Ret n]) = Some s /\ ires s = Some (Z.of_nat n)) /\
  (forall e, fun_retry f e = false -> exists s, run (fun_step f) (fun_init e0) (map Err es ++ [Err e]) = Some s /\ ires s = Some (-1)%Z /\ ierr s = e).
Proof.
  intros f e0 es T. assert (P : exists e1, run (fun_step f) (fun_init e0) (map Err es) = Some (mkIo e1 None)).
  { revert e0 T. induction es as [|x es IH]; intros e0 T; [now exists e0|]. cbn [map run]. unfold fun_step at 1, iostep. simpl. unfold round. simpl.
    rewrite (T x (or_introl eq_refl)). apply (IH x). intros y I. apply T. now right. }
  destruct P as [e1 P]. split; [eexists; split; [exact P|reflexivity]|]. split.
  - intros n N. rewrite run_app, P. cbn [run]. unfold fun_step, iostep. simpl. rewrite toint_small by exact N. unfold round.
    destruct (Z.eqb_spec (Z.of_nat n) (-1)); [lia|]. eexists. split; reflexivity.
  - intros e F. rewrite run_app, P. cbn [run]. unfold fun_step, iostep. simpl. unfold round. simpl. rewrite F. eexists. split; [reflexivity|split; reflexivity].
Qed.
Print Assumptions waits_goes_on.
(** REFUTED for sendto: a full socket buffer makes it fail, where send would wait. *)
Theorem sendto_refuted : ~ waits_out blocks FSendto /\
  (exists s, run (fun_step FSendto) (fun_init EINPROGRESS) [Err EAGAIN] = Some s /\ ires s = Some (-1)%Z) /\
  (exists s, run (fun_step FSend) (fun_init EINPROGRESS) [Err EAGAIN; Ret 5] = Some s /\ ires s = Some 5%Z).
Proof.
  split; [|split; eexists; split; reflexivity]. intros W. specialize (W EINPROGRESS [Err EAGAIN] _ ltac:(intros a [<-|[]]; exact I) eq_refl eq_refl).
  destruct W as (es&e&E&N&_). apply N. left. destruct es as [|x es]; [|destruct es; discriminate E]. now injection E as <-.
Qed.
Print Assumptions sendto_refuted.
(** REFUTED for read and write: an interrupted call fails, where recv and send would try again. *)
Theorem read_intr_refuted : forall f, f = FRead \/ f = FWrite -> ~ waits_out blocks_or_intr f /\
  (exists s, run (fun_step f) (fun_init EAGAIN) [Err EAGAIN; Err EINTR] = Some s /\ ires s = Some (-1)%Z).
Proof.
  intros f F. assert (R : run (fun_step f) (fun_init EAGAIN) [Err EAGAIN; Err EINTR] = Some (mkIo EINTR (Some (-1)%Z))) by (destruct F as [-> | ->]; reflexivity).
  split; [|eexists; split; [exact R|reflexivity]]. intros W. destruct (W EAGAIN [Err EAGAIN; Err EINTR] _ ltac:(intros a [<-|[<-|[]]]; exact I) R eq_refl) as (es&e&E&N&_).
  apply N. right. destruct es as [|x [|y es]]; simpl in E; try congruence; destruct es; discriminate E.
Qed.
Print Assumptions read_intr_refuted.
Example waits_example : exists s, run (fun_step FRecvfrom) (fun_init EAGAIN) [Err EINTR; Err EAGAIN; Err (EOTHER 104)] = Some s /\ ires s = Some (-1)%Z /\ ierr s = EOTHER 104.
Proof. eexists. split; [vm_compute; reflexivity|split; reflexivity]. Qed.
