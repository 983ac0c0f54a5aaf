(** Properties C19 and C20: co_call_once. *)
From Coq Require Import List Arith Bool Lia.
From Verif Require Import Base CallOnceSpec CallOnceModel CallOnceProofs.
Import ListNotations.

Definition two_calls : list lbl :=
  [Call 1; Call 2; Run 1; Run 2; Run 2; Run 1; Ends 1 true; Run 1; Call 2; Run 2; Run 2].

(** ** C19 *)
Theorem call_once_at_most_once : forall ls s, run ostep oinit ls = Some s -> starts (hist s) <= 1.
Proof.
  intros ls s Hr. pose proof (once_inv ls s Hr) as HI. destruct (flag s) eqn:F.
  - destruct (v_on s HI F) as [[A _]|[A _]]; lia.
  - destruct (v_off s HI F) as [A _]. lia.
Qed.
Print Assumptions call_once_at_most_once.

(** When every call has come back and there was one, the callable was started exactly once, and it ended. *)
Theorem call_once_exactly_once : forall ls s, run ostep oinit ls = Some s ->
  all_out (hist s) -> hist s <> [] -> starts (hist s) = 1 /\ exists u ok, In (OEnd u ok) (hist s).
Proof.
  intros ls s Hr Ha Hn. destruct (once_exactly s (once_inv ls s Hr) Ha Hn) as [A (u&k&B&_)]. split; auto. now exists u, k.
Qed.
Print Assumptions call_once_exactly_once.
Example call_once_ex : option_map (fun s => (starts (hist s), calls (hist s), ended (hist s), hist s)) (run ostep oinit two_calls)
  = Some (1, 3, 3, [ORet 2; OCall 2; ORet 1; OEnd 1 true; OStart 1; ORet 2; OCall 2; OCall 1]).
Proof. vm_compute. reflexivity. Qed.

(** The caller that runs the callable comes back only after the callable ended and the way it ended; every call, start,
    end and return is in its place. *)
Theorem call_once_runner_waits : forall ls s, run ostep oinit ls = Some s -> runner_waits (hist s).
Proof. intros ls s Hr. exact (v_rw s (once_inv ls s Hr)). Qed.
Print Assumptions call_once_runner_waits.

(** ** C20 *)
(** False in both halves: a caller comes back while the callable is still running, *)
Theorem call_once_returns_early_refuted : exists ls s, run ostep oinit ls = Some s /\
  In (ORet 2) (hist s) /\ In (OStart 1) (hist s) /\ (forall u ok, ~ In (OEnd u ok) (hist s)).
Proof.
  exists [Call 1; Call 2; Run 1; Run 1; Run 2; Run 2]. eexists. split; [vm_compute; reflexivity|].
  split; [vm_compute; tauto|]. split; [vm_compute; tauto|]. intros u ok H. vm_compute in H. intuition discriminate.
Qed.
Print Assumptions call_once_returns_early_refuted.

(** and an exception of the callable uses the flag up: later calls return although it never completed. *)
Theorem call_once_exception_refuted : exists ls s, run ostep oinit ls = Some s /\
  hd_error (hist s) = Some (ORet 2) /\ In (OThrow 1) (hist s) /\ (forall u, ~ In (OEnd u true) (hist s)) /\ all_out (hist s).
Proof.
  exists [Call 1; Run 1; Run 1; Ends 1 false; Run 1; Call 2; Run 2; Run 2]. eexists. split; [vm_compute; reflexivity|].
  split; [reflexivity|]. split; [vm_compute; tauto|].
  split; [intros u H; vm_compute in H; intuition discriminate|].
  intros t. do 3 (destruct t as [|t]; [vm_compute; exact I|]). exact I.
Qed.
Print Assumptions call_once_exception_refuted.

(** Missing from C20: this speaks of the moment when all calls are back and no exception left a call. *)
Theorem call_once_done_partial : forall ls s, run ostep oinit ls = Some s ->
  all_out (hist s) -> hist s <> [] -> (forall u, ~ In (OThrow u) (hist s)) -> exists u, In (OEnd u true) (hist s).
Proof.
  intros ls s Hr Ha Hn Ht. destruct (once_exactly s (once_inv ls s Hr) Ha Hn) as [_ (u&k&B&C)].
  exists u. destruct k; auto. exfalso. apply (Ht u). auto.
Qed.
Print Assumptions call_once_done_partial.
Example call_once_done_partial_ex : exists s, run ostep oinit two_calls = Some s /\ all_out (hist s) /\ hist s <> [] /\
  (forall u, ~ In (OThrow u) (hist s)).
Proof.
  eexists. split; [vm_compute; reflexivity|]. split; [intros t; do 3 (destruct t as [|t]; [vm_compute; exact I|]); exact I|].
  split; [discriminate|]. intros u H. vm_compute in H. intuition discriminate.
Qed.
