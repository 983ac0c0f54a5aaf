(** C41: the priority of a coroutine. *)
From Coq Require Import ZArith List Bool Lia.
From Verif Require Import PrioModel.
Import ListNotations.
Local Open Scope Z_scope.

(** What a request for priority z should mean. *)
Definition wanted (z : Z) : Z := Z.max 0 (Z.min 99 z).

Lemma set_priority_prio : forall s z, idle s = false -> prio (set_priority s z) = wanted z.
Proof.
  intros s z I. unfold set_priority, wanted. rewrite I. cbn [prio].
  destruct (Z.leb_spec 100 z); [destruct (Z.ltb_spec (100 - 1) 0)|destruct (Z.ltb_spec z 0)]; lia.
Qed.

(** Always in 0..99, whatever was requested, for every history of calls, and priority() agrees with priority__. *)
Theorem prio_range : forall n ls, let s := fold_left prstep ls (create n) in 0 <= prio s <= 99 /\ priority s = prio s.
Proof.
  intros n ls. assert (H : forall ls s, idle s = false -> 0 <= prio s <= 99 -> 0 <= prio (fold_left prstep ls s) <= 99).
  { clear. induction ls as [|l ls IH]; intros s I R; [auto|]. apply IH.
    - destruct l; simpl; unfold set_priority; rewrite ?I; auto.
    - destruct l as [z|z|]; simpl; auto; rewrite set_priority_prio by auto; unfold wanted; lia. }
  cbv zeta. assert (R : 0 <= prio (fold_left prstep ls (create n)) <= 99).
  { apply H; [reflexivity|]. unfold create. rewrite set_priority_prio by reflexivity. unfold wanted. lia. }
  split; auto. unfold priority, to_size. apply Z.mod_small. lia.
Qed.
Print Assumptions prio_range.

(** A request of type int is clamped. *)
Theorem prio_int : forall n ls z, prio (set_priority (fold_left prstep ls (create n)) z) = wanted z.
Proof.
  intros n ls z. apply set_priority_prio. assert (H : forall ls s, idle s = false -> idle (fold_left prstep ls s) = false).
  { clear. induction ls as [|l ls IH]; intros s I; auto. apply IH. destruct l; simpl; unfold set_priority; rewrite ?I; auto. }
  apply H. reflexivity.
Qed.
Print Assumptions prio_int.

(** Taking over the priority of another coroutine (co_env.cpp 108, 162) loses nothing. *)
Theorem prio_inherit : forall n ls m ls', let s := fold_left prstep ls (create n) in let t := fold_left prstep ls' (create m) in
  prio (set_priority s (to_int (priority t))) = prio t.
Proof.
  intros n ls m ls' s t. unfold s. rewrite prio_int. destruct (prio_range m ls') as [R Q]. fold t in R, Q. rewrite Q.
  unfold to_int, wanted. rewrite Z.mod_small by lia. destruct (Z.ltb_spec (prio t) (2 ^ 31)); lia.
Qed.
Print Assumptions prio_inherit.

(** The configured priority, a size_t: right below 2^31 ... *)
Theorem prio_config_partial : forall n, 0 <= n < 2 ^ 31 -> prio (create n) = wanted n.
Proof.
  intros n R. unfold create. rewrite set_priority_prio by reflexivity. f_equal. unfold to_int. rewrite Z.mod_small by lia.
  destruct (Z.ltb_spec n (2 ^ 31)); lia.
Qed.
Print Assumptions prio_config_partial.
(** ... wrong above: a huge number can mean highest priority. *)
Theorem prio_config_refuted : exists n, 0 <= n < 2 ^ 64 /\ prio (create n) <> wanted n /\ prio (create n) = 0.
Proof. exists (2 ^ 31). split; [lia|]. split; [discriminate|reflexivity]. Qed.
Print Assumptions prio_config_refuted.
Example prio_ex1 : prio (create 42) = 42 /\ prio (create 100) = 99 /\ prio (set_priority (create 7) (-5)) = 0 /\
  pubs (set_priority (set_env (create 7)) 150) = [(7, 99)] /\ pubs (set_priority (set_env (create 99)) 150) = [].
Proof. repeat split. Qed.
(** Handlers hear of every change after the coroutine got its thread, with the value before and after. *)
Theorem prio_event : forall n ls z, let s := fold_left prstep ls (create n) in let s' := set_priority s z in
  In Env ls -> pubs s' = if prio s =? prio s' then pubs s else (prio s, prio s') :: pubs s.
Proof.
  intros n ls z s s' Q. assert (E : envd s = true).
  { unfold s. assert (K : forall ls s, envd s = true -> envd (fold_left prstep ls s) = true).
    { clear. induction ls as [|l ls IH]; intros s I; auto. apply IH. destruct l; simpl; unfold set_priority; destruct (idle s); auto. }
    clear s s'. revert Q. generalize (create n). induction ls as [|l ls IH]; intros s; [intros []|].
    intros [-> |Q]; cbn [fold_left]; auto. }
  assert (I : idle s = false).
  { unfold s. assert (H : forall ls s, idle s = false -> idle (fold_left prstep ls s) = false).
    { clear. induction ls as [|l ls IH]; intros s I; auto. apply IH. destruct l; simpl; unfold set_priority; rewrite ?I; auto. }
    apply H. reflexivity. }
  unfold s', set_priority. rewrite I, E. cbn [prio pubs]. destruct (prio s =? _); reflexivity.
Qed.
Print Assumptions prio_event.
(** Before that they hear of nothing. *)
Theorem prio_no_event : forall n ls, ~ In Env ls -> pubs (fold_left prstep ls (create n)) = [].
Proof.
  intros n ls N. assert (H : forall ls s, envd s = false -> pubs s = [] -> ~ In Env ls -> pubs (fold_left prstep ls s) = []).
  { clear. induction ls as [|l ls IH]; intros s E P N; auto. cbn [fold_left]. apply IH.
    - destruct l; simpl; unfold set_priority; [destruct (idle s); auto..|]. exfalso. apply N. now left.
    - destruct l; simpl; unfold set_priority; [destruct (idle s); cbn [pubs]; rewrite ?E; auto..|auto].
    - intros X. apply N. now right. }
  apply H; auto.
Qed.
Print Assumptions prio_no_event.
Example prio_event_ex : pubs (fold_left prstep [SetP 5; Env; SetP 9; SetP 300; SetC 99] (create 42)) = [(9, 99); (5, 9)] /\
  pubs (fold_left prstep [SetP 5; SetP 9] (create 42)) = [].
Proof. split; reflexivity. Qed.
