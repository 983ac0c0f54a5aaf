(** C121: a coroutine is made as its options say. *)
From Coq Require Import List NArith String Bool.
From Verif Require Import ConfigModel.
Import ListNotations.

(** What was asked for: the value of the last option of a kind, or the default. *)
Fixpoint asked {A} (kind : opt -> option A) (d : A) (opts : list opt) : A :=
  match opts with
  | [] => d
  | o :: r => asked kind (match kind o with Some v => v | None => d end) r
  end.
Definition k_stack (o : opt) := match o with WStack n => Some n | _ => None end.
Definition k_name (o : opt) := match o with WName s => Some s | _ => None end.
Definition k_prio (o : opt) := match o with WPrio n => Some n | _ => None end.
Definition k_bind (o : opt) := match o with WBind e => Some e | _ => None end.
Definition k_shared (o : opt) := match o with WShared b => Some b | _ => None end.
(** The last option of a kind counts, whatever stands before and whatever other kinds stand after it. *)
Theorem asked_last : forall A (kind : opt -> option A) d pre o v post, kind o = Some v -> (forall p, In p post -> kind p = None) -> asked kind d (pre ++ o :: post) = v.
Proof.
  intros A kind d pre o v post K P. revert d. induction pre as [|x pre IH]; intros d; simpl; [|apply IH]. rewrite K. clear K. revert v.
  induction post as [|p post IH]; intros v; simpl; [reflexivity|]. rewrite (P p) by now left. apply IH. intros q H. apply P. now right.
Qed.
Print Assumptions asked_last.
Theorem asked_none : forall A (kind : opt -> option A) d opts, (forall p, In p opts -> kind p = None) -> asked kind d opts = d.
Proof. intros A kind d opts P. induction opts as [|p opts IH]; simpl; [reflexivity|]. rewrite (P p) by now left. apply IH. intros q H. apply P. now right. Qed.
Print Assumptions asked_none.

Lemma config_asked : forall opts c, fold_left set_opt opts c =
  mkCfg (asked k_stack (stack_size c) opts) (asked k_name (cname c) opts) (asked k_prio (priority c) opts) (asked k_bind (bind_env c) opts) (asked k_shared (shared_stack c) opts).
Proof. induction opts as [|o opts IH]; intros c; simpl; [now destruct c|]. rewrite IH. destruct o; reflexivity. Qed.

(** Name and priority as asked for; bound to the env asked for and marked so that it is not moved; on a shared stack if asked for, otherwise on a
    stack of its own of the size asked for; without with_bind_env where the manager puts it. *)
Theorem config_made : forall dss best opts, let m := make dss best opts in
  mname m = asked k_name "__unknown__"%string opts /\ prio_req m = asked k_prio 99%N opts /\
  (forall e, asked k_bind None opts = Some e -> on_env m = e /\ f_bind m = true) /\ (asked k_bind None opts = None -> on_env m = best /\ f_bind m = false) /\
  (asked k_shared false opts = true -> own_stack m = None /\ f_shared m = true) /\
  (asked k_shared false opts = false -> own_stack m = Some (asked k_stack dss opts) /\ f_shared m = false).
Proof.
  intros dss best opts. unfold make, configure. rewrite config_asked. simpl. split; [reflexivity|]. split; [reflexivity|].
  split; [intros e ->; auto|]. split; [intros ->; auto|]. split; intros ->; auto.
Qed.
Print Assumptions config_made.
Example config_example : make 131072 7 [WPrio 3; WBind (Some 2); WName "worker"; WPrio 5; WShared true; WStack 4096; WShared false] =
  mkMade (Some 4096%N) 5 "worker" true false 2.
Proof. reflexivity. Qed.
