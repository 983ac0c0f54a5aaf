(** What a pipeline computes: the sequential meaning of each stage, and of a list of stages. *)
From Coq Require Import List Arith Bool Permutation.
Import ListNotations.

Section Spec.
  Variable V : Type.

  (** The stages a pipeline can be made of.  One type of values [V] stands for all the item types of the stages. *)
  Inductive stage :=
  | SMap (f : V -> V)
  | SFilter (p : V -> bool)
  | STake (n : nat)
  | SSkip (n : nat)
  | SGroup (n : nat) (f : list V -> V)
  | SReduce (f : V -> V -> V) (i : V)
  | SFork (k : nat) (f : V -> V).

  (** The full chunks of [n] consecutive elements; an incomplete tail is dropped. *)
  Definition chunks (n : nat) (l : list V) : list (list V) :=
    map (fun i => firstn n (skipn (i * n) l)) (seq 0 (length l / n)).

  (** Input and output of one stage when its whole input is available.  A fork with workers gives the results in any
      order; a fork without workers gives nothing. *)
  Definition stage_rel (st : stage) (xs ys : list V) : Prop :=
    match st with
    | SMap f => ys = map f xs
    | SFilter p => ys = filter p xs
    | STake n => ys = firstn n xs
    | SSkip n => ys = skipn n xs
    | SGroup n f => ys = map f (chunks n xs)
    | SReduce f i => ys = [fold_left f xs i]
    | SFork 0 _ => ys = []
    | SFork _ f => Permutation ys (map f xs)
    end.
  Fixpoint pipe_rel (sts : list stage) (xs ys : list V) : Prop :=
    match sts with
    | [] => ys = xs
    | st :: r => exists m, stage_rel st xs m /\ pipe_rel r m ys
    end.

  (** The same as a function, for pipelines without fork. *)
  Definition stage_fun (st : stage) (xs : list V) : list V :=
    match st with
    | SMap f => map f xs
    | SFilter p => filter p xs
    | STake n => firstn n xs
    | SSkip n => skipn n xs
    | SGroup n f => map f (chunks n xs)
    | SReduce f i => [fold_left f xs i]
    | SFork _ _ => []
    end.
  Definition pipe_fun (sts : list stage) (xs : list V) : list V := fold_left (fun l st => stage_fun st l) sts xs.
  Definition is_fork (st : stage) : bool := match st with SFork _ _ => true | _ => false end.

  (** group(0, f) calls f without end; it has no sequential meaning. *)
  Definition stage_ok (st : stage) : Prop := match st with SGroup n _ => 1 <= n | _ => True end.
End Spec.
Arguments SMap {V}. Arguments SFilter {V}. Arguments STake {V}. Arguments SSkip {V}. Arguments SGroup {V}.
Arguments SReduce {V}. Arguments SFork {V}. Arguments chunks {V}. Arguments stage_rel {V}. Arguments pipe_rel {V}.
Arguments stage_fun {V}. Arguments pipe_fun {V}. Arguments is_fork {V}. Arguments stage_ok {V}.
