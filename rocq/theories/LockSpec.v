(** Vocabulary of C79-C81: who waits for whom, who is inside which critical section.  Nothing here refers to the model. *)
From Coq Require Import List Relations.
Import ListNotations.

(** C79: some parties wait only for each other. *)
Definition circle {T : Type} (waits : T -> T -> Prop) : Prop :=
  exists ts, ts <> [] /\ forall t, In t ts -> exists u, In u ts /\ waits t u.
(** Following whom a party waits for leads to one that does not wait. *)
Definition waits_end {T : Type} (waits : T -> T -> Prop) (blocked : T -> Prop) : Prop :=
  forall t, blocked t -> exists u, clos_trans T waits t u /\ ~ blocked u.

(** C80: at most one activity inside each critical section. *)
Definition exclusive {A L : Type} (inside : A -> L -> Prop) : Prop :=
  forall l a b, inside a l -> inside b l -> a = b.
(** At most one thread inside each critical section. *)
Definition one_thread {A L T : Type} (on : A -> T) (inside : A -> L -> Prop) : Prop :=
  forall l a b, inside a l -> inside b l -> on a = on b.
