(** Happens-before and data races of an execution, after the C++ standard ([intro.races]).  Independent of the model of the
    code. *)
From Coq Require Import List Arith.
Import ListNotations.

Section Race.
  Variables (sync loc : Type).

  (** What a thread does to memory: an operation on a lock or an atomic object that acquires (lock, load), releases (unlock,
      store) or does both (an atomic read-modify-write); a read and a write of an ordinary object. *)
  Inductive kind := KAcq (l : sync) | KRel (l : sync) | KUpd (l : sync) | KRd (x : loc) | KWr (x : loc).
  Record ev := mkEv { thr : nat; act : kind }.
  Definition acquires (e : ev) (l : sync) : Prop := act e = KAcq l \/ act e = KUpd l.
  Definition releases (e : ev) (l : sync) : Prop := act e = KRel l \/ act e = KUpd l.
  Definition touches (e : ev) (x : loc) : Prop := act e = KRd x \/ act e = KWr x.

  (** A trace lists what was done, oldest first.  i happens before j: the same thread did i and later j; or j acquires what i,
      the last release before j, has stored; or by way of others. *)
  Inductive hb (tr : list ev) : nat -> nat -> Prop :=
  | hb_po : forall i j a b, i < j -> nth_error tr i = Some a -> nth_error tr j = Some b -> thr a = thr b -> hb tr i j
  | hb_sw : forall i j a b l, i < j -> nth_error tr i = Some a -> nth_error tr j = Some b -> releases a l -> acquires b l ->
      (forall k c, i < k < j -> nth_error tr k = Some c -> ~ releases c l) -> hb tr i j
  | hb_tr : forall i j k, hb tr i j -> hb tr j k -> hb tr i k.

  (** Two accesses conflict: of different threads, to the same object, one of them a write. *)
  Definition conflict (a b : ev) (x : loc) : Prop :=
    thr a <> thr b /\ touches a x /\ touches b x /\ (act a = KWr x \/ act b = KWr x).
  (** A data race on x: conflicting accesses of which neither happens before the other.  (The later one never happens before
      the earlier one.) *)
  Definition race (tr : list ev) (x : loc) : Prop :=
    exists i j a b, i < j /\ nth_error tr i = Some a /\ nth_error tr j = Some b /\ conflict a b x /\ ~ hb tr i j.
  (** All conflicting accesses are ordered. *)
  Definition ordered (tr : list ev) (x : loc) : Prop :=
    forall i j a b, i < j -> nth_error tr i = Some a -> nth_error tr j = Some b -> conflict a b x -> hb tr i j.
End Race.
Arguments KAcq {sync loc}. Arguments KRel {sync loc}. Arguments KUpd {sync loc}. Arguments KRd {sync loc}. Arguments KWr {sync loc}.
Arguments mkEv {sync loc}. Arguments thr {sync loc}. Arguments act {sync loc}.
Arguments acquires {sync loc}. Arguments releases {sync loc}. Arguments touches {sync loc}.
Arguments hb {sync loc}. Arguments conflict {sync loc}. Arguments race {sync loc}. Arguments ordered {sync loc}.
