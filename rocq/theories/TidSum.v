(** Sums over a history split by coroutine. *)
From Coq Require Import List ZArith Bool Lia.
From Verif Require Import Base LinSpec LinLemmas HistSpec.
Import ListNotations.
Open Scope Z_scope.
Set Implicit Arguments.

Section T.
  Variables (Op Res Aux : Type).
  Notation ev := (ev Op Res Aux).

  (** The part of a weight that is due to events of [u]. *)
  Definition by_tid (u : tid) (w : ev -> Z) (e : ev) : Z := if Nat.eqb (ev_tid e) u then w e else 0.

  Fixpoint zsum (l : list Z) : Z := match l with [] => 0 | x :: r => x + zsum r end.

  Lemma zsum_zero : forall (A : Type) (f : A -> Z) L, (forall x, In x L -> f x = 0) -> zsum (map f L) = 0.
  Proof.
    induction L as [|a L IH]; intros H; simpl; [reflexivity|].
    rewrite IH by (intros; apply H; now right). rewrite (H a) by now left. reflexivity.
  Qed.
  Lemma zsum_add : forall (A : Type) (f g : A -> Z) L, zsum (map (fun x => f x + g x) L) = zsum (map f L) + zsum (map g L).
  Proof. induction L; simpl; lia. Qed.
  Lemma zsum_le : forall (A : Type) (f g : A -> Z) L, (forall x, In x L -> f x <= g x) -> zsum (map f L) <= zsum (map g L).
  Proof.
    induction L as [|a L IH]; intros H; simpl; [lia|].
    specialize (IH (fun x Hx => H x (or_intror Hx))). specialize (H a (or_introl eq_refl)). lia.
  Qed.
  Lemma zsum_lt : forall (A : Type) (f g : A -> Z) L t, (forall x, In x L -> f x <= g x) -> In t L -> f t < g t ->
    zsum (map f L) < zsum (map g L).
  Proof.
    induction L as [|a L IH]; intros t H Hin Ht; simpl; [destruct Hin|].
    assert (H' : forall x, In x L -> f x <= g x) by (intros; apply H; now right).
    assert (Ha : f a <= g a) by (apply H; now left).
    destruct Hin as [->|Hin].
    - pose proof (zsum_le f g L H'). lia.
    - specialize (IH t H' Hin Ht). lia.
  Qed.

  Lemma zsum_single : forall (L : list tid) t z, NoDup L -> In t L ->
    zsum (map (fun u => if Nat.eqb t u then z else 0) L) = z.
  Proof.
    induction L as [|a L IH]; intros t z Hn Hin; simpl; [destruct Hin|].
    inversion Hn as [|? ? Hna Hn']; subst. destruct Hin as [->|Hin].
    - rewrite Nat.eqb_refl, zsum_zero; [lia|]. intros x Hx.
      destruct (Nat.eqb_spec t x) as [->|]; [contradiction|reflexivity].
    - destruct (Nat.eqb_spec t a) as [->|]; [contradiction|]. rewrite IH by assumption. lia.
  Qed.

  Lemma total_split : forall (w : ev -> Z) h L, NoDup L -> (forall e, In e h -> In (ev_tid e) L) ->
    total w h = zsum (map (fun u => total (by_tid u w) h) L).
  Proof.
    induction h as [|e h IH]; intros L Hn Hc.
    - simpl. symmetry. apply zsum_zero. reflexivity.
    - cbn [total]. rewrite zsum_add.
      rewrite IH with (L := L) by (auto; intros; apply Hc; now right). f_equal.
      symmetry. apply zsum_single; [assumption|]. apply Hc. now left.
  Qed.

  Definition tids (h : list ev) : list tid := nodup Nat.eq_dec (map (@ev_tid Op Res Aux) h).
  Lemma tids_ok : forall h, NoDup (tids h) /\ (forall e, In e h -> In (ev_tid e) (tids h)).
  Proof.
    intros h. split; [apply NoDup_nodup|]. intros e He. apply nodup_In. now apply in_map.
  Qed.

  Lemma total_le_tid : forall (w1 w2 : ev -> Z) h,
    (forall u, total (by_tid u w1) h <= total (by_tid u w2) h) -> total w1 h <= total w2 h.
  Proof.
    intros w1 w2 h H. destruct (tids_ok h) as [Hn Hc].
    rewrite !total_split with (L := tids h) by auto. apply zsum_le. auto.
  Qed.
  Lemma total_eq_tid : forall (w1 w2 : ev -> Z) h,
    (forall u, total (by_tid u w1) h = total (by_tid u w2) h) -> total w1 h = total w2 h.
  Proof. intros w1 w2 h H. apply Z.le_antisymm; apply total_le_tid; intros u; rewrite H; lia. Qed.

  Lemma total_by_tid_notin : forall (w : ev -> Z) h t, ~ In t (map (@ev_tid Op Res Aux) h) -> total (by_tid t w) h = 0.
  Proof.
    induction h as [|e h IH]; intros t Hn; [reflexivity|]. cbn [total]. simpl in Hn.
    unfold by_tid at 1. destruct (Nat.eqb_spec (ev_tid e) t) as [Heq|]; [tauto|].
    rewrite IH by tauto. lia.
  Qed.

  Lemma total_lt_tid : forall (w1 w2 : ev -> Z) h t,
    (forall u, total (by_tid u w1) h <= total (by_tid u w2) h) ->
    total (by_tid t w1) h < total (by_tid t w2) h -> total w1 h < total w2 h.
  Proof.
    intros w1 w2 h t H Ht. destruct (tids_ok h) as [Hn Hc].
    rewrite !total_split with (L := tids h) by auto. apply zsum_lt with (t := t); auto.
    apply nodup_In. destruct (in_dec Nat.eq_dec t (map (@ev_tid Op Res Aux) h)) as [|Hnin]; [assumption|].
    rewrite !total_by_tid_notin in Ht by assumption. lia.
  Qed.
End T.
