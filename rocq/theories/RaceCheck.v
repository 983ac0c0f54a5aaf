(** Computing that one event does not happen before another. *)
From Coq Require Import List Arith Bool Lia.
From Verif Require Import RaceSpec RaceLemmas.
Import ListNotations.

Section Check.
  Context {sync loc : Type} (eq : forall a b : sync, {a = b} + {a <> b}).
  Notation ev := (ev sync loc).

  Definition relb (e : ev) (l : sync) : bool := match act e with KRel m | KUpd m => if eq m l then true else false | _ => false end.
  Definition acq_of (e : ev) : option sync := match act e with KAcq m | KUpd m => Some m | _ => None end.
  (** The set of what happens after the event i, as a list of booleans, computed from left to right: the threads and the
      synchronising objects reached so far. *)
  Fixpoint spread (tr : list ev) (ths : list nat) (sy : list sync) : list bool :=
    match tr with
    | [] => []
    | e :: r =>
      let b := existsb (Nat.eqb (thr e)) ths || match acq_of e with Some l => existsb (fun m => if eq m l then true else false) sy | None => false end in
      b :: spread r (if b then thr e :: ths else ths)
             (let keep := filter (fun l => negb (relb e l)) sy in if b then match act e with KRel m | KUpd m => m :: keep | _ => keep end else keep)
    end.
  Definition after (tr : list ev) (i : nat) : list bool :=
    match skipn i tr with
    | [] => []
    | e :: r => repeat false (S i) ++ spread r [thr e] (match act e with KRel m | KUpd m => [m] | _ => [] end)
    end.
  (** The set is closed. *)
  Definition edgeb (tr : list ev) (a b : nat) : bool :=
    match nth_error tr a, nth_error tr b with
    | Some x, Some y =>
        if negb (a <? b) then false else if thr x =? thr y then true else match acq_of y with
          | Some l => if negb (relb x l) then false else forallb (fun k => match nth_error tr k with Some z => negb (relb z l) | None => true end) (seq (S a) (b - S a))
          | None => false end
    | _, _ => false
    end.
  Definition closedb (tr : list ev) (i : nat) (s : list bool) : bool :=
    forallb (fun a => if (a =? i) || nth a s false then forallb (fun b => if nth b s false then true else negb (edgeb tr a b)) (seq 0 (length tr)) else true) (seq 0 (length tr)).

  Lemma relb_true : forall e l, releases e l <-> relb e l = true.
  Proof.
    intros e l. unfold releases, relb. destruct (act e) eqn:A; split; try (intros [X|X]; discriminate); try discriminate.
    - intros [X|X]; [injection X as ->|discriminate]. destruct (eq l l); congruence.
    - destruct (eq l0 l); [subst; auto|discriminate].
    - intros [X|X]; [discriminate|injection X as ->]. destruct (eq l l); congruence.
    - destruct (eq l0 l); [subst; auto|discriminate].
  Qed.
  Lemma edge_true : forall tr a b, edge tr a b -> edgeb tr a b = true /\ a < length tr /\ b < length tr.
  Proof.
    intros tr a b (x&y&L&A&B&C). unfold edgeb. rewrite A, B. split.
    - apply Nat.ltb_lt in L as L'. rewrite L'. simpl. destruct C as [C|(l&C1&C2&C3)]; [now rewrite C, Nat.eqb_refl|]. destruct (thr x =? thr y); auto.
      assert (acq_of y = Some l) as ->. { unfold acq_of. destruct C2 as [-> | ->]; reflexivity. }
      apply relb_true in C1. rewrite C1. simpl. apply forallb_forall. intros k I. apply in_seq in I. destruct (nth_error tr k) as [z|] eqn:Z; auto.
      destruct (relb z l) eqn:Y; auto. exfalso. apply (C3 k z); auto; [lia|now apply relb_true].
    - split; apply nth_error_Some; congruence.
  Qed.
  Lemma no_hb : forall tr i j s, closedb tr i s = true -> nth j s false = false -> ~ hb tr i j.
  Proof.
    intros tr i j s C N H. apply (hb_closed tr (fun b => nth b s false = true) i) in H; [congruence| |now left].
    clear - C. intros a b E X. apply edge_true in E as (E&A&B). unfold closedb in C. rewrite forallb_forall in C. specialize (C a). rewrite in_seq in C.
    assert (Y : (a =? i) || nth a s false = true) by (apply orb_true_iff; destruct X as [-> |X]; [left; apply Nat.eqb_refl|now right]).
    rewrite Y in C. specialize (C ltac:(lia)). rewrite forallb_forall in C. specialize (C b). rewrite in_seq in C. rewrite E in C. simpl in C. destruct (nth b s false); auto. apply C. lia.
  Qed.

  (** A data race, computed. *)
  Definition confl (leq : loc -> loc -> bool) (a b : ev) (x : loc) : bool :=
    negb (thr a =? thr b) &&
    match act a, act b with KWr y, KWr z | KWr y, KRd z | KRd y, KWr z => leq y x && leq z x | _, _ => false end.
  Definition raceb (leq : loc -> loc -> bool) (tr : list ev) (i j : nat) (x : loc) : bool :=
    match nth_error tr i, nth_error tr j with
    | Some a, Some b => if (i <? j) && confl leq a b x then let s := after tr i in if nth j s false then false else closedb tr i s else false
    | _, _ => false
    end.
  Lemma raceb_race : forall leq, (forall y x, leq y x = true -> y = x) -> forall tr i j x, raceb leq tr i j x = true -> race tr x.
  Proof.
    intros leq Q tr i j x H. unfold raceb in H. destruct (nth_error tr i) as [a|] eqn:A; [|discriminate]. destruct (nth_error tr j) as [b|] eqn:B; [|discriminate].
    destruct ((i <? j) && confl leq a b x) eqn:LC; [|discriminate]. apply andb_true_iff in LC as [L C]. cbv zeta in H. destruct (nth j (after tr i) false) eqn:N; [discriminate|]. exists i, j, a, b. split; [now apply Nat.ltb_lt|]. split; auto. split; auto. split.
    - unfold confl in C. rewrite andb_true_iff in C. destruct C as [T C]. unfold conflict, touches.
      split; [intros X; rewrite X, Nat.eqb_refl in T; discriminate|].
      destruct (act a) as [| | |y|y]; try discriminate; destruct (act b) as [| | |z|z]; try discriminate;
        rewrite andb_true_iff in C; destruct C as [C1 C2]; apply Q in C1; apply Q in C2; subst; auto.
    - eapply no_hb; [exact H|exact N].
  Qed.
End Check.
