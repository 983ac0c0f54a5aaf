(** Lemmas about happens-before. *)
From Coq Require Import List Arith Bool Lia.
From Verif Require Import RaceSpec.
Import ListNotations.

Section Lemmas.
  Context {sync loc : Type}.
  Notation ev := (ev sync loc).
  Implicit Types (tr : list ev) (e : ev).

  Lemma hb_lt : forall tr i j, hb tr i j -> i < j /\ j < length tr.
  Proof.
    intros tr i j H. induction H as [i j a b L _ B _|i j a b l L _ B _ _ _|i j k _ [A1 A2] _ [B1 B2]]; try lia.
    - split; auto. apply nth_error_Some. congruence.
    - split; auto. apply nth_error_Some. congruence.
  Qed.
  Lemma nth_more : forall tr tr' i e, nth_error tr i = Some e -> nth_error (tr ++ tr') i = Some e.
  Proof. intros tr tr' i e H. rewrite nth_error_app1; auto. apply nth_error_Some. congruence. Qed.
  Lemma nth_less : forall tr tr' i e, i < length tr -> nth_error (tr ++ tr') i = Some e -> nth_error tr i = Some e.
  Proof. intros tr tr' i e L H. now rewrite nth_error_app1 in H. Qed.
  Lemma nth_last : forall tr e, nth_error (tr ++ [e]) (length tr) = Some e.
  Proof. intros tr e. rewrite nth_error_app2, Nat.sub_diag; auto. Qed.
  Lemma nth_snoc : forall tr e i a, nth_error (tr ++ [e]) i = Some a -> (i < length tr /\ nth_error tr i = Some a) \/ (i = length tr /\ a = e).
  Proof.
    intros tr e i a H. destruct (Nat.lt_trichotomy i (length tr)) as [L|[-> |L]].
    - left. split; auto. eapply nth_less; eauto.
    - right. rewrite nth_last in H. split; congruence.
    - assert (i < length (tr ++ [e])) by (apply nth_error_Some; congruence). rewrite app_length in H0. simpl in H0. lia.
  Qed.
  Lemma hb_more : forall tr tr' i j, hb tr i j -> hb (tr ++ tr') i j.
  Proof.
    intros tr tr' i j H. induction H as [i j a b L A B T|i j a b l L A B R Q N|i j k _ IH1 _ IH2].
    - eapply hb_po; eauto using nth_more.
    - eapply hb_sw; eauto using nth_more. intros k c K H. apply N with k; auto. eapply nth_less; [|exact H].
      assert (j < length tr) by (apply nth_error_Some; congruence). lia.
    - eapply hb_tr; eauto.
  Qed.

  (** What a thread knows: what happens before (or is) something it did. What the last release of l carries. *)
  Definition knows tr (t i : nat) : Prop := exists j e, nth_error tr j = Some e /\ thr e = t /\ (i = j \/ hb tr i j).
  Definition carried tr (l : sync) (i : nat) : Prop :=
    exists j e, nth_error tr j = Some e /\ releases e l /\ (forall k c, j < k -> nth_error tr k = Some c -> ~ releases c l) /\ (i = j \/ hb tr i j).

  Lemma knows_more : forall tr tr' t i, knows tr t i -> knows (tr ++ tr') t i.
  Proof. intros tr tr' t i (j&e&N&T&[-> |H]); exists j, e; eauto 6 using nth_more, hb_more. Qed.
  Lemma knows_self : forall tr e, knows (tr ++ [e]) (thr e) (length tr).
  Proof. intros tr e. exists (length tr), e. split; [apply nth_last|]. auto. Qed.
  Lemma knows_hb : forall tr e i, knows tr (thr e) i -> hb (tr ++ [e]) i (length tr).
  Proof.
    intros tr e i (j&a&N&T&H). assert (P : hb (tr ++ [e]) j (length tr)).
    { eapply hb_po; [|apply nth_more; exact N|apply nth_last|exact T]. apply nth_error_Some. congruence. }
    destruct H as [-> |H]; auto. eapply hb_tr; [apply hb_more; exact H|exact P].
  Qed.
  Lemma carried_more : forall tr e l i, ~ releases e l -> carried tr l i -> carried (tr ++ [e]) l i.
  Proof.
    intros tr e l i R (j&a&N&Q&F&H). exists j, a. repeat split; auto using nth_more.
    - intros k c K X. apply nth_snoc in X as [(_&X)|(_&->)]; eauto.
    - destruct H; auto using hb_more.
  Qed.
  Lemma acquire_knows : forall tr e l i, acquires e l -> carried tr l i -> knows (tr ++ [e]) (thr e) i.
  Proof.
    intros tr e l i Q (j&a&N&R&F&H). exists (length tr), e. split; [apply nth_last|]. split; auto. right.
    assert (L : j < length tr) by (apply nth_error_Some; congruence).
    assert (P : hb (tr ++ [e]) j (length tr)).
    { eapply hb_sw; [exact L|apply nth_more; exact N|apply nth_last|exact R|exact Q|]. intros k c K X. apply nth_less in X; [|lia]. apply (F k); auto. lia. }
    destruct H as [-> |H]; auto. eapply hb_tr; [apply hb_more; exact H|exact P].
  Qed.
  Lemma release_carried : forall tr e l i, releases e l -> knows tr (thr e) i -> carried (tr ++ [e]) l i.
  Proof.
    intros tr e l i R K. exists (length tr), e. split; [apply nth_last|]. split; auto. split; [|right; now apply knows_hb].
    intros k c L X. apply nth_snoc in X as [(?&_)|(?&_)]; lia.
  Qed.
  Lemma release_self : forall tr e l, releases e l -> carried (tr ++ [e]) l (length tr).
  Proof.
    intros tr e l R. exists (length tr), e. split; [apply nth_last|]. split; auto. split; auto.
    intros k c L X. apply nth_snoc in X as [(?&_)|(?&_)]; lia.
  Qed.

  Lemma ordered_nil : forall x, ordered (@nil ev) x.
  Proof. intros x [] j a b L H; discriminate. Qed.
  Lemma ordered_snoc : forall tr e x, ordered tr x ->
    (forall i a, nth_error tr i = Some a -> conflict a e x -> knows tr (thr e) i) -> ordered (tr ++ [e]) x.
  Proof.
    intros tr e x O K i j a b L A B C. apply nth_snoc in B as [(Lj&B)|(->&->)].
    - apply hb_more. eapply O; eauto. eapply nth_less; [|exact A]. lia.
    - apply nth_snoc in A as [(Li&A)|(->&_)]; [|lia]. apply knows_hb. eauto.
  Qed.
  Lemma ordered_no_race : forall tr x, ordered tr x -> ~ race tr x.
  Proof. intros tr x O (i&j&a&b&L&A&B&C&N). apply N. eapply O; eauto. Qed.

  (** To show that i does not happen before j: a set that contains everything after i but not j. *)
  Definition edge tr (i j : nat) : Prop :=
    exists a b, i < j /\ nth_error tr i = Some a /\ nth_error tr j = Some b /\
      (thr a = thr b \/ exists l, releases a l /\ acquires b l /\ forall k c, i < k < j -> nth_error tr k = Some c -> ~ releases c l).
  Lemma hb_closed : forall tr (S : nat -> Prop) i, (forall a b, edge tr a b -> a = i \/ S a -> S b) -> forall a b, hb tr a b -> a = i \/ S a -> S b.
  Proof.
    intros tr S i C a b H. induction H as [a b e f L A B T|a b e f l L A B R Q N|a b c _ IH1 _ IH2].
    - apply C. exists e, f. auto.
    - apply C. exists e, f. repeat split; auto. right. exists l. auto.
    - intros X. apply IH2. right. now apply IH1.
  Qed.
End Lemmas.
