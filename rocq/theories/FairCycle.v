(** Executions that repeat a list of steps for ever, as witnesses. *)
From Coq Require Import List Arith Bool Lia.
From Verif Require Import Base FairSpec.
Import ListNotations.

Section Cycle.
  Variables (state label : Type) (step : state -> label -> option state) (init : state).
  Variables (pre cyc : list label) (base : state -> Prop).
  Hypothesis NE : cyc <> [].
  Hypothesis H1 : exists s, run step init pre = Some s /\ base s.
  Hypothesis H2 : forall s, base s -> exists s', run step s cyc = Some s' /\ base s'.

  Definition clb (n : nat) : option label :=
    if n <? length pre then nth_error pre n else nth_error cyc ((n - length pre) mod length cyc).
  Fixpoint cst (n : nat) : state :=
    match n with
    | 0 => init
    | S n => match clb n with Some l => match step (cst n) l with Some s => s | None => cst n end | None => cst n end
    end.
  Lemma clen : 0 < length cyc. Proof. destruct cyc; [congruence|simpl; lia]. Qed.
  Lemma clb_pre : forall i, i < length pre -> clb i = nth_error pre i.
  Proof. intros i L. unfold clb. apply Nat.ltb_lt in L. now rewrite L. Qed.
  Lemma clb_cyc : forall k i, i < length cyc -> clb (length pre + length cyc * k + i) = nth_error cyc i.
  Proof.
    intros k i L. unfold clb. destruct (Nat.ltb_spec (length pre + length cyc * k + i) (length pre)); [lia|].
    replace (length pre + length cyc * k + i - length pre) with (i + k * length cyc) by lia. rewrite Nat.mod_add by lia. now rewrite Nat.mod_small.
  Qed.
  Lemma firstn_snoc : forall (l : list label) i x, nth_error l i = Some x -> firstn (S i) l = firstn i l ++ [x].
  Proof. induction l as [|y l IH]; intros [|i] x E; simpl in *; try discriminate; [now injection E as ->|]. f_equal. now apply IH. Qed.
  (** If a run of the list exists, the execution follows it. *)
  Lemma follow : forall (ls : list label) n s', (forall i, i < length ls -> clb (n + i) = nth_error ls i) -> run step (cst n) ls = Some s' ->
    forall i, i <= length ls -> run step (cst n) (firstn i ls) = Some (cst (n + i)) /\
      (i < length ls -> match clb (n + i) with Some l => step (cst (n + i)) l = Some (cst (S (n + i))) | None => False end).
  Proof.
    intros ls n s' E R.
    assert (A : forall i, i <= length ls -> run step (cst n) (firstn i ls) = Some (cst (n + i)) ->
      i < length ls -> match clb (n + i) with Some l => step (cst (n + i)) l = Some (cst (S (n + i))) | None => False end).
    { intros i L X Li. rewrite E by auto. destruct (nth_error ls i) as [x|] eqn:N; [|apply nth_error_None in N; lia].
      assert (D : exists s1, step (cst (n + i)) x = Some s1).
      { rewrite <- (firstn_skipn (S i) ls), (firstn_snoc _ _ _ N), run_app, run_app, X in R. simpl in R. destruct (step (cst (n + i)) x); [eauto|discriminate]. }
      destruct D as (s1&D). simpl. rewrite E, N, D by auto. reflexivity. }
    induction i as [|i IH]; intros L.
    { assert (X : run step (cst n) (firstn 0 ls) = Some (cst (n + 0))) by (simpl; now rewrite Nat.add_0_r). split; [exact X|exact (A 0 L X)]. }
    destruct IH as (I1&I2); [lia|]. specialize (I2 ltac:(lia)). rewrite E in I2 by lia. destruct (nth_error ls i) as [x|] eqn:N; [|destruct I2].
    assert (X : run step (cst n) (firstn (S i) ls) = Some (cst (n + S i))).
    { rewrite (firstn_snoc _ _ _ N), run_app, I1. cbn [run]. rewrite I2. now replace (S (n + i)) with (n + S i) by lia. }
    split; [exact X|exact (A (S i) L X)].
  Qed.
  Lemma cyc_pre : forall i, i <= length pre -> run step init (firstn i pre) = Some (cst i) /\
      (i < length pre -> match clb i with Some l => step (cst i) l = Some (cst (S i)) | None => False end).
  Proof. destruct H1 as (s&R&_). intros i L. apply (follow pre 0 s); auto. intros j J. now apply clb_pre. Qed.
  Lemma cyc_base : forall k, base (cst (length pre + length cyc * k)).
  Proof.
    induction k as [|k IH].
    - rewrite Nat.mul_0_r, Nat.add_0_r. destruct H1 as (s&R&B). destruct (cyc_pre (length pre)) as (X&_); auto. rewrite firstn_all in X. congruence.
    - destruct (H2 _ IH) as (s'&R&B). destruct (follow cyc (length pre + length cyc * k) s') with (i := length cyc) as (X&_); auto; [intros i L; now apply clb_cyc|].
      rewrite firstn_all in X. replace (length pre + length cyc * S k) with (length pre + length cyc * k + length cyc) by lia. congruence.
  Qed.
  Lemma cyc_seg : forall k i, i <= length cyc -> run step (cst (length pre + length cyc * k)) (firstn i cyc) = Some (cst (length pre + length cyc * k + i)) /\
      (i < length cyc -> match clb (length pre + length cyc * k + i) with Some l => step (cst (length pre + length cyc * k + i)) l = Some (cst (S (length pre + length cyc * k + i))) | None => False end).
  Proof. intros k i L. destruct (H2 _ (cyc_base k)) as (s'&R&B). apply follow with s'; auto. intros j J. now apply clb_cyc. Qed.
  (** One round. *)
  Lemma cyc_next : forall k, run step (cst (length pre + length cyc * k)) cyc = Some (cst (length pre + length cyc * S k)).
  Proof.
    intros k. pose proof (proj1 (cyc_seg k (length cyc) (le_n _))) as X. rewrite firstn_all in X.
    replace (length pre + length cyc * S k) with (length pre + length cyc * k + length cyc) by lia. exact X.
  Qed.
  Lemma cyc_exec : execution _ _ step init cst clb.
  Proof.
    split; [reflexivity|]. intros n. assert (X : match clb n with Some l => step (cst n) l = Some (cst (S n)) | None => False end).
    { destruct (le_lt_dec (length pre) n) as [L|L]; [|apply cyc_pre; auto; lia].
      pose proof clen as C. assert (E : n = length pre + length cyc * ((n - length pre) / length cyc) + (n - length pre) mod length cyc).
      { pose proof (Nat.div_mod_eq (n - length pre) (length cyc)). lia. }
      rewrite E. apply cyc_seg; [apply Nat.lt_le_incl|]; apply Nat.mod_upper_bound; lia. }
    destruct (clb n); [exact X|destruct X].
  Qed.
  (** Labels that occur. *)
  Lemma clb_in : forall n l, clb n = Some l -> In l pre \/ In l cyc.
  Proof. intros n l E. unfold clb in E. destruct (n <? length pre); apply nth_error_In in E; auto. Qed.
  (** Each step of the cycle is made again and again. *)
  Lemma clb_often : forall i n, i < length cyc -> exists m, n <= m /\ clb m = nth_error cyc i /\ exists k, m = length pre + length cyc * k + i.
  Proof.
    intros i n L. pose proof clen as C. exists (length pre + length cyc * n + i). split; [nia|]. split; [now apply clb_cyc|eauto].
  Qed.
End Cycle.
