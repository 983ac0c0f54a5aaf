(** Byte-addressed memory with 8-byte little-endian loads and stores.  Nothing here depends on the code of cocpp. *)
From Coq Require Import List Arith ZArith Bool Lia.
Import ListNotations.
Local Open Scope Z_scope.

(** Memory: the byte at each address. *)
Definition memory := Z -> Z.
(** The n bytes of v, lowest first, and back. *)
Fixpoint enc (n : nat) (v : Z) : list Z := match n with O => [] | S n => v mod 256 :: enc n (v / 256) end.
(** See enc. *)
Fixpoint dec (l : list Z) : Z := match l with [] => 0 | b :: r => b + 256 * dec r end.
(** n bytes from a on. *)
Fixpoint bytes (m : memory) (a : Z) (n : nat) : list Z := match n with O => [] | S n => m a :: bytes m (a + 1) n end.
(** Copy of the bytes l to a. *)
Definition put (m : memory) (a : Z) (l : list Z) : memory :=
  fun x => if (a <=? x) && (x <? a + Z.of_nat (length l)) then nth (Z.to_nat (x - a)) l 0 else m x.
(** Store of eight bytes. *)
Definition sd (m : memory) (a v : Z) : memory := put m a (enc 8 v).
(** Load of eight bytes. *)
Definition ld (m : memory) (a : Z) : Z := dec (bytes m a 8).
(** What eight bytes can hold. *)
Definition word (v : Z) : Prop := 0 <= v < 2 ^ 64.

Lemma enc_len : forall n v, length (enc n v) = n.
Proof. induction n as [|n IH]; intros v; simpl; auto. Qed.
Lemma bytes_len : forall m n a, length (bytes m a n) = n.
Proof. induction n as [|n IH]; intros a; simpl; auto. Qed.
Lemma dec_enc : forall n v, dec (enc n v) = v mod 256 ^ Z.of_nat n.
Proof.
  induction n as [|n IH]; intros v; [simpl; now rewrite Z.mod_1_r|]. cbn [enc dec]. rewrite IH. rewrite Nat2Z.inj_succ, Z.pow_succ_r by lia.
  rewrite Z.rem_mul_r by lia. reflexivity.
Qed.
Lemma put_in : forall m a l x, a <= x < a + Z.of_nat (length l) -> put m a l x = nth (Z.to_nat (x - a)) l 0.
Proof. intros m a l x H. unfold put. destruct (Z.leb_spec a x), (Z.ltb_spec x (a + Z.of_nat (length l))); simpl; auto; lia. Qed.
Lemma put_out : forall m a l x, x < a \/ a + Z.of_nat (length l) <= x -> put m a l x = m x.
Proof. intros m a l x H. unfold put. destruct (Z.leb_spec a x), (Z.ltb_spec x (a + Z.of_nat (length l))); simpl; auto; lia. Qed.
Lemma bytes_ext : forall n m m' a, (forall x, a <= x < a + Z.of_nat n -> m x = m' x) -> bytes m a n = bytes m' a n.
Proof. induction n as [|n IH]; intros m m' a H; simpl; auto. f_equal; [apply H; lia|apply IH; intros; apply H; lia]. Qed.
Lemma bytes_nth : forall n m a i, (i < n)%nat -> nth i (bytes m a n) 0 = m (a + Z.of_nat i).
Proof. induction n as [|n IH]; intros m a i H; [lia|]. destruct i; simpl; [f_equal; lia|]. rewrite IH by lia. f_equal. lia. Qed.
Lemma bytes_put : forall l m a, bytes (put m a l) a (length l) = l.
Proof.
  intros l m a. apply (nth_ext _ _ 0 0); rewrite bytes_len; auto. intros i H. rewrite bytes_nth by auto. rewrite put_in by lia. f_equal. lia.
Qed.
Lemma bytes_app : forall n k m a, bytes m a (n + k) = bytes m a n ++ bytes m (a + Z.of_nat n) k.
Proof. induction n as [|n IH]; intros k m a; simpl; [f_equal; lia|]. rewrite IH. do 3 f_equal. lia. Qed.
Lemma ld_sd : forall m a v, word v -> ld (sd m a v) a = v.
Proof.
  intros m a v H. unfold ld, sd. replace 8%nat with (length (enc 8 v)) at 2 by apply enc_len. rewrite bytes_put, dec_enc. apply Z.mod_small. exact H.
Qed.
Lemma ld_ext : forall m m' a, (forall x, a <= x < a + 8 -> m x = m' x) -> ld m a = ld m' a.
Proof. intros. unfold ld. f_equal. apply bytes_ext. auto. Qed.
Lemma sd_out : forall m a v x, x < a \/ a + 8 <= x -> sd m a v x = m x.
Proof. intros m a v x H. unfold sd. apply put_out. rewrite enc_len. exact H. Qed.
Lemma ld_sd_other : forall m a b v, a + 8 <= b \/ b + 8 <= a -> ld (sd m b v) a = ld m a.
Proof. intros. apply ld_ext. intros. apply sd_out. lia. Qed.
(** Values in memory are bytes. *)
Definition bytemem (m : memory) : Prop := forall x, 0 <= m x < 256.
Lemma enc_byte : forall n v, Forall (fun b => 0 <= b < 256) (enc n v).
Proof. induction n; intros v; simpl; constructor; auto. apply Z.mod_pos_bound. lia. Qed.
Lemma sd_bytemem : forall m a v, bytemem m -> bytemem (sd m a v).
Proof.
  intros m a v H x. unfold sd, put. destruct (_ && _) eqn:E; auto. apply andb_true_iff in E as [E1 E2]. apply Z.leb_le in E1. apply Z.ltb_lt in E2. rewrite enc_len in E2.
  pose proof (enc_byte 8 v) as F. rewrite Forall_forall in F. apply F. apply nth_In. rewrite enc_len. lia.
Qed.
Lemma dec_bound : forall l, Forall (fun b => 0 <= b < 256) l -> 0 <= dec l < 256 ^ Z.of_nat (length l).
Proof.
  induction l as [|b l IH]; intros F; [simpl; lia|]. inversion F; subst. specialize (IH H2). cbn [dec length]. rewrite Nat2Z.inj_succ, Z.pow_succ_r by lia. lia.
Qed.
Lemma bytes_byte : forall n m a, bytemem m -> Forall (fun b => 0 <= b < 256) (bytes m a n).
Proof. induction n; intros m a H; simpl; constructor; auto. Qed.
Lemma ld_word : forall m a, bytemem m -> word (ld m a).
Proof. intros m a H. unfold word, ld. pose proof (dec_bound (bytes m a 8) (bytes_byte 8 m a H)) as B. rewrite bytes_len in B. exact B. Qed.
