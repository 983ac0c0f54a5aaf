(** Proofs about SharedModel. *)
From Coq Require Import List Arith ZArith Bool Lia.
From Verif Require Import Base MemBase SharedSpec SharedModel.
Import ListNotations.
Local Open Scope Z_scope.

Definition cfg_ok (K : config) : Prop := 0 <= slo K /\ slo K + 8 <= shi K.
Definition apart (a n b k : Z) : Prop := a + n <= b \/ b + k <= a.

(** The part of the invariant that speaks of memory.  h: a coroutine whose live bytes are in the shared stack although it does not execute;
    r: the coroutine that executes on the shared stack. *)
Record Core (K : config) (M : memory) (sp : nat -> Z) (st : nat -> stk) (bn : nat -> bool) (mp : list (Z * Z)) (H : list sevent) (h r : option nat) : Prop := {
  k_maps : forall a n, In (a, n) mp -> 8 <= n /\ apart a n (slo K) (shi K - slo K);
  k_pairs : ForallOrdPairs (fun p q => apart (fst p) (snd p) (fst q) (snd q)) mp;
  k_own : forall c d a n, st c = Copy a n -> st d = Copy a n -> c = d;
  k_on : forall c, st c = OnShared <-> h = Some c \/ r = Some c;
  k_one : h = None \/ r = None;
  k_copy : forall c a n, st c = Copy a n -> In (a, n) mp /\ n = shi K - sp c /\ slo K <= sp c <= shi K - 8 /\
             last_left c H = Some (sp c, bytes M a (Z.to_nat n)) /\ bytes M (a + n - 8) 8 = enc 8 (sstart K);
  k_none : forall c, shared K c = true -> bn c = true -> st c = NoStack -> sp c = shi K - 8 /\ last_left c H = Some (shi K - 8, enc 8 (sstart K));
  k_hold : forall c, h = Some c -> slo K <= sp c <= shi K - 8 /\ last_left c H = Some (sp c, live K M (sp c));
  k_born : forall c, st c <> NoStack -> shared K c = true /\ bn c = true;
  k_top : forall c, shared K c = true -> bn c = true -> bytes M (shi K - 8) 8 = enc 8 (sstart K);
  k_kept : stacks_kept H }.

Lemma kept_cons : forall e h, stacks_kept h -> (forall c p l, e = SIn c p l -> last_left c h = Some (p, l)) -> stacks_kept (e :: h).
Proof. intros e h P E post c p l pre X. destruct post as [|a post]; simpl in X; injection X as -> ->; eauto. Qed.
Lemma put_same : forall M a l x, bytes M a (length l) = l -> put M a l x = M x.
Proof.
  intros M a l x E. unfold put. destruct (Z.leb_spec a x), (Z.ltb_spec x (a + Z.of_nat (length l))); simpl; auto.
  rewrite <- E. rewrite bytes_nth by lia. f_equal. lia.
Qed.
Lemma pairs_in : forall mp p q, ForallOrdPairs (fun p q : Z * Z => apart (fst p) (snd p) (fst q) (snd q)) mp -> In p mp -> In q mp -> p <> q ->
  apart (fst p) (snd p) (fst q) (snd q).
Proof.
  induction mp as [|x mp IH]; intros p q F P Q N; [destruct P|]. inversion F as [|? ? F1 F2]; subst. rewrite Forall_forall in F1.
  destruct P as [<-|P], Q as [<-|Q]; try contradiction; auto. specialize (F1 p P). unfold apart in *. lia.
Qed.
Lemma pairs_remove : forall mp p, ForallOrdPairs (fun p q : Z * Z => apart (fst p) (snd p) (fst q) (snd q)) mp ->
  ForallOrdPairs (fun p q : Z * Z => apart (fst p) (snd p) (fst q) (snd q)) (remove zz_dec p mp).
Proof.
  induction mp as [|x mp IH]; intros p F; simpl; [constructor|]. inversion F as [|? ? F1 F2]; subst. destruct (zz_dec p x); auto. constructor; auto.
  rewrite Forall_forall in *. intros y Y. apply F1. now apply in_remove in Y.
Qed.

(** Memory outside the copies and the shared stack may change freely; inside the shared stack below its top word, if nobody's bytes are kept there. *)
Lemma core_mem : forall K M M' sp st bn mp H h r, cfg_ok K -> Core K M sp st bn mp H h r ->
  (forall x a n, In (a, n) mp -> a <= x < a + n -> M' x = M x) -> (forall x, shi K - 8 <= x < shi K -> M' x = M x) ->
  (h <> None -> forall x, slo K <= x < shi K -> M' x = M x) -> Core K M' sp st bn mp H h r.
Proof.
  intros K M M' sp st bn mp H h r CF [] X1 X2 X3. constructor; auto.
  - intros c a n E. destruct (k_copy0 c a n E) as (A1 & A2 & A3 & A4 & A5). destruct (k_maps0 a n A1) as (B1 & B2).
    split; auto. split; auto. split; auto. split.
    + rewrite A4. do 2 f_equal. apply bytes_ext. intros x X. symmetry. apply (X1 x a n A1). lia.
    + rewrite <- A5. apply bytes_ext. intros x X. apply (X1 x a n A1). lia.
  - intros c E. destruct (k_hold0 c E) as (A1 & A2). split; auto. rewrite A2. unfold live, len. do 2 f_equal. apply bytes_ext. intros x X. symmetry.
    apply X3; [congruence|lia].
  - intros c S B. rewrite <- (k_top0 c S B). apply bytes_ext. intros x X. apply X2. lia.
Qed.

Lemma core_save : forall K M sp st bn mp H c a, cfg_ok K -> Core K M sp st bn mp H (Some c) None ->
  apart a (shi K - sp c) (slo K) (shi K - slo K) -> (forall p, In p mp -> apart a (shi K - sp c) (fst p) (snd p)) ->
  Core K (put M a (bytes M (sp c) (Z.to_nat (shi K - sp c)))) sp (upd st c (Copy a (shi K - sp c))) bn ((a, shi K - sp c) :: mp) (SMap a (shi K - sp c) :: H) None None.
Proof.
  intros K M sp st bn mp H c a CF C U1 U2. pose proof C as []. destruct (k_hold0 c eq_refl) as (S1 & S2).
  assert (ON : st c = OnShared) by (apply k_on0; auto). destruct (k_born0 c) as (Sc & Bc); [congruence|].
  set (n := shi K - sp c) in *. set (l := bytes M (sp c) (Z.to_nat n)).
  assert (Ll : Z.of_nat (length l) = n) by (unfold l; rewrite bytes_len; lia).
  assert (Fr : forall x, x < a \/ a + n <= x -> put M a l x = M x) by (intros; apply put_out; lia).
  unfold apart in *. destruct CF as [CF1 CF2].
  constructor.
  - intros b k [E|E]; [injection E as <- <-; unfold apart in *; lia|exact (k_maps0 b k E)].
  - constructor; auto. apply Forall_forall. intros p P. apply (U2 p P).
  - intros e d b k E1 E2. destruct (Nat.eq_dec e c) as [->|N1], (Nat.eq_dec d c) as [->|N2]; auto;
    [rewrite upd_same in E1; rewrite upd_other in E2 by auto|rewrite upd_same in E2; rewrite upd_other in E1 by auto|rewrite upd_other in E1, E2 by auto; eauto].
    + injection E1 as <- <-. destruct (k_copy0 d a n E2) as (A1 & _). specialize (U2 _ A1). destruct (k_maps0 _ _ A1). simpl in U2. lia.
    + injection E2 as <- <-. destruct (k_copy0 e a n E1) as (A1 & _). specialize (U2 _ A1). destruct (k_maps0 _ _ A1). simpl in U2. lia.
  - intros d. split; [|intros [|]; discriminate]. destruct (Nat.eq_dec d c) as [->|N]; [rewrite upd_same; discriminate|rewrite upd_other by auto].
    intros E. apply k_on0 in E as [E|E]; congruence.
  - auto.
  - intros d b k E. destruct (Nat.eq_dec d c) as [->|N].
    + rewrite upd_same in E. injection E as <- <-. split; [now left|]. split; auto. split; auto. split.
      * cbn [last_left]. rewrite S2. do 2 f_equal. unfold live, len. fold n. rewrite <- Nat2Z.id with (n := Z.to_nat n). 
        replace (Z.of_nat (Z.to_nat n)) with (Z.of_nat (length l)) by lia. rewrite Nat2Z.id, bytes_put. unfold l. now rewrite bytes_len.
      * rewrite <- (k_top0 c Sc Bc). apply (nth_ext _ _ 0 0); [now rewrite !bytes_len|]. intros i I. rewrite bytes_len in I.
        rewrite !bytes_nth by auto. rewrite put_in by lia. unfold l. rewrite bytes_nth by lia. f_equal. unfold n in *. lia.
    + rewrite upd_other in E by auto. destruct (k_copy0 d b k E) as (A1 & A2 & A3 & A4 & A5). pose proof (U2 _ A1) as U. destruct (k_maps0 _ _ A1) as [B1 B2]. simpl in U.
      split; [now right|]. split; auto. split; auto. split.
      * cbn [last_left]. rewrite A4. do 2 f_equal. apply bytes_ext. intros x X. symmetry. apply Fr. lia.
      * rewrite <- A5. apply bytes_ext. intros x X. apply Fr. lia.
  - intros d D1 D2 D3. destruct (Nat.eq_dec d c) as [->|N]; [rewrite upd_same in D3; discriminate|rewrite upd_other in D3 by auto]. cbn [last_left]. auto.
  - discriminate.
  - intros d D. destruct (Nat.eq_dec d c) as [->|N]; auto. rewrite upd_other in D by auto. auto.
  - intros d D1 D2. rewrite <- (k_top0 d D1 D2). apply bytes_ext. intros x X. apply Fr. lia.
  - apply kept_cons; auto. discriminate.
Qed.

Lemma core_restore_copy : forall K M sp st bn mp H c a n, cfg_ok K -> Core K M sp st bn mp H None None -> st c = Copy a n ->
  Core K (put M (shi K - n) (bytes M a (Z.to_nat n))) sp (upd st c OnShared) bn (remove zz_dec (a, n) mp) (SUnmap a n :: H) (Some c) None.
Proof.
  intros K M sp st bn mp H c a n CF C E0. pose proof C as []. destruct (k_copy0 c a n E0) as (A1 & A2 & A3 & A4 & A5). destruct (k_maps0 a n A1) as (B1 & B2).
  destruct (k_born0 c) as (Sc & Bc); [congruence|].
  set (l := bytes M a (Z.to_nat n)) in *.
  assert (Ll : Z.of_nat (length l) = n) by (unfold l; rewrite bytes_len; lia).
  assert (Fr : forall x, x < shi K - n \/ shi K <= x -> put M (shi K - n) l x = M x) by (intros; apply put_out; lia).
  unfold apart in *. destruct CF as [CF1 CF2].
  assert (TOP : bytes (put M (shi K - n) l) (shi K - 8) 8 = enc 8 (sstart K)).
  { rewrite <- A5. apply (nth_ext _ _ 0 0); [now rewrite !bytes_len|]. intros i I. rewrite bytes_len in I.
    rewrite !bytes_nth by auto. rewrite put_in by lia. unfold l. rewrite bytes_nth by lia. f_equal. lia. }
  constructor; auto.
  - intros b k X. apply in_remove in X. now apply k_maps0.
  - now apply pairs_remove.
  - intros e d b k E1 E2. destruct (Nat.eq_dec e c) as [->|N1], (Nat.eq_dec d c) as [->|N2]; auto;
    [rewrite upd_same in E1; discriminate|rewrite upd_same in E2; discriminate|rewrite upd_other in E1, E2 by auto; eauto].
  - intros d. destruct (Nat.eq_dec d c) as [->|N]; [rewrite upd_same; tauto|rewrite upd_other by auto]. split.
    + intros X. apply k_on0 in X as [X|X]; discriminate.
    + intros [X|X]; congruence.
  - intros d b k E. destruct (Nat.eq_dec d c) as [->|N]; [rewrite upd_same in E; discriminate|]. rewrite upd_other in E by auto.
    destruct (k_copy0 d b k E) as (D1 & D2 & D3 & D4 & D5). destruct (k_maps0 _ _ D1) as [F1 F2]. split.
    + apply in_in_remove; auto. intros X. injection X as -> ->. apply N. eapply k_own0; eauto.
    + split; auto. split; auto. split.
      * cbn [last_left]. rewrite D4. do 2 f_equal. apply bytes_ext. intros x X. symmetry. apply Fr. lia.
      * rewrite <- D5. apply bytes_ext. intros x X. apply Fr. lia.
  - intros d D1 D2 D3. destruct (Nat.eq_dec d c) as [->|N]; [rewrite upd_same in D3; discriminate|rewrite upd_other in D3 by auto]. cbn [last_left]. auto.
  - intros d X. injection X as <-. split; auto. cbn [last_left]. rewrite A4. do 2 f_equal. unfold live, len. rewrite A2. replace (shi K - (shi K - sp c)) with (sp c) by lia.
    replace (Z.to_nat (shi K - sp c)) with (length l) by lia. symmetry. apply bytes_put.
  - intros d D. destruct (Nat.eq_dec d c) as [->|N]; auto. rewrite upd_other in D by auto. auto.
  - apply kept_cons; auto. discriminate.
Qed.

Lemma core_restore_none : forall K M sp st bn mp H c, cfg_ok K -> Core K M sp st bn mp H None None -> st c = NoStack -> shared K c = true -> bn c = true ->
  Core K M sp (upd st c OnShared) bn mp H (Some c) None.
Proof.
  intros K M sp st bn mp H c CF C E0 Sc Bc. pose proof C as []. destruct (k_none0 c Sc Bc E0) as (A1 & A2). destruct CF as [CF1 CF2].
  constructor; auto.
  - intros e d b k E1 E2. destruct (Nat.eq_dec e c) as [->|N1], (Nat.eq_dec d c) as [->|N2]; auto;
    [rewrite upd_same in E1; discriminate|rewrite upd_same in E2; discriminate|rewrite upd_other in E1, E2 by auto; eauto].
  - intros d. destruct (Nat.eq_dec d c) as [->|N]; [rewrite upd_same; tauto|rewrite upd_other by auto]. split.
    + intros X. apply k_on0 in X as [X|X]; discriminate.
    + intros [X|X]; congruence.
  - intros d b k E. destruct (Nat.eq_dec d c) as [->|N]; [rewrite upd_same in E; discriminate|]. rewrite upd_other in E by auto. auto.
  - intros d D1 D2 D3. destruct (Nat.eq_dec d c) as [->|N]; [rewrite upd_same in D3; discriminate|rewrite upd_other in D3 by auto]. auto.
  - intros d X. injection X as <-. rewrite A1. split; [lia|]. rewrite A2. do 2 f_equal. unfold live, len. replace (shi K - (shi K - 8)) with 8 by lia.
    symmetry. apply (k_top0 c Sc Bc).
  - intros d D. destruct (Nat.eq_dec d c) as [->|N]; auto. rewrite upd_other in D by auto. auto.
Qed.

(** The coroutine whose bytes are in the shared stack executes, and finds what it left. *)
Lemma core_enter : forall K M sp st bn mp H c, Core K M sp st bn mp H (Some c) None ->
  Core K M sp st bn mp (SIn c (sp c) (live K M (sp c)) :: H) None (Some c).
Proof.
  intros K M sp st bn mp H c C. pose proof C as []. destruct (k_hold0 c eq_refl) as (S1 & S2). constructor; auto.
  - intros d. rewrite k_on0. tauto.
  - discriminate.
  - apply kept_cons; auto. intros d p l E. injection E as <- <- <-. exact S2.
Qed.
(** It stops. *)
Lemma core_leave : forall K M sp st bn mp H c p, Core K M sp st bn mp H None (Some c) -> slo K <= p <= shi K - 8 ->
  Core K M (upd sp c p) st bn mp (SOut c p (live K M p) :: H) (Some c) None.
Proof.
  intros K M sp st bn mp H c p C P. pose proof C as [].
  assert (ON : st c = OnShared) by (apply k_on0; auto).
  constructor; auto.
  - intros d. rewrite k_on0. tauto.
  - intros d a n E. assert (d <> c) by (intros ->; congruence). destruct (k_copy0 d a n E) as (A1 & A2 & A3 & A4 & A5). rewrite upd_other by auto.
    cbn [last_left]. destruct (Nat.eqb_spec c d); [congruence|]. auto.
  - intros d D1 D2 D3. assert (d <> c) by (intros ->; congruence). rewrite upd_other by auto. cbn [last_left]. destruct (Nat.eqb_spec c d); [congruence|]. auto.
  - intros d E. injection E as <-. rewrite upd_same. cbn [last_left]. rewrite Nat.eqb_refl. auto.
  - apply kept_cons; auto. discriminate.
Qed.
Lemma core_init : forall K M sp st bn mp H h r c, cfg_ok K -> Core K M sp st bn mp H h r -> shared K c = true -> bn c = false ->
  Core K (sd M (shi K - 8) (sstart K)) (upd sp c (shi K - 8)) (upd st c NoStack) (upd bn c true) mp (SBorn c (shi K - 8) (enc 8 (sstart K)) :: H) h r.
Proof.
  intros K M sp st bn mp H h r c CF C Sc Bc. pose proof C as []. destruct CF as [CF1 CF2].
  assert (NS : st c = NoStack). { destruct (st c) eqn:E; auto; (destruct (k_born0 c); [congruence|congruence]). }
  assert (Eu : forall d, upd st c NoStack d = st d) by (intros d; destruct (Nat.eq_dec d c) as [->|N]; [now rewrite upd_same|now rewrite upd_other]).
  assert (SAME : (exists d, shared K d = true /\ bn d = true) -> forall x, sd M (shi K - 8) (sstart K) x = M x).
  { intros (d & D1 & D2) x. unfold sd. apply put_same. rewrite enc_len. now apply (k_top0 d). }
  constructor; auto.
  - intros e d a n. rewrite !Eu. eauto.
  - intros d. rewrite Eu. auto.
  - intros d a n E. rewrite Eu in E. assert (N : d <> c) by (intros ->; congruence). destruct (k_copy0 d a n E) as (A1 & A2 & A3 & A4 & A5).
    destruct (k_born0 d) as [D1 D2]; [congruence|]. assert (SM := SAME (ex_intro _ d (conj D1 D2))). rewrite upd_other by auto. split; auto. split; auto. split; auto. split.
    + cbn [last_left]. destruct (Nat.eqb_spec c d); [congruence|]. rewrite A4. do 2 f_equal. apply bytes_ext. intros. now rewrite SM.
    + rewrite <- A5. apply bytes_ext. intros. now rewrite SM.
  - intros d D1 D2 D3. rewrite Eu in D3. cbn [last_left]. destruct (Nat.eqb_spec c d) as [<-|N]; [now rewrite upd_same|].
    rewrite upd_other in * by auto. auto.
  - intros d E. destruct (k_hold0 d E) as (A1 & A2). assert (ON : st d = OnShared) by (apply k_on0; auto).
    destruct (k_born0 d) as [D1 D2]; [congruence|]. assert (SM := SAME (ex_intro _ d (conj D1 D2))). assert (N : d <> c) by (intros ->; congruence).
    rewrite upd_other by auto. split; auto. cbn [last_left]. destruct (Nat.eqb_spec c d); [congruence|]. rewrite A2. unfold live. do 2 f_equal. apply bytes_ext. intros. now rewrite SM.
  - intros d D. rewrite Eu in D. destruct (k_born0 d D) as [D1 D2]. split; auto. assert (N : d <> c) by (intros ->; congruence). now rewrite upd_other.
  - intros d D1 D2. unfold sd. pose proof (bytes_put (enc 8 (sstart K)) M (shi K - 8)) as Q. rewrite enc_len in Q. exact Q.
  - apply kept_cons; auto. discriminate.
Qed.

Definition pend (K : config) (s : sstate) : option nat := if need s && is_shared K (from s) then from s else None.
Definition onit (K : config) (s : sstate) : option nat := if is_shared K (run_ctx s) then run_ctx s else None.
Record SI (K : config) (s : sstate) : Prop := {
  s_core : Core K (smem s) (ssp s) (sst s) (born s) (maps s) (shist s) (pend K s) (onit K s);
  s_need : need s = true -> run_ctx s = None /\ pickable s (to s) = true /\ (from s <> to s) }.

Lemma pick_born : forall s c, pickable s (Some c) = true -> born s c = true.
Proof. intros s c H. simpl in H. now apply andb_true_iff in H. Qed.
Lemma swrite_out : forall w M x, (forall p, In p w -> fst p <> x) -> fold_left swrite w M x = M x.
Proof.
  induction w as [|p w IH]; intros M x H; simpl; auto. rewrite IH by (intros; apply H; now right). unfold swrite.
  destruct (Z.eqb_spec x (fst p)) as [E|]; auto. destruct (H p); [now left|auto].
Qed.
Lemma in_area_spec : forall x a n, in_area x a n = true <-> a <= x < a + n.
Proof. intros x a n. unfold in_area. rewrite andb_true_iff, Z.leb_le, Z.ltb_lt. tauto. Qed.
Lemma unused_spec : forall K s a n, unused K s a n = true -> apart a n (slo K) (shi K - slo K) /\ forall p, In p (maps s) -> apart a n (fst p) (snd p).
Proof.
  intros K s a n H. unfold unused in H. apply andb_true_iff in H as [H1 H2]. rewrite forallb_forall in H2. unfold apart. split.
  - apply orb_true_iff in H1 as [H1|H1]; apply Z.leb_le in H1; lia.
  - intros p P. specialize (H2 p P). apply orb_true_iff in H2 as [H2|H2]; apply Z.leb_le in H2; lia.
Qed.

(** After the bytes of the leaving coroutine have been saved, nobody's are in the shared stack; entering anyone is right. *)
Lemma enter_free : forall K s o, cfg_ok K -> Core K (smem s) (ssp s) (sst s) (born s) (maps s) (shist s) None None -> need s = false ->
  pickable s o = true -> (forall c, o = Some c -> shared K c = true -> sst s c <> OnShared) ->
  SI K (enter K (match o with Some c => if shared K c then restore K s c else s | None => s end) o).
Proof.
  intros K s o CF C N P NO. destruct o as [c|]; [|constructor; simpl; [unfold pend, onit; simpl; now rewrite N|congruence]].
  destruct (shared K c) eqn:Sc.
  - specialize (NO c eq_refl Sc). unfold restore. destruct (sst s c) eqn:E; [| contradiction |].
    + constructor; [|simpl; congruence]. simpl. unfold pend, onit. simpl. rewrite N, Sc. simpl. apply core_enter. apply core_restore_none; auto. now apply pick_born.
    + constructor; [|simpl; congruence]. simpl. unfold pend, onit. simpl. rewrite N, Sc. simpl. apply core_enter. now apply core_restore_copy.
  - constructor; [|simpl; congruence]. simpl. unfold pend, onit. simpl. rewrite N, Sc. exact C.
Qed.

Lemma sstep_inv : forall K s l s', cfg_ok K -> SI K s -> sstep K s l = Some s' -> SI K s'.
Proof.
  intros K s l s' CF [C N] H. destruct l as [c|w|sp next|next|a|c]; unfold sstep in H.
  - destruct (shared K c && negb (born s c)) eqn:G; [|discriminate]. injection H as <-. apply andb_true_iff in G as [G1 G2]. apply negb_true_iff in G2.
    constructor; [|]; simpl.
    + change (pend K _) with (pend K s). change (onit K _) with (onit K s). now apply core_init.
    + intros X. destruct (N X) as (N1 & N2 & N3). split; auto. split; auto. unfold pickable in *. destruct (to s) as [d|]; auto. simpl.
      destruct (Nat.eq_dec d c) as [->|Q]; [rewrite upd_same; simpl; simpl in N2; rewrite G2 in N2; discriminate|rewrite upd_other by auto; auto].
  - destruct (forallb _ w) eqn:G; [|discriminate]. injection H as <-. rewrite forallb_forall in G.
    assert (G1 : forall p q, In p w -> In q (maps s) -> ~ (fst q <= fst p < fst q + snd q)).
    { intros p q P Q X. specialize (G p P). unfold writable in G. apply andb_true_iff in G as [G _]. rewrite forallb_forall in G. specialize (G q Q).
      apply negb_true_iff in G. apply in_area_spec in X. congruence. }
    constructor; simpl; auto. change (pend K _) with (pend K s). change (onit K _) with (onit K s).
    apply (core_mem K (smem s)); auto.
    + intros x a n I X. apply swrite_out. intros p P Ep. apply (G1 p (a, n) P I). simpl. lia.
    + intros x X. apply swrite_out. intros p P Ep. specialize (G p P). unfold writable in G. apply andb_true_iff in G as [_ G]. unfold cfg_ok in CF.
      destruct (is_shared K (run_ctx s)); apply negb_true_iff in G.
      * assert (Y : in_area (fst p) (shi K - 8) 8 = true) by (apply in_area_spec; lia). congruence.
      * assert (Y : in_area (fst p) (slo K) (shi K - slo K) = true) by (apply in_area_spec; lia). congruence.
    + intros PN x X. apply swrite_out. intros p P Ep. specialize (G p P). unfold writable in G. apply andb_true_iff in G as [_ G].
      unfold pend in PN. destruct (need s) eqn:Nd; [|destruct PN; reflexivity]. destruct (N eq_refl) as (N1 & _). rewrite N1 in G. simpl in G.
      apply negb_true_iff in G. assert (Y : in_area (fst p) (slo K) (shi K - slo K) = true) by (apply in_area_spec; lia). congruence.
  - destruct (run_ctx s) as [c|] eqn:RC; [|discriminate].
    destruct (_ && _) eqn:G; [|discriminate]. apply andb_true_iff in G as [G G3]. apply andb_true_iff in G as [G1 G2].
    assert (ND : need s = false). { destruct (need s) eqn:Nd; auto. destruct (N eq_refl); congruence. }
    assert (PD : pend K s = None) by (unfold pend; now rewrite ND).
    destruct (shared K c) eqn:Sc.
    + cbn [is_shared] in H. rewrite Sc in H. simpl in H. injection H as <-. simpl in G3. apply andb_true_iff in G3 as [G3 G4]. apply Z.leb_le in G3, G4.
      constructor; [|simpl].
      * unfold pend, onit in *. simpl. rewrite Sc. rewrite PD, RC in C. simpl in C. rewrite Sc in C. simpl in C. now apply core_leave.
      * intros _. split; auto. split; auto. intros E. rewrite <- E in G2. simpl in G2. rewrite Nat.eqb_refl in G2. discriminate.
    + change (is_shared K (Some c)) with (shared K c) in H. rewrite Sc in H. cbn [orb] in H.
      assert (CU : Core K (smem s) (upd (ssp s) c sp) (sst s) (born s) (maps s) (shist s) None None).
      { unfold onit in C. rewrite RC in C. simpl in C. rewrite Sc, PD in C. pose proof C as []. constructor; auto.
        - intros d a n E. destruct (Nat.eq_dec d c) as [->|Q]; [destruct (k_born0 c); congruence|]. rewrite upd_other by auto. auto.
        - intros d D1 D2 D3. destruct (Nat.eq_dec d c) as [->|Q]; [congruence|]. rewrite upd_other by auto. auto.
        - discriminate. }
      destruct (is_shared K next) eqn:Sn.
      * injection H as <-. constructor; [|simpl].
        -- unfold pend, onit. simpl. rewrite Sc. simpl. exact CU.
        -- intros _. split; auto. split; auto. intros E. rewrite <- E in G2. simpl in G2. rewrite Nat.eqb_refl in G2. discriminate.
      * injection H as <-. constructor; [|simpl; congruence]. unfold pend, onit. simpl. rewrite ND. simpl. rewrite Sn.
        destruct next as [d|]; [simpl in Sn; rewrite Sn|]; exact CU.
  - destruct (run_ctx s) as [c|] eqn:RC; [discriminate|]. destruct (negb (need s) && _) eqn:G; [|discriminate]. apply andb_true_iff in G as [G1 G2]. apply negb_true_iff in G1.
    assert (PD : pend K s = None) by (unfold pend; now rewrite G1). unfold onit in C. rewrite RC, PD in C. simpl in C.
    destruct (shared K next) eqn:Sn; injection H as <-.
    + constructor; [|simpl]. * unfold pend, onit. simpl. exact C. * intros _. split; auto. split; auto. discriminate.
    + constructor; [|simpl; congruence]. unfold pend, onit. simpl. rewrite G1, Sn. exact C.
  - destruct (run_ctx s) as [c|] eqn:RC; [discriminate|]. destruct (need s) eqn:ND; [|discriminate]. destruct (N eq_refl) as (_ & N2 & N3).
    cbv zeta in H. unfold onit in C. rewrite RC in C. unfold pend in C. rewrite ND in C. cbn [is_shared andb] in C.
    destruct (match from s with Some c => if shared K c then _ else true | None => true end) eqn:U; [|discriminate].
    remember (match from s with Some c => if shared K c then save K _ c a else _ | None => _ end) as s1 eqn:E1 in H.
    assert (X : Core K (smem s1) (ssp s1) (sst s1) (born s1) (maps s1) (shist s1) None None /\ need s1 = false /\ pickable s1 (to s) = true /\
                (forall c, to s = Some c -> shared K c = true -> sst s1 c <> OnShared)).
    { destruct (from s) as [f|] eqn:Ef; simpl in C.
      - destruct (shared K f) eqn:Sf; subst s1; simpl.
        + destruct (unused_spec _ _ _ _ U) as [U1 U2]. pose proof (core_save K _ _ _ _ _ _ f a CF C U1 U2) as CS. split; [exact CS|]. split; auto. split; auto.
          intros c Ec _ E. apply (k_on _ _ _ _ _ _ _ _ _ CS) in E as [E|E]; discriminate.
        + split; [exact C|]. split; auto. split; auto. intros c Ec _ E. apply (k_on _ _ _ _ _ _ _ _ _ C) in E as [E|E]; discriminate.
      - subst s1; simpl. split; [exact C|]. split; auto. split; auto. intros c Ec _ E. apply (k_on _ _ _ _ _ _ _ _ _ C) in E as [E|E]; discriminate. }
    destruct X as (X1 & X2 & X3 & X4). injection H as <-. now apply enter_free.
  - destruct (_ && _) eqn:G; [|discriminate]. injection H as <-. apply andb_true_iff in G as [G G3]. apply negb_true_iff in G3.
    constructor; simpl; auto. intros X. destruct (N X) as (N1 & N2 & N3). split; auto. split; auto. rewrite X in G3. simpl in G3. apply orb_false_iff in G3 as [_ G3].
    unfold pickable in *. destruct (to s) as [d|]; auto. simpl in *. destruct (Nat.eqb_spec d c) as [->|Q]; [discriminate|]. now rewrite upd_other.
Qed.

(** The memory obtained and not given back is that of the copies. *)
Record SM (s : sstate) : Prop := {
  h_held : held (shist s) = maps s;
  h_copy : forall a n, In (a, n) (maps s) -> exists c, sst s c = Copy a n }.
Lemma sstep_SM : forall K s l s', cfg_ok K -> SI K s -> SM s -> sstep K s l = Some s' -> SM s'.
Proof.
  intros K s l s' CF [C N] [E O] H. destruct l as [c|w|sp next|next|a|c]; unfold sstep in H.
  - destruct (shared K c && negb (born s c)) eqn:G; [|discriminate]. injection H as <-. apply andb_true_iff in G as [G1 G2]. apply negb_true_iff in G2. constructor; simpl; auto.
    intros a n I. destruct (O a n I) as (d & D). exists d. rewrite upd_other; auto. intros ->. destruct (k_born _ _ _ _ _ _ _ _ _ C c); congruence.
  - destruct (forallb _ w); [|discriminate]. injection H as <-. constructor; auto.
  - destruct (run_ctx s) as [c|]; [|discriminate]. destruct (_ && _); [|discriminate]. destruct (is_shared K (Some c) || is_shared K next); injection H as <-; constructor; simpl; auto;
    destruct (shared K c); auto; destruct next as [d|]; auto; destruct (shared K d); auto.
  - destruct (run_ctx s); [discriminate|]. destruct (_ && _); [|discriminate]. destruct (shared K next); injection H as <-; constructor; simpl; auto. destruct (shared K next); auto.
  - destruct (run_ctx s) as [c|] eqn:RC; [discriminate|]. destruct (need s) eqn:ND; [|discriminate]. destruct (N eq_refl) as (_ & N2 & N3).
    cbv zeta in H. unfold onit in C. rewrite RC in C. unfold pend in C. rewrite ND in C. cbn [is_shared andb] in C.
    destruct (match from s with Some c => if shared K c then _ else true | None => true end) eqn:U; [|discriminate].
    remember (match from s with Some c => if shared K c then save K _ c a else _ | None => _ end) as s1 eqn:E1 in H.
    assert (X : SM s1 /\ Core K (smem s1) (ssp s1) (sst s1) (born s1) (maps s1) (shist s1) None None).
    { destruct (from s) as [f|] eqn:Ef; simpl in C; [destruct (shared K f) eqn:Sf|]; subst s1; simpl; try (split; [constructor; simpl; auto|exact C]; fail).
      destruct (unused_spec _ _ _ _ U) as [U1 U2]. split; [|exact (core_save K _ _ _ _ _ _ f a CF C U1 U2)].
      constructor; simpl; [now rewrite E|]. intros b k [I|I]; [injection I as <- <-; exists f; apply upd_same|].
      destruct (O b k I) as (d & D). exists d. rewrite upd_other; auto. intros ->.
      assert (sst s f = OnShared) by (apply (k_on _ _ _ _ _ _ _ _ _ C); auto). congruence. }
    destruct X as ([X1 X2] & CS). injection H as <-. destruct (to s) as [t|]; [|constructor; simpl; auto].
    destruct (shared K t) eqn:St; [|constructor; simpl; rewrite ?St; auto].
    unfold restore. destruct (sst s1 t) as [| |b k] eqn:T; constructor; simpl; rewrite ?St; simpl; auto.
    + intros a0 n0 I. destruct (X2 a0 n0 I) as (d & D). exists d. rewrite upd_other; auto. congruence.
    + intros a0 n0 I. destruct (X2 a0 n0 I) as (d & D). exists d. rewrite upd_other; auto. congruence.
    + now rewrite X1.
    + intros a0 n0 I. apply in_remove in I as [I I2]. destruct (X2 a0 n0 I) as (d & D). exists d. rewrite upd_other; auto. congruence.
  - destruct (_ && _); [|discriminate]. injection H as <-. constructor; auto.
Qed.

(** What the scheduler writes: only the shared stack and the piece of memory just obtained. *)
Lemma sstep_writes : forall K s l s', cfg_ok K -> SI K s -> SM s -> sstep K s l = Some s' -> (forall w, l <> TWork w) ->
  forall x, smem s' x <> smem s x -> slo K <= x < shi K \/ exists a n, In (SMap a n) (shist s') /\ ~ In (a, n) (held (shist s)) /\ a <= x < a + n.
Proof.
  intros K s l s' CF [C N] [E O] H NW x X. destruct l as [c|w|sp next|next|a|c]; unfold sstep in H.
  - destruct (_ && _); [|discriminate]. injection H as <-. simpl in X. left. unfold cfg_ok in CF.
    destruct (Z_lt_ge_dec x (shi K - 8)); [rewrite sd_out in X by lia; congruence|]. destruct (Z_lt_ge_dec x (shi K)); [lia|]. rewrite sd_out in X by lia. congruence.
  - destruct (NW w eq_refl).
  - destruct (run_ctx s) as [c|]; [|discriminate]. destruct (_ && _); [|discriminate]. destruct (is_shared K (Some c) || is_shared K next); injection H as <-; simpl in X; congruence.
  - destruct (run_ctx s); [discriminate|]. destruct (_ && _); [|discriminate]. destruct (shared K next); injection H as <-; simpl in X; congruence.
  - destruct (run_ctx s) as [c|] eqn:RC; [discriminate|]. destruct (need s) eqn:ND; [|discriminate]. destruct (N eq_refl) as (_ & N2 & N3).
    cbv zeta in H. unfold onit in C. rewrite RC in C. unfold pend in C. rewrite ND in C. cbn [is_shared andb] in C.
    destruct (match from s with Some c => if shared K c then _ else true | None => true end) eqn:U; [|discriminate].
    remember (match from s with Some c => if shared K c then save K _ c a else _ | None => _ end) as s1 eqn:E1 in H.
    assert (Y : Core K (smem s1) (ssp s1) (sst s1) (born s1) (maps s1) (shist s1) None None /\
      (smem s1 x <> smem s x -> exists b k, In (SMap b k) (shist s1) /\ ~ In (b, k) (held (shist s)) /\ b <= x < b + k)).
    { destruct (from s) as [f|] eqn:Ef; simpl in C; [destruct (shared K f) eqn:Sf|]; subst s1; simpl; try (split; [exact C|congruence]; fail).
      destruct (unused_spec _ _ _ _ U) as [U1 U2]. split; [exact (core_save K _ _ _ _ _ _ f a CF C U1 U2)|].
      destruct (k_hold _ _ _ _ _ _ _ _ _ C f eq_refl) as (S1 & _).
      intros Q. exists a, (shi K - ssp s f). split; [now left|]. split.
      - rewrite E. intros I. specialize (U2 _ I). unfold apart in U2. simpl in U2. lia.
      - destruct (Z_lt_ge_dec x a); [destruct Q; apply put_out; lia|]. destruct (Z_lt_ge_dec x (a + (shi K - ssp s f))); [lia|].
        destruct Q. apply put_out. rewrite bytes_len. lia. }
    destruct Y as (CS & Y). injection H as <-.
    destruct (Z.eq_dec (smem s1 x) (smem s x)) as [Q|Q].
    + left. destruct (to s) as [t|]; [|simpl in X; congruence]. destruct (shared K t) eqn:St; [|simpl in X; congruence].
      unfold restore in X. destruct (sst s1 t) as [| |b k] eqn:T; simpl in X; try congruence.
      destruct (k_copy _ _ _ _ _ _ _ _ _ CS t b k T) as (A1 & A2 & A3 & _).
      destruct (Z_lt_ge_dec x (shi K - k)); [rewrite put_out in X by lia; congruence|]. destruct (Z_lt_ge_dec x (shi K)); [lia|].
      rewrite put_out in X by (rewrite bytes_len; lia). congruence.
    + right. destruct (Y Q) as (b & k & B1 & B2 & B3). exists b, k. split; auto.
      assert (I : forall s2 o, In (SMap b k) (shist s2) -> In (SMap b k) (shist (enter K s2 o))) by (intros s2 [o|] I; simpl; auto; destruct (shared K o); auto; now right).
      apply I. destruct (to s) as [t|]; auto. destruct (shared K t); auto. unfold restore. destruct (sst s1 t); auto. now right.
  - destruct (_ && _); [|discriminate]. injection H as <-. simpl in X. congruence.
Qed.
