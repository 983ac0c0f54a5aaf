(** Proofs about AsmModel. *)
From Coq Require Import List Arith ZArith Bool Lia.
From Verif Require Import Base MemBase AsmSpec AsmModel.
Import ListNotations.
Local Open Scope Z_scope.

(** The areas of a layout do not overlap, lie in the address space, and stacks have room for two words. *)
Record wf (L : layout) : Prop := {
  w_blk : forall c, (c < nco L)%nat -> 0 <= blk L c /\ blk L c + blk_size <= 2 ^ 64;
  w_stk : forall c, (c < nco L)%nat -> 0 <= lo L c /\ lo L c + 16 <= hi L c /\ hi L c < 2 ^ 64;
  w_bb : forall c d, (c < nco L)%nat -> (d < nco L)%nat -> c <> d -> blk L c + blk_size <= blk L d \/ blk L d + blk_size <= blk L c;
  w_ss : forall c d, (c < nco L)%nat -> (d < nco L)%nat -> c <> d -> hi L c <= lo L d \/ hi L d <= lo L c;
  w_bs : forall c d, (c < nco L)%nat -> (d < nco L)%nat -> blk L c + blk_size <= lo L d \/ hi L d <= blk L c;
  w_entry : word (entry L); w_start : word (start L) }.

Definition words (m : mach) : Prop := (forall r, word (rg m r)) /\ word (fl m) /\ word (rip m) /\ bytemem (mem m).

Lemma exec_app : forall p q m, exec m (p ++ q) = exec (exec m p) q.
Proof. induction p as [|i p IH]; intros; simpl; auto. Qed.

Ltac other := repeat (rewrite ld_sd_other by (unfold off, off_ip, off_flags, off_pre, blk_size in *; lia)).

Lemma save_exec : forall m b d ret, rg m DI = b -> rg m SI = d -> words m -> word ret ->
  (b + blk_size <= d \/ d + blk_size <= b) -> (b + blk_size <= rg m SP - 8 \/ rg m SP <= b) -> (d + blk_size <= rg m SP - 8 \/ rg m SP <= d) ->
  let m' := exec (exec1 m (Call ret)) save_code in
  (forall r, ld (mem m') (b + off r) = rg m r) /\ ld (mem m') (b + off_ip) = ret /\ ld (mem m') (b + off_flags) = fl m /\
  (forall x, (x < b \/ b + 144 <= x) -> (x < d + 256 \/ d + 264 <= x) -> (x < rg m SP - 8 \/ rg m SP <= x) -> mem m' x = mem m x) /\
  rg m' SI = d /\ vec m' = vec m /\ bytemem (mem m') /\ ld (mem m') (d + off_pre) = b.
Proof.
  intros m b d ret Eb Ed W Wr H1 H2 H3 m'. unfold m', save_code. clear m'.
  destruct W as (W1 & W2 & W3 & W4).
  cbn -[sd ld Z.add Z.sub]. rewrite Eb, Ed. unfold blk_size in *.
  set (R := rg m SP) in *.
  repeat split.
  - intros r.
    assert (WR : word R) by apply W1. assert (ER : R = rg m SP) by reflexivity. clearbody R.
    assert (Wb : word b) by (rewrite <- Eb; apply W1). assert (Wd : word d) by (rewrite <- Ed; apply W1).
    destruct r; cbn [off]; other; rewrite ld_sd; auto; try congruence; unfold word in *; lia.
  - other. rewrite ld_sd; other; rewrite ld_sd; auto.
  - other. rewrite ld_sd; other; rewrite ld_sd; auto.
  - intros x X1 X2 X3. replace (R - 8 + 8) with R by lia. repeat rewrite sd_out by lia. reflexivity.
  - unfold bytemem in *. repeat apply sd_bytemem. exact W4.
  - repeat apply sd_bytemem. exact W4.
  - unfold off_pre. rewrite ld_sd_other by lia. rewrite ld_sd; [reflexivity|]. rewrite <- Eb. apply W1.
Qed.

Lemma restore_exec : forall m d, rg m SI = d -> bytemem (mem m) ->
  let sp := ld (mem m) (d + off SP) in (d + blk_size <= sp - 8 \/ sp <= d) ->
  let m' := exec m restore_code in
  (forall r, rg m' r = ld (mem m) (d + off r)) /\ rip m' = ld (mem m) (d + off_ip) /\ fl m' = ld (mem m) (d + off_flags) /\
  (forall x, (x < sp - 8 \/ sp <= x) -> mem m' x = mem m x) /\ vec m' = vec m /\ bytemem (mem m').
Proof.
  intros m d Ed W sp H m'. unfold m', restore_code. clear m'. cbn -[sd ld Z.add Z.sub]. rewrite Ed. cbn [off] in sp. fold sp.
  unfold blk_size, off_ip, off_flags in *.
  assert (E : sp - 8 + 8 = sp) by lia. rewrite !E.
  assert (Wl : forall a, word (ld (mem m) a)) by (intros; now apply ld_word).
  assert (Es : sp = ld (mem m) (d + 120)) by reflexivity. clearbody sp.
  repeat split.
  - intros r. destruct r; cbn [off]; other; try reflexivity. cbn -[ld Z.add]. exact Es.
  - rewrite ld_sd; auto; other; auto.
  - rewrite ld_sd; auto.
  - intros x X. repeat rewrite sd_out by lia. reflexivity.
  - repeat apply sd_bytemem. exact W.
  - repeat apply sd_bytemem. exact W.
Qed.

Lemma save_ctx_spec : forall M b m, words m -> bytemem M ->
  (forall r, ld (save_ctx M b m) (b + off r) = rg m r) /\ ld (save_ctx M b m) (b + off_ip) = rip m /\ ld (save_ctx M b m) (b + off_flags) = fl m /\
  (forall x, (x < b \/ b + 144 <= x) -> save_ctx M b m x = M x) /\ bytemem (save_ctx M b m).
Proof.
  intros M b m (W1 & W2 & W3 & W4) B. unfold save_ctx. cbn [fold_left all_regs off]. unfold off_ip, off_flags. repeat split.
  - intros r. destruct r; cbn [off]; other; rewrite ld_sd; auto.
  - other. rewrite ld_sd; auto.
  - rewrite ld_sd; auto.
  - intros x X. repeat rewrite sd_out by lia. reflexivity.
  - repeat apply sd_bytemem. exact B.
  - repeat apply sd_bytemem. exact B.
Qed.

(** Coroutine d is prepared or suspended; only memory matters. *)
Lemma stored_ext : forall L d M M',
  (forall x, blk L d <= x < blk L d + 144 -> M' x = M x) ->
  (forall x, ld M (blk L d + off SP) <= x < hi L d -> M' x = M x) ->
  see L d (stored L d M') = see L d (stored L d M) /\ forall r, ld M' (blk L d + off r) = ld M (blk L d + off r).
Proof.
  intros L d M M' H1 H2.
  assert (E : forall o, 0 <= o -> o + 8 <= 144 -> ld M' (blk L d + o) = ld M (blk L d + o)) by (intros; apply ld_ext; intros; apply H1; lia).
  assert (Er : forall r, ld M' (blk L d + off r) = ld M (blk L d + off r)) by (intros r; apply E; destruct r; simpl; lia).
  split; auto. unfold see, stored. cbn [rg fl rip mem]. f_equal.
  - apply map_ext. exact Er.
  - apply E; unfold off_flags; lia.
  - apply E; unfold off_ip; lia.
  - rewrite Er. apply bytes_ext. intros x X. apply H2. lia.
Qed.

Lemma see_eq : forall L c m m', (forall r, rg m r = rg m' r) -> fl m = fl m' -> rip m = rip m' ->
  (forall x, rg m SP <= x < hi L c -> mem m x = mem m' x) -> see L c m = see L c m'.
Proof.
  intros L c m m' R F I M. unfold see. f_equal; auto. - apply map_ext; auto. - rewrite <- (R SP). apply bytes_ext. intros. apply M. lia.
Qed.

Record Inv (L : layout) (s : astate) : Prop := {
  v_cur : (cur s < nco L)%nat;
  v_words : words (ma s);
  v_sp : lo L (cur s) + 8 <= rg (ma s) SP <= hi L (cur s);
  v_me : ready s (cur s) = false;
  v_ready : forall d, ready s d = true -> (d < nco L)%nat /\ left_with d (hist s) = Some (see L d (stored L d (mem (ma s)))) /\
             lo L d + 8 <= ld (mem (ma s)) (blk L d + off SP) <= hi L d;
  v_pres : preserved (hist s) }.

Lemma u64_word : forall v, word (u64 v).
Proof. intros. unfold word, u64. apply Z.mod_pos_bound. reflexivity. Qed.
Lemma writes_out : forall w M x, (forall p, In p w -> fst p <> x) -> writes M w x = M x.
Proof.
  induction w as [|p w IH]; intros M x H; simpl; auto. unfold writes in *. rewrite IH by (intros; apply H; now right). unfold write1.
  destruct (Z.eqb_spec x (fst p)) as [E|]; auto. destruct (H p); [now left|auto].
Qed.
Lemma writes_bytemem : forall w M, bytemem M -> bytemem (writes M w).
Proof.
  induction w as [|p w IH]; intros M H; simpl; auto. apply IH. intros x. unfold write1. destruct (_ =? _); auto. apply Z.mod_pos_bound. lia.
Qed.
Lemma may_write_out : forall L c a d, may_write L c a = true -> (d < nco L)%nat ->
  (a < blk L d \/ blk L d + blk_size <= a) /\ (d <> c -> a < lo L d \/ hi L d <= a).
Proof.
  intros L c a d H D. unfold may_write in H. rewrite forallb_forall in H. specialize (H d). rewrite in_seq in H.
  specialize (H ltac:(lia)). apply andb_true_iff in H as [H1 H2]. apply negb_true_iff in H1. apply orb_true_iff in H2. split.
  - destruct (Z.leb_spec (blk L d) a), (Z.ltb_spec a (blk L d + blk_size)); simpl in H1; try discriminate; lia.
  - intros N. destruct H2 as [H2|H2]; [apply Nat.eqb_eq in H2; contradiction|]. apply negb_true_iff in H2.
    destruct (Z.leb_spec (lo L d) a), (Z.ltb_spec a (hi L d)); simpl in H2; try discriminate; lia.
Qed.

Lemma preserved_cons : forall e h, preserved h -> (forall c i x, e = AIn c i x -> left_with c h = Some i) -> preserved (e :: h).
Proof.
  intros e h P E post c i x pre X. destruct post as [|a post]; simpl in X; injection X as -> ->; eauto.
Qed.

(** Coroutine d is not touched by a write outside its block and its stack. *)
Lemma ready_frame : forall L d M M', 
  lo L d <= ld M (blk L d + off SP) ->
  (forall x, (blk L d <= x < blk L d + 144 \/ lo L d <= x < hi L d) -> M' x = M x) ->
  see L d (stored L d M') = see L d (stored L d M) /\ ld M' (blk L d + off SP) = ld M (blk L d + off SP).
Proof.
  intros L d M M' S H. destruct (stored_ext L d M M') as [E1 E2]; [intros; apply H; lia|intros; apply H; lia|]. auto.
Qed.

(** Areas of different coroutines have no address in common. *)
Definition mine (L : layout) (c : nat) (x : Z) : Prop := blk L c <= x < blk L c + blk_size \/ lo L c <= x < hi L c.
Lemma mine_disj : forall L e c x, wf L -> (e < nco L)%nat -> (c < nco L)%nat -> e <> c -> mine L e x -> mine L c x -> False.
Proof.
  intros L e c x W E C N [X|X] [Y|Y].
  - pose proof (w_bb L W e c E C N). lia.
  - pose proof (w_bs L W e c E C). lia.
  - pose proof (w_bs L W c e C E). lia.
  - pose proof (w_ss L W e c E C N). lia.
Qed.

(** switch_to called by the coroutine whose block is b, for the one whose block is d. *)
Lemma switch_exec : forall m b d ret m', rg m DI = b -> rg m SI = d -> words m -> word ret ->
  (b + blk_size <= d \/ d + blk_size <= b) -> (b + blk_size <= rg m SP - 8 \/ rg m SP <= b) -> (d + blk_size <= rg m SP - 8 \/ rg m SP <= d) ->
  let sp := ld (mem m) (d + off SP) in (b + blk_size <= sp - 8 \/ sp <= b) -> (d + blk_size <= sp - 8 \/ sp <= d) ->
  m' = exec (exec1 m (Call ret)) switch_code ->
  (forall r, ld (mem m') (b + off r) = rg m r) /\ ld (mem m') (b + off_ip) = ret /\ ld (mem m') (b + off_flags) = fl m /\
  (forall r, rg m' r = ld (mem m) (d + off r)) /\ rip m' = ld (mem m) (d + off_ip) /\ fl m' = ld (mem m) (d + off_flags) /\
  (forall x, (x < b \/ b + 144 <= x) -> (x < d + 256 \/ d + 264 <= x) -> (x < rg m SP - 8 \/ rg m SP <= x) -> (x < sp - 8 \/ sp <= x) -> mem m' x = mem m x) /\
  bytemem (mem m') /\ ld (mem m') (d + off_pre) = b.
Proof.
  intros m b d ret m' E1 E2 W0 Wr H1 H2 H3 sp H4 H5 Em'.
  destruct (save_exec m b d ret E1 E2 W0 Wr H1 H2 H3) as (A1 & A2 & A3 & A4 & A5 & A6 & A7 & A8).
  unfold switch_code in Em'. rewrite exec_app in Em'. remember (exec (exec1 m (Call ret)) save_code) as ms eqn:Ems. clear Ems. cbv zeta in *.
  unfold blk_size in *.
  assert (G : forall o, 0 <= o -> o + 8 <= 144 -> ld (mem ms) (d + o) = ld (mem m) (d + o)) by (intros; apply ld_ext; intros; apply A4; lia).
  assert (Gr : forall r, ld (mem ms) (d + off r) = ld (mem m) (d + off r)) by (intros r; apply G; destruct r; simpl; lia).
  destruct (restore_exec ms d A5 A7) as (R1 & R2 & R3 & R4 & R5 & R6); [rewrite (Gr SP); exact H5|]. rewrite <- Em' in *. clear Em'. rewrite (Gr SP) in R4. fold sp in R4.
  assert (Gb : forall o, 0 <= o -> o + 8 <= 144 -> ld (mem m') (b + o) = ld (mem ms) (b + o)) by (intros; apply ld_ext; intros; apply R4; lia).
  split; [intros r; rewrite Gb by (destruct r; simpl; lia); apply A1|]. split; [rewrite Gb by (unfold off_ip; lia); auto|]. split; [rewrite Gb by (unfold off_flags; lia); auto|].
  split; [intros r; rewrite R1; apply Gr|]. split; [rewrite R2; apply G; unfold off_ip; lia|]. split; [rewrite R3; apply G; unfold off_flags; lia|].
  split; [intros x X1 X2 X3 X4; rewrite R4 by lia; apply A4; lia|]. split; auto.
  rewrite <- A8. apply ld_ext. intros x X. unfold off_pre in X. apply R4. lia.
Qed.

(** Coroutine c leaves with m0, coroutine d comes back with m1. *)
Lemma change_inv : forall L s d m0 m1 lv, wf L -> Inv L s -> (d < nco L)%nat -> d <> cur s -> ready s d = true ->
  (forall h e, left_with e (lv :: h) = if Nat.eqb (cur s) e then Some (see L (cur s) m0) else left_with e h) -> (forall c i x, lv <> AIn c i x) ->
  lo L (cur s) + 8 <= rg m0 SP <= hi L (cur s) ->
  (forall r, ld (mem m1) (blk L (cur s) + off r) = rg m0 r) -> ld (mem m1) (blk L (cur s) + off_ip) = rip m0 -> ld (mem m1) (blk L (cur s) + off_flags) = fl m0 ->
  (forall x, rg m0 SP <= x < hi L (cur s) -> mem m1 x = mem m0 x) ->
  (forall r, rg m1 r = ld (mem (ma s)) (blk L d + off r)) -> rip m1 = ld (mem (ma s)) (blk L d + off_ip) -> fl m1 = ld (mem (ma s)) (blk L d + off_flags) ->
  (forall x, rg m1 SP <= x < hi L d -> mem m1 x = mem (ma s) x) ->
  (forall e x, (e < nco L)%nat -> e <> cur s -> e <> d -> mine L e x -> mem m1 x = mem (ma s) x) -> bytemem (mem m1) ->
  forall xx, Inv L {| ma := m1; cur := d; ready := upd (upd (ready s) (cur s) true) d false; hist := AIn d (see L d m1) xx :: lv :: hist s |}.
Proof.
  intros L s d m0 m1 lv W [C WD SPb ME RD PR] G1 G2 G3 LV1 LV2 Q A1 A2 A3 A4 R1 R2 R3 R4 FR R6 xx.
  destruct (RD d G3) as (D1 & D2 & D3).
  assert (SEE : see L d m1 = see L d (stored L d (mem (ma s)))) by (apply see_eq; cbn [stored rg fl rip mem]; auto).
  assert (Wl : forall a, word (ld (mem (ma s)) a)) by (intros; apply ld_word; apply WD).
  constructor; cbn [ma cur ready hist]; auto.
  - split; [intros r; rewrite R1; auto|]. split; [rewrite R3; auto|]. split; [rewrite R2; auto|exact R6].
  - rewrite R1. exact D3.
  - apply upd_same.
  - intros e E. destruct (Nat.eq_dec e d) as [->|N]; [rewrite upd_same in E; discriminate|]. rewrite upd_other in E by auto.
    change (left_with e (AIn d (see L d m1) xx :: lv :: hist s)) with (left_with e (lv :: hist s)). rewrite LV1. destruct (Nat.eqb_spec (cur s) e) as [<-|N2].
    + split; auto. split; [|rewrite A1; auto]. f_equal. apply see_eq; cbn [stored rg fl rip mem]; auto. intros x X. symmetry. auto.
    + rewrite upd_other in E by auto. destruct (RD e E) as (E1 & E2 & E3). split; auto.
      destruct (ready_frame L e (mem (ma s)) (mem m1)) as [F1 F2]; [lia| |].
      * intros x X. apply (FR e x E1); auto. unfold mine, blk_size. lia.
      * rewrite F1, F2. auto.
  - apply preserved_cons; [apply preserved_cons; auto; intros c i x Ee; destruct (LV2 _ _ _ Ee)|]. intros c0 i x Ee. injection Ee as <- <- <-.
    rewrite LV1. destruct (Nat.eqb_spec (cur s) d); [congruence|]. rewrite SEE. exact D2.
Qed.

Lemma work_inv : forall L s m1, wf L -> Inv L s -> words m1 -> lo L (cur s) + 8 <= rg m1 SP <= hi L (cur s) ->
  (forall e x, (e < nco L)%nat -> e <> cur s -> mine L e x -> mem m1 x = mem (ma s) x) ->
  Inv L {| ma := m1; cur := cur s; ready := ready s; hist := hist s |}.
Proof.
  intros L s m1 W [C WD SPb ME RD PR] W1 S1 FR. constructor; cbn [ma cur ready hist]; auto.
  intros d D. destruct (RD d D) as (D1 & D2 & D3). split; auto.
  destruct (ready_frame L d (mem (ma s)) (mem m1)) as [E1 E2]; [lia| |rewrite E1, E2; exact (conj D2 D3)].
  intros x X. apply (FR d x D1); [intros ->; congruence|]. unfold mine, blk_size. lia.
Qed.

Lemma init_facts : forall L d M, wf L -> (d < nco L)%nat -> bytemem M ->
  (forall x, ~ mine L d x -> init_mem L d M x = M x) /\ ld (init_mem L d M) (blk L d + off SP) = hi L d - 8 /\ bytemem (init_mem L d M).
Proof.
  intros L d M W G1 B. destruct (w_stk L W d G1) as (T1 & T2 & T3). destruct (w_blk L W d G1) as (B1 & B2). pose proof (w_bs L W d d G1 G1) as BS. unfold mine, blk_size in *.
  unfold init_mem. unfold off, off_ip. repeat (rewrite ld_sd_other by lia). rewrite !ld_sd by (unfold word; lia).
  split; [|split].
  - intros x X. repeat rewrite sd_out by lia. reflexivity.
  - repeat (rewrite ld_sd_other by lia). rewrite ld_sd; auto. unfold word; lia.
  - repeat apply sd_bytemem. exact B.
Qed.

Lemma init_inv : forall L s d M, wf L -> Inv L s -> (d < nco L)%nat -> d <> cur s -> ready s d = false -> M = init_mem L d (mem (ma s)) ->
  Inv L {| ma := {| rg := rg (ma s); fl := fl (ma s); vec := vec (ma s); rip := rip (ma s); mem := M |}; cur := cur s; ready := upd (ready s) d true;
           hist := ABorn d (see L d (stored L d M)) :: hist s |}.
Proof.
  intros L s d M W [C WD SPb ME RD PR] G1 G2 G3 EM.
  destruct (init_facts L d (mem (ma s)) W G1) as (X1 & X2 & X3); [apply WD|]. rewrite <- EM in *. clear EM.
  destruct (w_stk L W d G1) as (T1 & T2 & T3).
  constructor; cbn [ma cur ready hist rg fl rip mem]; auto.
  - destruct WD as (Wa & Wb & Wc & Wd). split; [exact Wa|split; [exact Wb|split; [exact Wc|exact X3]]].
  - rewrite upd_other; auto.
  - intros e E. cbn [left_with]. destruct (Nat.eqb_spec d e) as [<-|N].
    + split; auto. split; auto. rewrite X2. lia.
    + rewrite upd_other in E by auto. destruct (RD e E) as (D1 & D2 & D3). split; auto.
      destruct (ready_frame L e (mem (ma s)) M) as [E1 E2]; [lia| |].
      * intros x X. apply X1. intros Y. apply (mine_disj L e d x W D1 G1); auto. unfold mine, blk_size. lia.
      * rewrite E1, E2. auto.
  - apply preserved_cons; auto. discriminate.
Qed.

Lemma step_inv : forall L s l s', wf L -> Inv L s -> astep L s l = Some s' -> Inv L s'.
Proof.
  intros L s l s' W I H. pose proof I as [C WD SPb ME RD PR]. destruct l as [r f v ip w|d|d ret|d w]; unfold astep in H; cbv beta iota zeta in H.
  - destruct (forallb _ w && _) eqn:G; [|discriminate]. apply andb_true_iff in G as [G1 G2]. rewrite forallb_forall in G1.
    unfold sp_ok in G2. apply andb_true_iff in G2 as [G2 G3]. apply Z.leb_le in G2. apply Z.leb_le in G3. injection H as <-.
    apply work_inv; auto.
    + split; [intros; apply u64_word|split; [apply u64_word|split; [apply u64_word|apply writes_bytemem; apply WD]]].
    + intros e x E N X. apply writes_out. intros p P Ep. destruct (may_write_out L (cur s) (fst p) e (G1 p P) E) as [F1 F2]. specialize (F2 N).
      unfold mine, blk_size in *. lia.
  - destruct (_ && _) eqn:G; [|discriminate]. apply andb_true_iff in G as [G G3]. apply andb_true_iff in G as [G1 G2].
    apply Nat.ltb_lt in G1. apply negb_true_iff in G2, G3. apply Nat.eqb_neq in G2. injection H as <-. apply init_inv; auto.
  - destruct (_ && _) eqn:G; [|discriminate]. apply andb_true_iff in G as [G G3]. apply andb_true_iff in G as [G1 G2].
    apply Nat.ltb_lt in G1. apply negb_true_iff in G2. apply Nat.eqb_neq in G2.
    remember (setip (setr (setr (ma s) DI (blk L (cur s))) SI (blk L d)) (u64 ret)) as m0 eqn:Em0.
    remember (exec (exec1 m0 (Call (u64 ret))) switch_code) as m1 eqn:Em1. injection H as <-.
    destruct (w_stk L W d G1) as (T1 & T2 & T3). destruct (w_blk L W d G1) as (B1 & B2).
    destruct (w_stk L W (cur s) C) as (T4 & T5 & T6). destruct (w_blk L W (cur s) C) as (B3 & B4).
    pose proof (w_bs L W d d G1 G1) as S1. pose proof (w_bs L W d (cur s) G1 C) as S2. pose proof (w_bs L W (cur s) d C G1) as S3. pose proof (w_bs L W (cur s) (cur s) C C) as S4.
    pose proof (w_bb L W (cur s) d C G1 ltac:(auto)) as S5. pose proof (w_ss L W (cur s) d C G1 ltac:(auto)) as S6.
    assert (K : rg m0 DI = blk L (cur s) /\ rg m0 SI = blk L d /\ rg m0 SP = rg (ma s) SP /\ mem m0 = mem (ma s) /\ rip m0 = u64 ret) by (subst m0; repeat split).
    destruct K as (K1 & K2 & K3 & K4 & K5).
    assert (W0 : words m0).
    { destruct WD as (Wa & Wb & Wc & Wd). unfold blk_size in *. subst m0. split; [|split; [exact Wb|split; [apply u64_word|exact Wd]]].
      intros r. unfold setip, setr. cbn [rg]. destruct (reg_eq_dec r SI); [unfold word; lia|]. destruct (reg_eq_dec r DI); [unfold word; lia|apply Wa]. }
    clear Em0. destruct (RD d G3) as (D1 & D2 & D3).
    destruct (switch_exec m0 (blk L (cur s)) (blk L d) (u64 ret) m1 K1 K2 W0 (u64_word ret)) as (A1 & A2 & A3 & A4 & A5 & A6 & A7 & A8 & A9); auto;
      [rewrite K3; lia|rewrite K3; lia|rewrite K4; lia|rewrite K4; lia|].
    clear Em1. rewrite K3, K4 in *. unfold blk_size in *.
    apply (change_inv L s d m0 m1); auto.
    + intros c i x; discriminate.
    + rewrite K3. exact SPb.
    + congruence.
    + intros x X. rewrite K4. rewrite K3 in X. apply A7; lia.
    + intros x X. rewrite A4 in X. apply A7; lia.
    + intros e x E N1 N2 X. assert (X1 : ~ mine L (cur s) x) by (intros Y; exact (mine_disj L e (cur s) x W E C N1 X Y)).
      assert (X2 : ~ mine L d x) by (intros Y; exact (mine_disj L e d x W E G1 N2 X Y)). clear X S1 S2 S3 S4 S5 S6. unfold mine, blk_size in *. apply A7; lia.
  - destruct (_ && _) eqn:G; [|discriminate]. apply andb_true_iff in G as [G G4]. apply andb_true_iff in G as [G G3]. apply andb_true_iff in G as [G1 G2].
    apply Nat.ltb_lt in G1. apply negb_true_iff in G2. apply Nat.eqb_neq in G2. rewrite forallb_forall in G4.
    assert (NW : forall e x, (e < nco L)%nat -> (blk L e <= x < blk L e + 264 \/ (e <> cur s /\ lo L e <= x < hi L e) \/ (e = cur s /\ rg (ma s) SP - 128 <= x < hi L e)) -> writes (mem (ma s)) w x = mem (ma s) x).
    { intros e x E X. apply writes_out. intros p P Ep. pose proof (G4 p P) as Gp. apply andb_true_iff in Gp as [Gp1 Gp2].
      destruct (may_write_out L (cur s) (fst p) e Gp1 E) as [F1 F2]. unfold blk_size in *. destruct X as [X|[[X1 X]|[-> X]]].
      - lia. - specialize (F2 X1). lia.
      - apply orb_true_iff in Gp2 as [Gp2|Gp2]; [apply Z.ltb_lt in Gp2|apply Z.leb_le in Gp2]; lia. }
    destruct (save_ctx_spec (writes (mem (ma s)) w) (blk L (cur s)) (ma s)) as (A1 & A2 & A3 & A4 & A5); [exact WD|apply writes_bytemem; apply WD|].
    remember (save_ctx (writes (mem (ma s)) w) (blk L (cur s)) (ma s)) as M eqn:EM. clear EM.
    remember (load_ctx M (blk L d) (ma s)) as m1 eqn:Em1. injection H as <-.
    destruct (w_stk L W d G1) as (T1 & T2 & T3).
    pose proof (w_bs L W (cur s) d C G1) as S3. pose proof (w_bs L W (cur s) (cur s) C C) as S4.
    pose proof (w_bb L W (cur s) d C G1 ltac:(auto)) as S5. unfold blk_size in *.
    destruct (RD d G3) as (D1 & D2 & D3).
    assert (Gd : forall o, 0 <= o -> o + 8 <= 144 -> ld M (blk L d + o) = ld (mem (ma s)) (blk L d + o)).
    { intros o O1 O2. apply ld_ext. intros x X. rewrite A4 by lia. apply (NW d x G1). lia. }
    assert (Gr : forall r, ld M (blk L d + off r) = ld (mem (ma s)) (blk L d + off r)) by (intros r; apply Gd; destruct r; simpl; lia).
    apply (change_inv L s d (ma s) m1); subst m1; cbn [load_ctx rg fl rip mem]; auto.
    + intros c i x; discriminate.
    + intros x X. rewrite A4 by lia. apply (NW (cur s) x C). right. right. split; auto. lia.
    + apply Gd; unfold off_ip; lia.
    + apply Gd; unfold off_flags; lia.
    + intros x X. rewrite Gr in X. rewrite A4 by lia. apply (NW d x G1). right. left. split; auto. lia.
    + intros e x E N1 N2 X. assert (X1 : ~ mine L (cur s) x) by (intros Y; exact (mine_disj L e (cur s) x W E C N1 X Y)).
      rewrite A4 by (unfold mine, blk_size in X1; lia). apply (NW e x E). unfold mine, blk_size in X. destruct X; auto.
Qed.

(** What the events of preparing a coroutine say. *)
Definition born_ok (L : layout) (h : list aevent) : Prop :=
  forall d i, In (ABorn d i) h -> enters (entry L) (blk L d) i /\ inside (lo L d) (hi L d) i /\ nth 15 (i_regs i) 0 = hi L d - 8 /\ i_stack i = enc 8 (start L).

Lemma init_image : forall L d M, wf L -> (d < nco L)%nat -> 
  let i := see L d (stored L d (init_mem L d M)) in
  enters (entry L) (blk L d) i /\ inside (lo L d) (hi L d) i /\ nth 15 (i_regs i) 0 = hi L d - 8 /\ i_stack i = enc 8 (start L).
Proof.
  intros L d M W G1 i.
  destruct (w_stk L W d G1) as (T1 & T2 & T3). destruct (w_blk L W d G1) as (B1 & B2). pose proof (w_bs L W d d G1 G1) as BS. unfold blk_size in *.
  assert (Wb : word (blk L d)) by (unfold word; lia). assert (Wh : word (hi L d - 8)) by (unfold word; lia). pose proof (w_entry L W) as We.
  assert (E0 : exists M4, M4 = sd (sd (sd (sd M (blk L d + off SP) (hi L d - 8)) (blk L d + off BP) (hi L d - 8)) (blk L d + off_ip) (entry L)) (blk L d + off DI) (blk L d) /\
    init_mem L d M = sd M4 (hi L d - 8) (start L)).
  { eexists. split; [reflexivity|]. unfold init_mem. f_equal. unfold off, off_ip. repeat (rewrite ld_sd_other by lia). now rewrite ld_sd. }
  destruct E0 as (M4 & EM & E0).
  assert (E1 : ld (init_mem L d M) (blk L d + off SP) = hi L d - 8).
  { rewrite E0, EM. unfold off, off_ip. repeat (rewrite ld_sd_other by lia). now rewrite ld_sd. }
  assert (E2 : ld (init_mem L d M) (blk L d + off DI) = blk L d).
  { rewrite E0, EM. unfold off, off_ip. repeat (rewrite ld_sd_other by lia). now rewrite ld_sd. }
  assert (E3 : ld (init_mem L d M) (blk L d + off_ip) = entry L).
  { rewrite E0, EM. unfold off, off_ip. repeat (rewrite ld_sd_other by lia). now rewrite ld_sd. }
  assert (E4 : bytes (init_mem L d M) (hi L d - 8) 8 = enc 8 (start L)).
  { rewrite E0. unfold sd. replace 8%nat with (length (enc 8 (start L))) at 2 by apply enc_len. apply bytes_put. }
  clear E0 EM.
  unfold i, enters, inside, see, stored. cbn [i_rip i_regs i_stack rip rg mem all_regs map nth]. rewrite E1, E2, E3.
  replace (Z.to_nat (hi L d - (hi L d - 8))) with 8%nat by lia. rewrite E4. repeat split; lia || auto.
Qed.

Lemma born_step : forall L s l s', wf L -> born_ok L (hist s) -> astep L s l = Some s' -> born_ok L (hist s').
Proof.
  intros L s l s' W B H. destruct l as [r f v ip w|d|d ret|d w]; unfold astep in H; cbv beta iota zeta in H.
  - destruct (_ && _); [|discriminate]. injection H as <-. exact B.
  - destruct (_ && _) eqn:G; [|discriminate]. injection H as <-. apply andb_true_iff in G as [G G3]. apply andb_true_iff in G as [G1 G2]. apply Nat.ltb_lt in G1.
    intros e i [E|E]; [|now apply B]. injection E as <- <-. now apply init_image.
  - destruct (_ && _); [|discriminate]. remember (setip _ _) as m0 eqn:Em0. remember (exec _ _) as m1 eqn:Em1. clear Em1 Em0. injection H as <-. intros e i [E|[E|E]]; try discriminate E. now apply B.
  - destruct (_ && _); [|discriminate]. injection H as <-. intros e i [E|[E|E]]; try discriminate E. now apply B.
Qed.

Lemma left_never : forall c h i pre, never_left c h -> left_with c (h ++ ABorn c i :: pre) = Some i.
Proof.
  induction h as [|e h IH]; intros i pre N; simpl; [now rewrite Nat.eqb_refl|].
  assert (N' : never_left c h) by (intros x X; apply N; now right). pose proof (N e (or_introl eq_refl)) as Ne.
  destruct e; auto; (destruct (Nat.eqb_spec c0 c); [contradiction|auto]).
Qed.

(** switch_to leaves the address of the coroutine that called it in pre_ctx__ of the one that runs now. *)
Lemma switch_pre_step : forall L s d ret s', wf L -> Inv L s -> astep L s (LSwitch d ret) = Some s' -> ld (mem (ma s')) (blk L d + off_pre) = blk L (cur s).
Proof.
  intros L s d ret s' W I H. pose proof I as [C WD SPb ME RD PR]. unfold astep in H; cbv beta iota zeta in H.
  destruct (_ && _) eqn:G; [|discriminate]. apply andb_true_iff in G as [G G3]. apply andb_true_iff in G as [G1 G2].
  apply Nat.ltb_lt in G1. apply negb_true_iff in G2. apply Nat.eqb_neq in G2.
  remember (setip (setr (setr (ma s) DI (blk L (cur s))) SI (blk L d)) (u64 ret)) as m0 eqn:Em0.
  remember (exec (exec1 m0 (Call (u64 ret))) switch_code) as m1 eqn:Em1. injection H as <-.
  destruct (w_stk L W d G1) as (T1 & T2 & T3). destruct (w_blk L W d G1) as (B1 & B2).
  destruct (w_stk L W (cur s) C) as (T4 & T5 & T6). destruct (w_blk L W (cur s) C) as (B3 & B4).
  pose proof (w_bs L W d d G1 G1) as S1. pose proof (w_bs L W d (cur s) G1 C) as S2. pose proof (w_bs L W (cur s) d C G1) as S3. pose proof (w_bs L W (cur s) (cur s) C C) as S4.
  pose proof (w_bb L W (cur s) d C G1 ltac:(auto)) as S5.
  assert (K : rg m0 DI = blk L (cur s) /\ rg m0 SI = blk L d /\ rg m0 SP = rg (ma s) SP /\ mem m0 = mem (ma s)) by (subst m0; repeat split).
  destruct K as (K1 & K2 & K3 & K4).
  assert (W0 : words m0).
  { destruct WD as (Wa & Wb & Wc & Wd). unfold blk_size in *. subst m0. split; [|split; [exact Wb|split; [apply u64_word|exact Wd]]].
    intros r. unfold setip, setr. cbn [rg]. destruct (reg_eq_dec r SI); [unfold word; lia|]. destruct (reg_eq_dec r DI); [unfold word; lia|apply Wa]. }
  clear Em0. destruct (RD d G3) as (D1 & D2 & D3).
  destruct (switch_exec m0 (blk L (cur s)) (blk L d) (u64 ret) m1 K1 K2 W0 (u64_word ret)) as (A1 & A2 & A3 & A4 & A5 & A6 & A7 & A8 & A9); auto;
    [rewrite K3; lia|rewrite K3; lia|rewrite K4; lia|rewrite K4; lia].
Qed.
