(** C54: shrinking a stack discards only dead memory. *)
From Coq Require Import List Arith ZArith Bool Lia.
From Verif Require Import Base MemBase ShrinkModel.
Import ListNotations.
Local Open Scope Z_scope.

Lemma page_of_spec : forall x, 0 <= x < 2 ^ 64 -> page_of x = x / 4096 * 4096.
Proof.
  intros x H. unfold page_of, page. replace (Z.lxor (2 ^ 64 - 1) (4096 - 1)) with (Z.shiftl (Z.ones 52) 12) by reflexivity.
  replace (x / 4096 * 4096) with (Z.shiftl (Z.shiftr x 12) 12) by (rewrite Z.shiftl_mul_pow2, Z.shiftr_div_pow2 by lia; reflexivity).
  apply Z.bits_inj'. intros i I. rewrite Z.land_spec.
  destruct (Z_lt_ge_dec i 12).
  - rewrite !Z.shiftl_spec_low by lia. now rewrite andb_false_r.
  - rewrite !Z.shiftl_spec_high by lia. rewrite Z.shiftr_spec by lia. replace (i - 12 + 12) with i by lia.
    destruct (Z_lt_ge_dec i 64).
    + rewrite Z.ones_spec_low by lia. now rewrite andb_true_r.
    + rewrite Z.ones_spec_high by lia. rewrite andb_false_r. symmetry. rewrite Z.testbit_odd, Z.shiftr_div_pow2 by lia.
      rewrite Z.div_small; [reflexivity|]. split; [lia|]. apply Z.lt_le_trans with (2 ^ 64); [lia|]. apply Z.pow_le_mono_r; lia.
Qed.

(** The requirement on a stack: it begins at a page (mmap) and lies in the address space. *)
Definition stack_ok (base size : Z) : Prop := 0 < base /\ base mod 4096 = 0 /\ 8 < size /\ base + size < 2 ^ 64.

(** C54: whatever the counter, the stack pointer and the contents: a byte that shrinking changes lies in the stack and below the stack pointer. *)
Theorem shrink_dead : forall M c M' c' b, stack_ok (c_base c) (c_size c) -> c_base c <= c_sp c <= c_base c + c_size c -> shrink M c = (M', c', b) ->
  forall x, M' x <> M x -> c_base c <= x < c_sp c.
Proof.
  intros M c M' c' b (S1 & S2 & S3 & S4) P H x X. unfold shrink in H. destruct (c_base c =? 0); [injection H as <- <- <-; congruence|].
  destruct (negb _); [|injection H as <- <- <-; congruence].
  unfold shrink_range in H. destruct (c_base c >=? c_sp c) eqn:G; [injection H as <- <- <-; congruence|]. injection H as <- <- <-.
  rewrite Z.geb_leb in G. apply Z.leb_gt in G. rewrite !page_of_spec in X by lia. unfold dontneed, page in X.
  destruct (_ mod 4096 =? 0); [|congruence]. destruct ((_ <=? x) && _) eqn:E; [|congruence]. apply andb_true_iff in E as [E1 E2]. apply Z.leb_le in E1. apply Z.ltb_lt in E2.
  pose proof (Z.div_mod (c_base c) 4096 ltac:(lia)) as D1. pose proof (Z.div_mod (c_sp c) 4096 ltac:(lia)) as D2. pose proof (Z.mod_pos_bound (c_sp c) 4096 ltac:(lia)) as D3.
  assert (LE : c_base c / 4096 <= c_sp c / 4096) by (apply Z.div_le_mono; lia).
  rewrite Z.mod_small in E2 by lia.
  replace (c_sp c / 4096 * 4096 - c_base c / 4096 * 4096 + 4096 - 1) with (4095 + (c_sp c / 4096 - c_base c / 4096) * 4096) in E2 by lia.
  rewrite Z.div_add in E2 by lia. change (4095 / 4096) with 0 in E2. lia.
Qed.
Print Assumptions shrink_dead.
Example shrink_dead_ex : let c := {| c_base := 8192; c_size := 20000; c_sp := 17000; c_count := 1023 |} in
  stack_ok (c_base c) (c_size c) /\ match shrink (fun _ => 7) c with (M', c', b) => (map M' [8191; 8192; 16383; 16384; 17000], c_count c', b) end = ([7; 0; 0; 7; 7], 0, true).
Proof. split; [unfold stack_ok; simpl; repeat split; lia|vm_compute; reflexivity]. Qed.

(** Over a whole life: live bytes are never changed by shrinking, and the stack pointer stays inside (so that shrink_dead applies each time). *)
Theorem shrink_dead_life : forall M base size ls s s', stack_ok base size -> run kstep (kinit M base size) ls = Some s -> kstep s KShrink = Some s' ->
  forall x, k_mem s' x <> k_mem s x -> base <= x < c_sp (k_ctx s).
Proof.
  intros M base size ls s s' S R H x X.
  assert (I : c_base (k_ctx s) = base /\ c_size (k_ctx s) = size /\ base <= c_sp (k_ctx s) <= base + size).
  { refine (run_inv kstep (fun s => c_base (k_ctx s) = base /\ c_size (k_ctx s) = size /\ base <= c_sp (k_ctx s) <= base + size) (kinit M base size) _ _ ls R).
    - simpl. unfold stack_ok in S. lia.
    - intros a l b (A1 & A2 & A3) Hs. destruct l as [sp w|]; simpl in Hs.
      + destruct (_ && _) eqn:G; [|discriminate]. injection Hs as <-. apply andb_true_iff in G as [G1 G2]. apply Z.leb_le in G1, G2. simpl. lia.
      + destruct (shrink (k_mem a) (k_ctx a)) as [[M1 c1] b1] eqn:E. injection Hs as <-. simpl. unfold shrink in E.
        destruct (_ =? 0); [injection E as <- <- <-; auto|]. destruct (negb _); [|injection E as <- <- <-; auto].
        destruct (shrink_range _ _) as [[]|]; injection E as <- <- <-; auto. }
  destruct I as (I1 & I2 & I3). simpl in H. destruct (shrink (k_mem s) (k_ctx s)) as [[M1 c1] b1] eqn:E. injection H as <-. simpl in X.
  rewrite <- I1. apply (shrink_dead (k_mem s) (k_ctx s) M1 c1 b1); auto; rewrite ?I1, ?I2; auto.
Qed.
Print Assumptions shrink_dead_life.
Example shrink_dead_life_ex : stack_ok 8192 20000 /\
  option_map (fun s => (k_calls s, k_advised s, map (k_mem s) [8200; 16383; 16384; 28000]))
    (run kstep (kinit (fun _ => 3) 8192 20000) (KWork 17000 [(8200, 5); (28000, 6)] :: repeat KShrink 1024)) = Some (1024, 1, [0; 0; 3; 6]).
Proof. split; [unfold stack_ok; repeat split; lia|vm_compute; reflexivity]. Qed.

(** How often: every 1024th call and no other gives pages back (as long as the stack is in use: a stack pointer at the very bottom has nothing below). *)
Theorem shrink_often : forall M base size ls s, stack_ok base size -> run kstep (kinit M base size) ls = Some s ->
  (forall sp w, In (KWork sp w) ls -> base < sp) -> k_advised s = k_calls s / 1024.
Proof.
  intros M base size ls s S R NB.
  assert (I : (c_base (k_ctx s) = base /\ base < c_sp (k_ctx s)) /\ 0 <= c_count (k_ctx s) < 1024 /\ k_calls s = k_advised s * 1024 + c_count (k_ctx s)).
  { revert s R NB. induction ls as [|l ls IH] using rev_ind; intros s R NB.
    - injection R as <-. simpl. unfold stack_ok in S. repeat split; lia.
    - rewrite run_app in R. destruct (run kstep (kinit M base size) ls) as [a|] eqn:E; [|discriminate]. simpl in R. destruct (kstep a l) as [b|] eqn:Hs; [|discriminate]. injection R as <-.
      destruct (IH a eq_refl) as ((A1 & A2) & A3 & A4); [intros; eapply NB; apply in_or_app; eauto|]. destruct l as [sp w|]; simpl in Hs.
      + destruct (_ && _) eqn:G; [|discriminate]. injection Hs as <-. simpl. split; [split; auto; apply (NB sp w); apply in_or_app; right; now left|]. lia.
      + destruct (shrink (k_mem a) (k_ctx a)) as [[M1 c1] b1] eqn:Es. injection Hs as <-. simpl. unfold shrink in Es.
        destruct (Z.eqb_spec (c_base (k_ctx a)) 0) as [Q|Q]; [unfold stack_ok in S; lia|].
        rewrite Z.mod_small in Es by (split; [lia|]; apply Z.le_lt_trans with 1024; [lia|reflexivity]).
        assert (L : Z.land (c_count (k_ctx a) + 1) 1024 = if c_count (k_ctx a) + 1 =? 1024 then 1024 else 0).
        { destruct (Z.eqb_spec (c_count (k_ctx a) + 1) 1024) as [F|F]; [rewrite F; reflexivity|].
          apply Z.bits_inj'. intros i I. rewrite Z.land_spec, Z.bits_0. change 1024 with (2 ^ 10). rewrite Z.pow2_bits_eqb by lia.
          destruct (Z.eqb_spec 10 i) as [<-|]; [|now rewrite andb_false_r]. rewrite andb_true_r. rewrite Z.testbit_odd, Z.shiftr_div_pow2 by lia.
          rewrite Z.div_small; [reflexivity|]. change (2 ^ 10) with 1024. lia. }
        rewrite L in Es. destruct (Z.eqb_spec (c_count (k_ctx a) + 1) 1024) as [F|F]; simpl in Es.
        * unfold shrink_range in Es. destruct (Z.geb_spec (c_base (k_ctx a)) (c_sp (k_ctx a))); [lia|]. injection Es as <- <- <-. simpl. lia.
        * injection Es as <- <- <-. simpl. lia. }
  destruct I as (_ & I1 & I2). rewrite I2. rewrite Z.div_add_l by lia. rewrite Z.div_small by lia. lia.
Qed.
Print Assumptions shrink_often.
Example shrink_often_ex : option_map (fun s => (k_calls s, k_advised s)) (run kstep (kinit (fun _ => 3) 8192 20000) (KWork 17000 [] :: repeat KShrink (50 * 50))) = Some (2500, 2).
Proof. vm_compute. reflexivity. Qed.

(** The requirement that stacks begin at a page is needed: on a stack in the middle of a page, bytes below the stack would be discarded. *)
Example shrink_unaligned : let c := {| c_base := 8200; c_size := 20000; c_sp := 17000; c_count := 1023 |} in
  match shrink (fun _ => 7) c with (M', _, _) => M' 8199 end = 0.
Proof. vm_compute. reflexivity. Qed.
