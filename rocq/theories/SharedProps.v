(** C53, C71 and a part of C70: coroutines on a shared stack. *)
From Coq Require Import List Arith ZArith Bool Lia.
From Verif Require Import Base MemBase SharedSpec SharedModel SharedProofs.
Import ListNotations.
Local Open Scope Z_scope.

Lemma run_SI : forall K M ls s, cfg_ok K -> run (sstep K) (sinit K M) ls = Some s -> SI K s /\ SM s.
Proof.
  intros K M ls s CF R. refine (run_inv (sstep K) (fun s => SI K s /\ SM s) (sinit K M) _ _ ls R).
  - split; [constructor; simpl; [|discriminate]|constructor; simpl; [reflexivity|tauto]].
    constructor; simpl; try tauto; try discriminate; try congruence.
    + constructor.
    + intros c. split; [discriminate|]. unfold pend, onit. simpl. intros [|]; discriminate.
    + intros c S B. rewrite S in B. discriminate.
    + intros c S B. rewrite S in B. discriminate.
    + intros post c p l pre E. now destruct post.
  - intros a l b [I J] H. split; [eapply sstep_inv; eauto|eapply sstep_SM; eauto].
Qed.

(** C53, first half: whoever executes on the shared stack finds its stack pointer and all bytes above it as it left them. *)
Theorem shared_kept : forall K M ls s, cfg_ok K -> run (sstep K) (sinit K M) ls = Some s -> stacks_kept (shist s).
Proof. intros K M ls s CF R. destruct (run_SI K M ls s CF R) as [[C _] _]. exact (k_kept _ _ _ _ _ _ _ _ _ C). Qed.
Print Assumptions shared_kept.
(** C53, second half: no step of the scheduler changes a byte outside the shared stack and a piece of memory that this step obtained. *)
Theorem shared_writes : forall K M ls s l s', cfg_ok K -> run (sstep K) (sinit K M) ls = Some s -> sstep K s l = Some s' -> (forall w, l <> TWork w) ->
  forall x, smem s' x <> smem s x -> slo K <= x < shi K \/ exists a n, In (SMap a n) (shist s') /\ ~ In (a, n) (held (shist s)) /\ a <= x < a + n.
Proof. intros K M ls s l s' CF R H NW. destruct (run_SI K M ls s CF R) as [I J]. exact (sstep_writes K s l s' CF I J H NW). Qed.
Print Assumptions shared_writes.

(** Coroutines 0, 1, 2 on the shared stack [100, 164); coroutine 3 has its own stack.  0 writes 7 at 140 and leaves for 1, which writes 8 there and
    leaves for 3, which leaves for 2; 2 writes 9 and leaves for 0. *)
Definition cfg : config := {| slo := 100; shi := 164; shared := fun c => negb (Nat.eqb c 3); sstart := 5 |}.
Definition relay : list slabel :=
  [TInit 0; TIdle 0; TSwitch 0; TInit 1; TWork [(140, 7); (1000, 1)]; TLeave 130 (Some 1%nat); TSwitch 200; TWork [(140, 8)]; TLeave 120 (Some 3%nat); TSwitch 300; TInit 2;
   TWork [(1000, 2)]; TLeave 0 (Some 2%nat); TSwitch 0; TWork [(140, 9)]; TLeave 136 (Some 0%nat); TSwitch 400].
Example shared_kept_ex : cfg_ok cfg /\
  option_map (fun s => match shist s with SIn c sp l :: _ => (c, sp, nth 10 l 0, map (smem s) [140; 1000]) | _ => (9%nat, 0, 0, []) end)
    (run (sstep cfg) (sinit cfg (fun _ => 0)) relay) = Some (0%nat, 130, 7, [7; 2]).
Proof. split; [unfold cfg_ok; simpl; lia|]. vm_compute. reflexivity. Qed.
(** The last step of it writes the shared stack (restoring 0) and the memory at 400 (saving 2). *)
Example shared_writes_ex : match run (sstep cfg) (sinit cfg (fun _ => 0)) (firstn 16 relay) with
  | Some s => match sstep cfg s (TSwitch 400) with Some s' => map (smem s) [140; 404] = [9; 0] /\ map (smem s') [140; 404] = [7; 9] | None => False end
  | None => False end.
Proof. vm_compute. split; reflexivity. Qed.

(** C71, what holds: the memory kept for copies is exactly that of the coroutines that are saved (each has one piece, its own). *)
Theorem shared_held_partial : forall K M ls s, cfg_ok K -> run (sstep K) (sinit K M) ls = Some s ->
  forall a n, In (a, n) (held (shist s)) <-> exists c, sst s c = Copy a n /\ forall d, sst s d = Copy a n -> d = c.
Proof.
  intros K M ls s CF R a n. destruct (run_SI K M ls s CF R) as [[C _] [E O]]. rewrite E. split.
  - intros I. destruct (O a n I) as (c & D). exists c. split; auto. intros d Dd. exact (k_own _ _ _ _ _ _ _ _ _ C d c a n Dd D).
  - intros (c & D & _). now destruct (k_copy _ _ _ _ _ _ _ _ _ C c a n D).
Qed.
Print Assumptions shared_held_partial.
Example shared_held_ex : option_map (fun s => (held (shist s), sst s 1)) (run (sstep cfg) (sinit cfg (fun _ => 0)) relay) = Some ([(400, 28); (300, 44)], Copy 300 44).
Proof. vm_compute. reflexivity. Qed.

(** C71 is false: a coroutine on the shared stack that ends is saved one last time; its copy is never given back, although the coroutine is destroyed. *)
Theorem shared_leak_refuted : exists K M ls s, cfg_ok K /\ run (sstep K) (sinit K M) ls = Some s /\ (forall c, shared K c = true -> born s c = true -> gone s c = true) /\
  (exists c, shared K c = true /\ born s c = true) /\ held (shist s) <> [].
Proof.
  set (K := {| slo := 100; shi := 164; shared := fun c => Nat.eqb c 0; sstart := 5 |}).
  set (ls := [TInit 0; TIdle 0; TSwitch 0; TLeave 130 None; TSwitch 200; TDestroy 0]). exists K, (fun _ => 0), ls.
  assert (P : option_map (fun s => (born s 0%nat, gone s 0%nat, held (shist s))) (run (sstep K) (sinit K (fun _ => 0)) ls) = Some (true, true, [(200, 34)])) by (vm_compute; reflexivity).
  destruct (run (sstep K) (sinit K (fun _ => 0)) ls) as [s|]; [|discriminate P]. exists s. injection P as P1 P2 P3.
  split; [unfold cfg_ok; simpl; lia|]. split; [reflexivity|]. split; [intros c S B; simpl in S; apply Nat.eqb_eq in S; now subst|].
  split; [exists 0%nat; split; auto|]. rewrite P3. discriminate.
Qed.
Print Assumptions shared_leak_refuted.
(** And there is no bound: n coroutines that have ended leave n pieces. *)
Definition life (k : nat) : list slabel := [TInit k; TIdle k; TSwitch 0; TLeave 130 None; TSwitch (200 + 100 * Z.of_nat k); TDestroy k].
Example shared_leak_ex : option_map (fun s => (length (held (shist s)), map (gone s) [0; 1; 2]%nat))
  (run (sstep cfg) (sinit cfg (fun _ => 0)) (life 0 ++ life 1 ++ life 2)) = Some (3%nat, [true; true; true]).
Proof. vm_compute. reflexivity. Qed.

(** C70 for the shared stack: the 128 bytes below the stack pointer of an interrupted coroutine are not saved (here the 4 bytes below it):
    coroutine 0 is interrupted with 42 at 129, below its stack pointer 130, and resumed with the byte that coroutine 1 wrote. *)
Theorem shared_red_refuted : exists K M ls1 ls2 s1 s2 c sp x, cfg_ok K /\ run (sstep K) (sinit K M) ls1 = Some s1 /\ run (sstep K) (sinit K M) (ls1 ++ ls2) = Some s2 /\
  run_ctx s1 = Some c /\ (exists o ls3, ls2 = TLeave sp o :: ls3) /\ run_ctx s2 = Some c /\ ssp s2 c = sp /\ sp - 128 <= x < sp /\ slo K <= x /\ smem s2 x <> smem s1 x.
Proof.
  set (l1 := [TInit 0; TInit 1; TIdle 0; TSwitch 0; TWork [(129, 42)]]).
  set (l2 := [TLeave 130 (Some 1%nat); TSwitch 200; TWork [(129, 8)]; TLeave 120 (Some 0%nat); TSwitch 300]). exists cfg, (fun _ => 0), l1, l2.
  assert (P : option_map (fun s => (run_ctx s, smem s 129)) (run (sstep cfg) (sinit cfg (fun _ => 0)) l1) = Some (Some 0%nat, 42)) by (vm_compute; reflexivity).
  assert (Q : option_map (fun s => (run_ctx s, ssp s 0%nat, smem s 129)) (run (sstep cfg) (sinit cfg (fun _ => 0)) (l1 ++ l2)) = Some (Some 0%nat, 130, 8)) by (vm_compute; reflexivity).
  destruct (run (sstep cfg) (sinit cfg (fun _ => 0)) l1) as [s1|]; [|discriminate P]. destruct (run (sstep cfg) (sinit cfg (fun _ => 0)) (l1 ++ l2)) as [s2|]; [|discriminate Q].
  exists s1, s2, 0%nat, 130, 129. injection P as P1 P2. injection Q as Q1 Q2 Q3. split; [unfold cfg_ok; simpl; lia|]. split; [reflexivity|]. split; [reflexivity|].
  split; [exact P1|]. split; [eexists; eexists; reflexivity|]. split; [exact Q1|]. split; [exact Q2|]. split; [lia|]. split; [simpl; lia|]. rewrite P2, Q3. discriminate.
Qed.
Print Assumptions shared_red_refuted.
