(** C106: in a fair execution everybody gets through a gate that has opened (co_wait_group, co_latch, co_barrier). *)
From Coq Require Import List ZArith Bool Arith Lia.
From Verif Require Import Base LinSpec LinLemmas HistSpec Monitor MonitorProofs FairSpec MonFair.
From Verif Require WgSpec WgModel WgProofs LatchSpec LatchModel LatchProofs BarrierSpec BarrierModel BarrierProofs.
Import ListNotations.

(** The call made at moment n returns. *)
Definition call_returns {Op Res Aux : Type} (h : nat -> list (ev Op Res Aux)) (t : tid) (o : Op) (n : nat) : Prop :=
  exists m r, n < m /\ h (S m) = ERet t o r :: h m.

(** ** co_wait_group *)
Section Wg.
  Import WgSpec WgModel.
  Local Open Scope Z_scope.
  Variable count : Z.

  Lemma dones_nn : forall h, 0 <= dones h.
  Proof. induction h as [|e h IH]; [unfold dones; simpl; lia|]. unfold dones in *. simpl. destruct e as [? ?|? []|? ?|? ?]; lia. Qed.
  (** co_wait_group: done() always returns; wait() and the destructor return if done() is called count times, before or after. *)
  Theorem wg_no_starvation : forall st lb, execution _ _ (wg_step count) wg_init st lb -> weakly_fair _ _ (wg_step count) mwho st lb ->
    forall n t o, lb n = Some (MCall t o) -> (o = ODone \/ exists m, count <= dones (mhist (st m))) ->
    call_returns (fun n => mhist (st n)) t o n.
  Proof.
    intros st lb EX WFR n t o C G.
    assert (I : forall k, WgProofs.WInv count (st k)) by (intros k; destruct (exec_run _ _ _ _ _ _ _ _ st lb EX k) as (ls&R); exact (WgProofs.winv_run count ls _ R)).
    assert (K : exists K, forall k, (K <= k)%nat -> o = ODone \/ count <= dat (st k)).
    { destruct G as [G|(m&G)]; [exists 0%nat; auto|]. exists m. intros k L. right. rewrite (WgProofs.i_dat _ _ (I k)).
      destruct (hist_grows _ _ _ _ _ _ _ WgProofs.wop_refl WgProofs.wres_refl _ _ _ st lb EX m k L) as (nw&E). rewrite E. unfold dones in *. rewrite total_app. pose proof (dones_nn nw). unfold dones in *. lia. }
    destruct K as (K&HK).
    destruct (call_served _ _ _ _ _ _ _ WgProofs.wop_refl WgProofs.wres_refl _ _ _ st lb EX WFR (fun _ => 0%nat) n t o K C) as (m&r&L&H); [|exists m, r; auto].
    intros k Lk _ _ Hin. specialize (HK k Lk). pose proof (WgProofs.i_thr _ _ (I k) t) as T. split.
    - intros c p l E. rewrite E in *. simpl in Hin, T. subst p. destruct T as (T1&T2&T3). subst c.
      destruct HK as [-> |HK]; [subst l; discriminate|].
      assert (J : In t (qs (st k) COND)) by (apply (w_q (WgProofs.i_wf _ _ (I k))); eauto).
      pose proof (WgProofs.i_q _ _ (I k)) as Q. destruct (qs (st k) COND); [destruct J|]. specialize (Q ltac:(discriminate)). lia.
    - intros l b A. assert (El : l = wg_entry o).
      { destruct (ths (st k) t) as [|p l'|c p l'|c p l'|p r]; simpl in A, Hin, T; try contradiction; [subst p; congruence|subst p; destruct T; congruence]. }
      subst l. destruct o; simpl; auto; (destruct HK as [HK|HK]; [discriminate|]; destruct (Z.ltb_spec (dat (st k)) count); [lia|exact Logic.I]).
  Qed.
End Wg.
Print Assumptions wg_no_starvation.

Section wg_ex.
  Import WgSpec WgModel.
  Local Open Scope Z_scope.
  Definition wg_ls := [MCall 0%nat OWaitG; MRun 0%nat false; MCall 1%nat ODone; MRun 1%nat false; MRun 0%nat false; MLeave 0%nat; MLeave 1%nat].
  Example wg_fair_case : exists st lb, execution _ _ (wg_step 1) wg_init st lb /\ weakly_fair _ _ (wg_step 1) mwho st lb /\
    lb 0%nat = Some (MCall 0%nat OWaitG) /\ ths (st 2%nat) 0%nat = TWait 0 OWaitG LWait /\ 1 <= dones (mhist (st 4%nat)).
  Proof.
    assert (R : exists s, run (wg_step 1) wg_init wg_ls = Some s /\ forall t, ths s t = TOut) by (eexists; split; [vm_compute; reflexivity|intros t; do 2 (destruct t as [|t]; [reflexivity|]); reflexivity]).
    destruct R as (s&R&O). exists (fst_ _ _ (wg_step 1) wg_init wg_ls), (flb _ wg_ls). split; [exact (fin_exec _ _ _ _ _ _ R)|].
    split; [apply strong_weak; apply (fin_fair _ _ _ _ _ _ R); intros t; apply out_unable; auto|].
    split; [reflexivity|]. split; [vm_compute; reflexivity|]. vm_compute; discriminate.
  Qed.
End wg_ex.

(** ** co_latch *)
Section Latch.
  Import LatchSpec LatchModel.
  Local Open Scope Z_scope.
  Variable init : Z.

  (** co_latch: count_down() and try_wait() always return; wait() and arrive_and_wait() return if the amounts counted down add up to the initial count. *)
  Theorem latch_no_starvation : 0 <= init -> forall st lb, execution _ _ latch_step (latch_init init) st lb -> weakly_fair _ _ latch_step mwho st lb ->
    (forall n, amounts_ok (mhist (st n))) ->
    forall n t o, lb n = Some (MCall t o) -> ((exists a, o = OCount a) \/ o = OTryWait \/ exists m, downs (mhist (st m)) = init) ->
    call_returns (fun n => mhist (st n)) t o n.
  Proof.
    intros Hi st lb EX WFR AM n t o C G.
    assert (I : forall k, LatchProofs.LInv init (st k)) by (intros k; destruct (exec_run _ _ _ _ _ _ _ _ st lb EX k) as (ls&R); exact (LatchProofs.linv_run init Hi ls _ R (AM k))).
    assert (K : exists K, forall k, (K <= k)%nat -> (exists a, o = OCount a) \/ o = OTryWait \/ dat (st k) = 0).
    { destruct G as [G|[G|(m&G)]]; [exists 0%nat; auto|exists 0%nat; auto|]. exists m. intros k L. right. right. rewrite (LatchProofs.l_dat _ _ (I k)).
      destruct (hist_grows _ _ _ _ _ _ _ LatchProofs.lop_refl LatchProofs.lres_refl _ _ _ st lb EX m k L) as (nw&E).
      rewrite (LatchProofs.latch_open_for_ever init _ nw _ (I k) E G). lia. }
    destruct K as (K&HK).
    destruct (call_served _ _ _ _ _ _ _ LatchProofs.lop_refl LatchProofs.lres_refl _ _ _ st lb EX WFR (fun l => match l with LArrive _ => 1%nat | _ => 0%nat end) n t o K C) as (m&r&L&H); [|exists m, r; auto].
    intros k Lk _ _ Hin. specialize (HK k Lk). pose proof (LatchProofs.l_thr _ _ (I k) t) as T. split.
    - intros c p l E. rewrite E in *. simpl in Hin, T. subst p. destruct T as (T1&T2&T3). subst c l.
      destruct HK as [(a& ->)|[-> |HK]]; [destruct T1|destruct T1|].
      assert (J : In t (qs (st k) COND)) by (apply (w_q (LatchProofs.l_wf _ _ (I k))); eauto).
      pose proof (LatchProofs.l_q _ _ (I k)) as Q. destruct (qs (st k) COND); [destruct J|]. specialize (Q ltac:(discriminate)). lia.
    - intros l b A. assert (T' : LatchProofs.opl (mhist (st k)) t o l).
      { destruct (ths (st k) t) as [|p l'|c p l'|c p l'|p r]; simpl in A, Hin, T; try contradiction; subst p l'; tauto. }
      destruct o as [a| | |a], l as [a'| | |a']; simpl in T'; try contradiction; cbn [latch_body].
      + destruct (dat (st k) <? a'); exact Logic.I.
      + exact Logic.I.
      + destruct HK as [(a&HK)|[HK|HK]]; try discriminate. rewrite HK. exact Logic.I.
      + destruct HK as [(a0&HK)|[HK|HK]]; try discriminate. rewrite HK. exact Logic.I.
      + destruct (dat (st k) <? a'); [exact Logic.I|auto].
  Qed.
End Latch.
Print Assumptions latch_no_starvation.

Section latch_ex.
  Import LatchSpec LatchModel.
  Local Open Scope Z_scope.
  Definition latch_ls := [MCall 0%nat OWaitL; MRun 0%nat false; MCall 1%nat (OArrive 1); MRun 1%nat false; MRun 1%nat false; MCall 2%nat (OCount 2); MRun 2%nat false; MRun 0%nat false; MRun 1%nat false; MLeave 0%nat; MLeave 1%nat; MLeave 2%nat].
  Example latch_fair_case : exists st lb, execution _ _ latch_step (latch_init 3) st lb /\ weakly_fair _ _ latch_step mwho st lb /\
    (forall n, amounts_ok (mhist (st n))) /\
    lb 0%nat = Some (MCall 0%nat OWaitL) /\ lb 2%nat = Some (MCall 1%nat (OArrive 1)) /\ ths (st 5%nat) 1%nat = TWait 0 (OArrive 1) LWait /\ downs (mhist (st 7%nat)) = 3.
  Proof.
    assert (R : exists s, run latch_step (latch_init 3) latch_ls = Some s /\ forall t, ths s t = TOut) by (eexists; split; [vm_compute; reflexivity|intros t; do 3 (destruct t as [|t]; [reflexivity|]); reflexivity]).
    destruct R as (s&R&O). exists (fst_ _ _ latch_step (latch_init 3) latch_ls), (flb _ latch_ls). split; [exact (fin_exec _ _ _ _ _ _ R)|].
    split; [apply strong_weak; apply (fin_fair _ _ _ _ _ _ R); intros t; apply out_unable; auto|].
    split.
    { intros n. do 12 (destruct n as [|n]; [vm_compute; intros t o J; repeat (destruct J as [J|J]; [try discriminate; injection J as <- <-; try exact Logic.I; discriminate|]); destruct J|]).
      rewrite (fin_last _ _ _ _ _ _ R) by (simpl; lia). revert R. vm_compute. intros R t o J. injection R as <-.
      simpl in J. repeat (destruct J as [J|J]; [try discriminate; injection J as <- <-; try exact Logic.I; discriminate|]). destruct J. }
    split; [reflexivity|]. split; [reflexivity|]. split; [vm_compute; reflexivity|vm_compute; reflexivity].
  Qed.
End latch_ex.

(** ** co_barrier *)
Section Barrier.
  Import BarrierSpec BarrierModel.
  Local Open Scope Z_scope.
  Variables (me : nat) (max : Z).

  Lemma gen_step : forall s l s', WF bop_eqb bres_eqb s -> barrier_step me max s l = Some s' -> bgen (dat s) <= bgen (dat s').
  Proof.
    intros s [u p|u b|u] s' W H; unfold barrier_step in H.
    - apply call_post in H. destruct H as (_&E&_). rewrite E. lia.
    - apply run_post with (1 := W) in H. destruct H as (p&l&_&H).
      destruct l as [x|k|k| |]; cbn [barrier_body] in H;
        repeat (match type of H with context [if ?c then _ else _] => destruct c end); destruct H as (E&_); rewrite E; simpl; lia.
    - apply leave_post in H. destruct H as (_&_&_&E&_). rewrite E. lia.
  Qed.
  Lemma own_other : forall (e : bev) h t, ev_tid e <> t -> own_tok (e :: h) t = own_tok h t.
  Proof. intros e h t N. apply Nat.eqb_neq in N. destruct e as [u o|u o r|u o r|u []]; simpl in *; rewrite ?N; reflexivity. Qed.
  Lemma own_step : forall s l s' t k, BarrierProofs.BInv me max s -> barrier_step me max s l = Some s' -> inside _ _ _ (ths s t) OArriveWait ->
    own_tok (mhist s) t = Some k -> own_tok (mhist s') t = Some k.
  Proof.
    intros s l s' t k I H Hin E. pose proof (BarrierProofs.b_thr _ _ _ I) as T. unfold barrier_step in H. destruct l as [u p|u b|u].
    - destruct (Nat.eq_dec u t) as [->|N]; [simpl in H; destruct (ths s t); discriminate || destruct Hin|].
      apply call_post in H. destruct H as (_&_&_&_&H&_). rewrite H. now rewrite own_other.
    - apply run_post with (1 := BarrierProofs.b_wf _ _ _ I) in H. destruct H as (p&l&Eu&H). destruct (Nat.eq_dec u t) as [->|N].
      + assert (Hp : BarrierProofs.opl (mhist s) t OArriveWait l).
        { specialize (T t). destruct T as (_&T). destruct Eu as [Eu|(c&Eu)]; rewrite Eu in *; simpl in Hin; subst p; tauto. }
        destruct l as [x|k'|k'| |]; simpl in Hp; try contradiction; try congruence; cbn [barrier_body] in H;
          repeat (match type of H with context [if ?c then _ else _] => destruct c end); destruct H as (_&H&_); rewrite H; exact E.
      + destruct l as [x|k'|k'| |]; cbn [barrier_body] in H; repeat (match type of H with context [if ?c then _ else _] => destruct c end);
          destruct H as (_&H&_); rewrite H; unfold log_aux; cbn [fold_left]; rewrite ?own_other by assumption; exact E.
    - apply leave_post in H. destruct H as (p&r&Eu&_&_&_&H&_). rewrite H. exact E.
  Qed.

  (** co_barrier: arrive() and arrive_and_drop() always return; wait(token) returns if the token's phase is completed at some moment;
      arrive_and_wait() returns if the phase it arrived in is completed at some moment. *)
  Theorem barrier_no_starvation : 0 < max -> forall st lb, execution _ _ (barrier_step me max) (barrier_init max) st lb -> weakly_fair _ _ (barrier_step me max) mwho st lb ->
    (forall n, usage_ok (mhist (st n))) ->
    forall n t o, lb n = Some (MCall t o) ->
    match o with
    | OArrive _ | ODrop => True
    | OWaitT k => exists m, tgen k < completed max (mhist (st m))
    | OArriveWait => exists a m k, (n < a)%nat /\ own_tok (mhist (st a)) t = Some k /\ tgen k < completed max (mhist (st m))
    end -> call_returns (fun n => mhist (st n)) t o n.
  Proof.
    intros Hm st lb EX WFR US n t o C G.
    assert (I : forall k, BarrierProofs.BInv me max (st k)) by (intros k; destruct (exec_run _ _ _ _ _ _ _ _ st lb EX k) as (ls&R); exact (BarrierProofs.binv_run me max Hm ls _ R (US k))).
    assert (GM : forall j k, (j <= k)%nat -> completed max (mhist (st j)) <= bgen (dat (st k))).
    { intros j k L. rewrite (BarrierProofs.bcompleted me max Hm _ (I j)). induction L as [|k L IH]; [lia|]. pose proof (proj2 EX k) as H.
      destruct (lb k) as [l|]; [|now rewrite H]. pose proof (gen_step _ _ _ (BarrierProofs.b_wf _ _ _ (I k)) H). lia. }
    (* in which phases the call can be, from some moment on *)
    assert (K : call_returns (fun n => mhist (st n)) t o n \/ exists K, forall k, (K <= k)%nat -> not_left _ lb t (S n) k -> inside _ _ _ (ths (st k) t) o ->
      match o with OArrive _ | ODrop => True | OWaitT j => tgen j < bgen (dat (st k))
              | OArriveWait => exists j, own_tok (mhist (st k)) t = Some j /\ tgen j < bgen (dat (st k)) end).
    { destruct o as [x|j| |].
      - right. exists 0%nat. auto.
      - right. destruct G as (m&G). exists m. intros k L _ _. specialize (GM m k L). lia.
      - destruct G as (a&m&j&La&E&G).
        pose proof (called _ _ _ _ _ _ _ _ st lb EX n t _ C) as C'.
        destruct (stays_inside _ _ _ _ _ _ _ BarrierProofs.bop_refl BarrierProofs.bres_refl _ _ _ st lb EX _ _ _ C' a La) as [(X&_)|(k&r&A&B)]; [|left; exists k, r; split; [lia|auto]].
        right. exists (Nat.max a m). intros k L NL Hin. exists j. split; [|specialize (GM m k); lia].
        assert (P : forall i, (a <= i <= k)%nat -> own_tok (mhist (st i)) t = Some j).
        { induction i as [|i IH]; intros Hi; [lia|]. destruct (Nat.eq_dec (S i) a) as [->|Ne]; auto. specialize (IH ltac:(lia)).
          destruct (stays_inside _ _ _ _ _ _ _ BarrierProofs.bop_refl BarrierProofs.bres_refl _ _ _ st lb EX _ _ _ C' i) as [(Y&_)|(k'&r&A&B)]; [lia| |].
          - pose proof (proj2 EX i) as H. destruct (lb i) as [l|]; [|now rewrite H]. exact (own_step _ _ _ _ _ (I i) H Y IH).
          - exfalso. apply (NL k' ltac:(lia)). exact (proj2 A). }
        apply P. lia.
      - right. exists 0%nat. auto. }
    destruct K as [K|(K&HK)]; [exact K|].
    destruct (call_served _ _ _ _ _ _ _ BarrierProofs.bop_refl BarrierProofs.bres_refl _ _ _ st lb EX WFR (fun l => match l with LArrW => 1%nat | _ => 0%nat end) n t o K C) as (m&r&L&H); [|exists m, r; auto].
    intros k Lk _ NL Hin. specialize (HK k Lk NL Hin). pose proof (BarrierProofs.b_thr _ _ _ (I k) t) as (_&T). pose proof (BarrierProofs.b_gen _ _ _ (I k) t) as Gn. split.
    - intros c p l E. rewrite E in *. simpl in Hin, T. subst p. destruct T as (T1&(j&->)&T3). simpl in Gn.
      destruct o as [x|j'| |]; simpl in T1; try contradiction; [subst j'; lia|]. destruct HK as (j'&E'&HK). rewrite E' in T1. injection T1 as ->. lia.
    - intros l b A. assert (T' : BarrierProofs.opl (mhist (st k)) t o l).
      { destruct (ths (st k) t) as [|p l'|c p l'|c p l'|p r]; simpl in A, Hin, T; try contradiction; subst p l'; tauto. }
      destruct o as [x|j| |], l as [x'|j'|j'| |]; simpl in T'; try contradiction; cbn [barrier_body]; try exact Logic.I.
      + destruct (bexp (dat (st k)) - x' <? 0); exact Logic.I.
      + subst j'. destruct (Z.eqb_spec (tgen j) (bgen (dat (st k)))); [lia|exact Logic.I].
      + destruct HK as (j&E'&HK). rewrite E' in T'. injection T' as ->. destruct (Z.eqb_spec (tgen j') (bgen (dat (st k)))); [lia|exact Logic.I].
      + destruct HK as (j&E'&HK). congruence.
      + destruct (bexp (dat (st k)) - 1 <? 0); exact Logic.I.
  Qed.
End Barrier.
Print Assumptions barrier_no_starvation.

Section barrier_ex.
  Import BarrierSpec BarrierModel.
  Local Open Scope Z_scope.
  Definition barrier_ls := [MCall 0%nat OArriveWait; MRun 0%nat false; MRun 0%nat false; MCall 1%nat (OArrive 1); MRun 1%nat false; MLeave 1%nat;
    MCall 1%nat (OWaitT (mkTok 0 7 1)); MRun 1%nat false; MRun 0%nat false; MLeave 0%nat; MLeave 1%nat].
  Example barrier_fair_case : exists st lb, execution _ _ (barrier_step 7 2) (barrier_init 2) st lb /\ weakly_fair _ _ (barrier_step 7 2) mwho st lb /\
    (forall n, usage_ok (mhist (st n))) /\
    lb 0%nat = Some (MCall 0%nat OArriveWait) /\ ths (st 3%nat) 0%nat = TWait 0 OArriveWait (LBack (mkTok 0 7 1)) /\
    own_tok (mhist (st 3%nat)) 0%nat = Some (mkTok 0 7 1) /\ lb 6%nat = Some (MCall 1%nat (OWaitT (mkTok 0 7 1))) /\ completed 2 (mhist (st 8%nat)) = 1.
  Proof.
    assert (R : exists s, run (barrier_step 7 2) (barrier_init 2) barrier_ls = Some s /\ (forall t, ths s t = TOut) /\ usage_ok (mhist s)).
    { eexists. split; [vm_compute; reflexivity|]. split; [intros t; do 2 (destruct t as [|t]; [reflexivity|]); reflexivity|].
      unfold usage_ok. cbn [mhist]. repeat (apply always_at_cons; split; [try exact Logic.I; vm_compute; try reflexivity; discriminate|]). apply always_at_nil. }
    destruct R as (s&R&O&U). exists (fst_ _ _ (barrier_step 7 2) (barrier_init 2) barrier_ls), (flb _ barrier_ls). pose proof (fin_exec _ _ _ _ _ _ R) as EX. split; [exact EX|].
    split; [apply strong_weak; apply (fin_fair _ _ _ _ _ _ R); intros t; apply out_unable; auto|].
    split.
    { intros n. destruct (hist_grows _ _ _ _ _ _ _ BarrierProofs.bop_refl BarrierProofs.bres_refl _ _ _ _ _ EX n (Nat.max n 11)) as (nw&E); [lia|].
      rewrite (fin_last _ _ _ _ _ _ R) in E by (simpl; lia). rewrite E in U. intros a e b Q. apply (U (nw ++ a) e b). now rewrite Q, app_assoc. }
    split; [reflexivity|]. split; [vm_compute; reflexivity|]. split; [vm_compute; reflexivity|]. split; [reflexivity|]. vm_compute; reflexivity.
  Qed.
End barrier_ex.
