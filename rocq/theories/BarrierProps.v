(** Properties C16-C18 of co_barrier. *)
From Coq Require Import List ZArith Bool Lia.
From Verif Require Import Base LinSpec HistSpec Monitor MonitorProofs BarrierSpec BarrierModel BarrierProofs.
Import ListNotations.
Open Scope Z_scope.

(** Witness: barrier of 3.  Phase 0: 1 arrives with weight 2 (token), 2 arrives and waits, 3's arrival
    is rejected, 1 waits: the phase completes, 2 returns.  Phase 1: 2 arrives. *)
Definition barrier_demo : list (mlbl bop) :=
  [MCall 1%nat (OArrive 2); MRun 1%nat false; MLeave 1%nat;
   MCall 2%nat OArriveWait; MRun 2%nat false; MRun 2%nat false;
   MCall 3%nat (OArrive 1); MRun 3%nat false; MLeave 3%nat;
   MCall 1%nat (OWaitT (mkTok 0 7 2)); MRun 1%nat false; MLeave 1%nat;
   MRun 2%nat false; MLeave 2%nat;
   MCall 2%nat (OArrive 1); MRun 2%nat false; MLeave 2%nat].
Ltac usage :=
  repeat (apply always_at_cons; split; [try exact I; vm_compute; first [reflexivity|discriminate]|]); apply always_at_nil.
Example barrier_demo_ok : exists s,
  run (barrier_step 7 3) (barrier_init 3) barrier_demo = Some s /\ usage_ok (mhist s) /\
  In (ERet 3%nat (OArrive 1) RThrow) (mhist s) /\ In (ERet 2%nat OArriveWait ROk) (mhist s) /\
  hd_error (mhist s) = Some (ERet 2%nat (OArrive 1) (RTok (mkTok 1 7 1))).
Proof.
  eexists. split; [vm_compute; reflexivity|]. split; [usage|]. simpl. tauto.
Qed.

(** C16, C17: arrivals are accepted exactly up to the expected weight of the current phase; a wait
    returns only when its phase has been completed by arrivals of the full weight; a token obtained
    from arrive() and used once is never rejected. *)
Theorem barrier_events : forall me max ls s, 0 < max ->
  run (barrier_step me max) (barrier_init max) ls = Some s -> usage_ok (mhist s) ->
  always_at (barrier_event_ok me max) (mhist s).
Proof. exact (fun me max ls s Hm Hr Hu => b_ok _ _ _ (binv_run me max Hm ls s Hr Hu)). Qed.
Print Assumptions barrier_events.

(** C16: the waits never get ahead of the arrivals, the arrivals never ahead of the current phase. *)
Theorem barrier_phase_bounds : forall me max ls s, 0 < max ->
  run (barrier_step me max) (barrier_init max) ls = Some s -> usage_ok (mhist s) ->
  waited (mhist s) <= arrived (mhist s) <= (completed max (mhist s) + 1) * max.
Proof. exact (fun me max ls s Hm Hr Hu => barrier_waited_arrived me max Hm s (binv_run me max Hm ls s Hr Hu)). Qed.
Print Assumptions barrier_phase_bounds.

Theorem barrier_calls_well_formed : forall me max ls s t, 0 < max ->
  run (barrier_step me max) (barrier_init max) ls = Some s -> usage_ok (mhist s) ->
  phase_of bop_eqb bres_eqb (mhist s) t <> None.
Proof.
  intros me max ls s t Hm Hr Hu. rewrite (w_ph (b_wf _ _ _ (binv_run me max Hm ls s Hr Hu)) t). discriminate.
Qed.
Print Assumptions barrier_calls_well_formed.

(** C17: when nobody can run, whoever is still blocked waits for a phase whose tokens have not all
    been passed to wait() (every phase up to it takes weight max).  arrive() and arrive_and_drop()
    never block. *)
Theorem barrier_releases_phase : forall me max ls s t o, 0 < max ->
  run (barrier_step me max) (barrier_init max) ls = Some s -> usage_ok (mhist s) ->
  quiescent barrier_entry (barrier_body me max) s ->
  phase_of bop_eqb bres_eqb (mhist s) t = Some (PPending o) ->
  match o with
  | OWaitT k => passed (mhist s) < (tgen k + 1) * max
  | OArriveWait => exists k, own_tok (mhist s) t = Some k /\ passed (mhist s) < (tgen k + 1) * max
  | _ => False
  end.
Proof.
  exact (fun me max ls s t o Hm Hr Hu => barrier_quiescent me max s t o (binv_run me max Hm ls s Hr Hu)).
Qed.
Print Assumptions barrier_releases_phase.

Example barrier_quiescent_case : exists s,
  run (barrier_step 7 2) (barrier_init 2) [MCall 1%nat OArriveWait; MRun 1%nat false; MRun 1%nat false] = Some s /\
  usage_ok (mhist s) /\ quiescent barrier_entry (barrier_body 7 2) s /\
  phase_of bop_eqb bres_eqb (mhist s) 1%nat = Some (PPending OArriveWait).
Proof.
  eexists. split; [vm_compute; reflexivity|]. split; [usage|]. split; [|vm_compute; reflexivity].
  intros [|[|t]]; split; intros; reflexivity.
Qed.

(** C18 is false: with expected = 2, one arrive_and_wait() and one arrive_and_drop() add up to the
    expected weight, and the waiter stays blocked. *)
Definition drop_run : list (mlbl bop) :=
  [MCall 1%nat OArriveWait; MRun 1%nat false; MRun 1%nat false;
   MCall 2%nat ODrop; MRun 2%nat false; MLeave 2%nat].
Theorem barrier_drop_refuted : exists s k,
  run (barrier_step 7 2) (barrier_init 2) drop_run = Some s /\ usage_ok (mhist s) /\
  quiescent barrier_entry (barrier_body 7 2) s /\
  phase_of bop_eqb bres_eqb (mhist s) 1%nat = Some (PPending OArriveWait) /\
  own_tok (mhist s) 1%nat = Some k /\ arrived (mhist s) = (tgen k + 1) * 2.
Proof.
  eexists. exists (mkTok 0 7 1). split; [vm_compute; reflexivity|]. split; [usage|].
  split; [|repeat split; vm_compute; reflexivity].
  intros [|[|[|t]]]; split; intros; reflexivity.
Qed.
Print Assumptions barrier_drop_refuted.

(** In every execution: after an arrive_and_drop() in some phase, this phase never completes. *)
Theorem barrier_drop_stops_for_ever : forall me max ls s t k, 0 < max ->
  run (barrier_step me max) (barrier_init max) ls = Some s -> usage_ok (mhist s) ->
  In (EAux t (ADrop k)) (mhist s) -> completed max (mhist s) = tgen k.
Proof.
  exact (fun me max ls s t k Hm Hr Hu => drop_blocks me max Hm s t k (binv_run me max Hm ls s Hr Hu)).
Qed.
Print Assumptions barrier_drop_stops_for_ever.

(** What remains of C18: without drops (C17), i.e. if all tokens are passed to wait(), the phase
    completes.  Missing: counting a dropped arrival as a wait. *)
Theorem barrier_drop_partial : forall me max ls s t k, 0 < max ->
  run (barrier_step me max) (barrier_init max) ls = Some s -> usage_ok (mhist s) ->
  quiescent barrier_entry (barrier_body me max) s ->
  passed (mhist s) = arrived (mhist s) ->
  phase_of bop_eqb bres_eqb (mhist s) t = Some (PPending (OWaitT k)) ->
  arrived (mhist s) < (tgen k + 1) * max.
Proof.
  intros me max ls s t k Hm Hr Hu HQ Hpa Hp. rewrite <- Hpa.
  exact (barrier_releases_phase me max ls s t (OWaitT k) Hm Hr Hu HQ Hp).
Qed.
Print Assumptions barrier_drop_partial.

Example barrier_partial_case : exists s,
  run (barrier_step 7 2) (barrier_init 2)
    [MCall 1%nat (OArrive 1); MRun 1%nat false; MLeave 1%nat; MCall 1%nat (OWaitT (mkTok 0 7 1)); MRun 1%nat false] = Some s /\
  usage_ok (mhist s) /\ quiescent barrier_entry (barrier_body 7 2) s /\ passed (mhist s) = arrived (mhist s) /\
  phase_of bop_eqb bres_eqb (mhist s) 1%nat = Some (PPending (OWaitT (mkTok 0 7 1))).
Proof.
  eexists. split; [vm_compute; reflexivity|]. split; [usage|]. split; [|split; vm_compute; reflexivity].
  intros [|[|t]]; split; intros; reflexivity.
Qed.

(** The rule "a token is used once" is needed: two waits with copies of one token complete a phase of
    weight 2 in which only weight 1 arrived. *)
Theorem barrier_token_reuse_unsafe : exists s,
  run (barrier_step 7 2) (barrier_init 2)
    [MCall 1%nat (OArrive 1); MRun 1%nat false; MLeave 1%nat;
     MCall 1%nat (OWaitT (mkTok 0 7 1)); MRun 1%nat false;
     MCall 2%nat (OWaitT (mkTok 0 7 1)); MRun 2%nat false; MLeave 2%nat] = Some s /\
  hd_error (mhist s) = Some (ERet 2%nat (OWaitT (mkTok 0 7 1)) ROk) /\ arrived (mhist s) = 1.
Proof. eexists. split; [vm_compute; reflexivity|]. split; vm_compute; reflexivity. Qed.
Print Assumptions barrier_token_reuse_unsafe.

(** Whatever is done with the tokens, copies and tokens of other barriers and phases included: a wait is accepted exactly when its
    token is of this barrier and the current phase and the phase has weight left; no phase gets more than its weight. *)
Theorem barrier_waits_decided : forall me max ls s, 0 < max ->
  run (barrier_step me max) (barrier_init max) ls = Some s -> weights_ok (mhist s) ->
  always_at (waits_decided me max) (mhist s).
Proof. exact (fun me max ls s Hm Hr Hw => a_ok _ _ _ (ainv_run me max Hm ls s Hr Hw)). Qed.
Print Assumptions barrier_waits_decided.
(** A token of weight 2 used twice in a phase of weight 3: the second wait is rejected. *)
Example barrier_waits_decided_ex : exists s,
  run (barrier_step 7 3) (barrier_init 3)
    [MCall 1%nat (OArrive 2); MRun 1%nat false; MLeave 1%nat;
     MCall 1%nat (OWaitT (mkTok 0 7 2)); MRun 1%nat false;
     MCall 2%nat (OWaitT (mkTok 0 7 2)); MRun 2%nat false; MLeave 2%nat] = Some s /\ weights_ok (mhist s) /\
  hd_error (mhist s) = Some (ERet 2%nat (OWaitT (mkTok 0 7 2)) RThrow).
Proof. eexists. split; [vm_compute; reflexivity|]. split; [usage|reflexivity]. Qed.
