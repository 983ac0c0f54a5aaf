(** Proofs about the wait group model. *)
From Coq Require Import List ZArith Bool Lia.
From Verif Require Import Base LinSpec LinLemmas HistSpec Monitor MonitorProofs WgSpec WgModel.
Import ListNotations.
Open Scope Z_scope.

Lemma wop_refl : forall o, wop_eqb o o = true.
Proof. now destruct o. Qed.
Lemma wres_refl : forall r, wres_eqb r r = true.
Proof. now destruct r. Qed.

Section P.
  Variable count : Z.
  Notation st := (mst Z wop wres waux wloc).

  Definition thr (t : tid) (x : tst wop wres wloc) : Prop :=
    match x with
    | TReady o l => l = wg_entry o
    | TWait c o l | TWoken c o l => l = wg_entry o /\ l = LWait /\ c = COND
    | _ => True
    end.
  Lemma thr_woken : forall t x, thr t x -> thr t (woken x).
  Proof. intros t [| | | |]; simpl; auto. Qed.

  Record WInv (s : st) : Prop := mkWInv {
    i_wf : WF wop_eqb wres_eqb s;
    i_dat : dat s = dones (mhist s);
    i_ok : always_at (wg_event_ok count) (mhist s);
    i_thr : forall t, thr t (ths s t);
    i_q : qs s COND <> [] -> dat s < count
  }.

  Lemma winv_init : WInv wg_init.
  Proof.
    constructor; simpl; auto; try congruence; try apply always_at_nil. apply wf_init.
  Qed.

  Lemma dones_lin : forall t o r h, dones (ELin t o r :: h) = (match o with ODone => 1 | _ => 0 end) + dones h.
  Proof. reflexivity. Qed.

  Lemma winv_step : forall s l s', WInv s -> wg_step count s l = Some s' -> WInv s'.
  Proof.
    intros s lb s' HI H. unfold wg_step in H.
    assert (HW' : WF wop_eqb wres_eqb s')
      by (eapply wf_step; eauto using wop_refl, wres_refl, i_wf).
    destruct HI as [HW Hd Hok Hth Hq].
    destruct lb as [t o|t b|t].
    - apply call_post in H. destruct H as (Ht&Hd'&Hq'&Hw'&Hh'&Hp).
      constructor; rewrite ?Hd', ?Hh', ?Hq', ?Hw'; auto.
      + apply always_at_cons; split; [exact I|assumption].
      + apply Hp; [apply thr_woken|auto|]. reflexivity.
    - apply run_post with (1 := HW) in H. destruct H as (o&l&Ht&H).
      assert (Hl : l = wg_entry o).
      { specialize (Hth t). destruct Ht as [Ht|(c&Ht)]; rewrite Ht in Hth; simpl in Hth; tauto. }
      clear Ht. subst l. destruct o; cbn [wg_entry wg_body] in H.
      + destruct H as (Hd'&Hh'&Hp&Hqw). specialize (Hqw COND). cbn in Hh'. constructor; rewrite ?Hd', ?Hh'; auto.
        * rewrite dones_lin. lia.
        * apply always_at_cons; split; [|assumption]. simpl.
          destruct (Z.leb_spec (dat s + 1) count), (Z.ltb_spec (dones (mhist s)) count); auto; lia.
        * apply Hp; [apply thr_woken|auto|exact I].
        * destruct (Z.eqb_spec (dat s + 1) count); cbn in Hqw; injection Hqw as -> _; [congruence|].
          intros Hx. specialize (Hq Hx). lia.
      + destruct (Z.ltb_spec (dat s) count); destruct H as (Hd'&Hh'&Hp&Hqw); specialize (Hqw COND); cbn in Hh', Hqw;
          constructor; rewrite ?Hd', ?Hh'; auto.
        * apply Hp; [apply thr_woken|auto|]. simpl; auto.
        * apply always_at_cons; split; [|assumption]. simpl. split; [reflexivity|lia].
        * apply Hp; [apply thr_woken|auto|exact I].
        * injection Hqw as -> _. auto.
      + destruct (Z.ltb_spec (dat s) count); destruct H as (Hd'&Hh'&Hp&Hqw); specialize (Hqw COND); cbn in Hh', Hqw;
          constructor; rewrite ?Hd', ?Hh'; auto.
        * apply Hp; [apply thr_woken|auto|]. simpl; auto.
        * apply always_at_cons; split; [|assumption]. simpl. split; [reflexivity|lia].
        * apply Hp; [apply thr_woken|auto|exact I].
        * injection Hqw as -> _. auto.
    - apply leave_post in H. destruct H as (o&r&Ht&Hd'&Hq'&Hw'&Hh'&Hp).
      constructor; rewrite ?Hd', ?Hh', ?Hq', ?Hw'; auto.
      + apply always_at_cons; split; [exact I|assumption].
      + apply Hp; [apply thr_woken|auto|exact I].
  Qed.

  Theorem winv_run : forall ls s, run (wg_step count) wg_init ls = Some s -> WInv s.
  Proof. intros ls s. apply run_inv; [apply winv_init|apply winv_step]. Qed.

  Lemma wg_quiescent : forall s t o, WInv s -> quiescent wg_entry (wg_body count) s ->
    phase_of wop_eqb wres_eqb (mhist s) t = Some (PPending o) ->
    o <> ODone /\ dones (mhist s) < count.
  Proof.
    intros s t o [HW Hd Hok Hth Hq] HQ Hp.
    rewrite (w_ph HW t) in Hp. specialize (Hth t).
    destruct (quiescent_ths t HQ) as [E|(c&o'&l&E)]; rewrite E in *; simpl in Hp; [discriminate|].
    injection Hp as ->. simpl in Hth. destruct Hth as (El&->&->).
    assert (Hin : In t (qs s COND)) by (apply (w_q HW); eauto).
    split; [intros ->; discriminate|].
    destruct (qs s COND); [contradiction|]. specialize (Hq ltac:(discriminate)). lia.
  Qed.
End P.
