(** C119, continued: one period of the monitor on all threads. *)
From Coq Require Import List Arith Bool Lia.
From Verif Require Import Base MgrSpec MgrModel MgrProps TickModel.
Import ListNotations.

(** The signal is sent to exactly the threads that have at least two coroutines, are not idle and have not decided since the last period. *)
Theorem tick_signals : forall lk oth base max nid dbl l sg l' d i, tick lk oth base max nid dbl l = (sg, l', d) ->
  In i sg <-> exists t, In t l /\ tid t = i /\ hung t /\ 2 <= load t.
Proof.
  intros lk oth base max nid dbl l sg l' d i E. unfold tick, tick_own, force in E. injection E as <- _ _. rewrite in_map_iff. split.
  - intros (t&<-&H). apply filter_In in H. destruct H as [H B]. exists t. apply andb_true_iff in B. destruct B as [B L]. apply Nat.ltb_lt in L.
    split; auto. split; auto. split; [|exact L]. unfold is_blocked in B. unfold hung. destruct (tst t); try discriminate B; split; auto; now destruct (tswd t).
  - intros (t&H&<-&[S0 W]&L). exists t. split; auto. apply filter_In. split; auto. apply andb_true_iff. split; [|apply Nat.ltb_lt; exact L].
    unfold is_blocked. destruct S0 as [-> | ->]; now rewrite W.
Qed.
Print Assumptions tick_signals.
(** Nothing else is done to a thread than to reset its mark and, every second time, to tell surplus idle threads to end: no coroutine is moved. *)
Definition same_but_mark (t t' : thr) : Prop :=
  tid t' = tid t /\ tctx t' = tctx t /\ texcl t' = texcl t /\ tself t' = tself t /\ tconv t' = tconv t /\ tkeep t' = tkeep t /\ tswd t' = false.
Theorem tick_keeps : forall lk oth base max nid dbl l sg l' d, NoDup (map tid l) -> tick lk oth base max nid dbl l = (sg, l', d) -> d = negb dbl /\
  Forall2 (fun t t' => same_but_mark t t' /\ (tst t' = tst t \/ dbl = true /\ reclaimable t /\ tst t' = MDestroying)) l l'.
Proof.
  intros lk oth base max nid dbl l sg l' d ND E. unfold tick, tick_own, force in E. injection E as _ E <-. split; auto.
  assert (B : Forall2 (fun t t' => same_but_mark t t' /\ tst t' = tst t) l (map reset_swd l)).
  { clear. induction l as [|t l IH]; simpl; constructor; auto. repeat split. }
  destruct dbl.
  - change (steal_own 1) with steal in E. change (redistribute_own 1) with redistribute in E. rewrite redistribute_never, steal_never in E. subst l'.
    set (m := map reset_swd l) in *. assert (NM : NoDup (map tid m)) by (unfold m; rewrite map_map; exact ND).
    assert (V : forall u, In u (victims m max) -> In u m /\ reclaimable u).
    { intros u H. unfold victims in H. assert (R : forall x n idle, (forall v, In v idle -> In v m /\ reclaimable v) -> incl x m -> forall v, In v (snd (redundant x n idle)) -> In v m /\ reclaimable v).
      { clear. induction x as [|t x IH]; intros n idle H I v Hv; simpl in Hv; auto. eapply IH; [| |exact Hv]; [|intros y Hy; apply I; now right].
        intros w Hw. destruct (is_idle t && can_auto t && match tctx t with [] => true | _ => false end) eqn:C; auto.
        apply in_app_or in Hw. destruct Hw as [Hw|[<-|[]]]; auto. split; [apply I; now left|].
        apply andb_true_iff in C. destruct C as [C C3]. apply andb_true_iff in C. destruct C as [C1 C2]. unfold is_idle in C1. unfold can_auto in C2. unfold reclaimable.
        destruct (tst t); try discriminate C1. destruct (tctx t); try discriminate C3. apply negb_true_iff in C2. apply orb_false_iff in C2. destruct C2 as [C2 ->].
        apply orb_false_iff in C2. destruct C2 as [-> ->]. auto. }
      specialize (R m 0 [] (fun v F => match F with end) (incl_refl m)). destruct (redundant m 0 []) as [n idle]. simpl in R. destruct (max <? n); [|destruct H].
      apply R. rewrite <- (firstn_skipn (n - max) idle). apply in_or_app. now left. }
    unfold stop_all. assert (G : forall v, (forall u, In u v -> In u m /\ reclaimable u) -> forall x y, Forall2 (fun t t' => same_but_mark t t' /\ tst t' = tst t) x y -> incl y m ->
      Forall2 (fun t t' => same_but_mark t t' /\ (tst t' = tst t \/ true = true /\ reclaimable t /\ tst t' = MDestroying)) x
        (map (fun t => if existsb (fun u => tid u =? tid t) v then set_st t MDestroying else t) y)).
    { intros v Hv x y F. induction F as [|t t' x y [S0 S1] F IH]; intros I; simpl; constructor; [|apply IH; intros z Hz; apply I; now right].
      destruct (existsb (fun u => tid u =? tid t') v) eqn:X; [|split; auto]. apply existsb_exists in X. destruct X as (u&Hu&Q). apply Nat.eqb_eq in Q.
      destruct (Hv u Hu) as [Um UR]. assert (u = t').
      { assert (T : In t' m) by (apply I; now left). clear -NM Um T Q. induction m as [|z m IH]; [destruct Um|]. simpl in NM. inversion NM as [|? ? N1 N2]; subst.
        destruct Um as [->|Um], T as [->|T]; auto; exfalso; apply N1; [rewrite Q|rewrite <- Q]; now apply in_map. }
      subst u. destruct UR as (R1&R2&R3&R4&R5). destruct S0 as (A1&A2&A3&A4&A5&A6&A7). unfold set_st. rewrite R1. split.
      - repeat split; simpl; auto.
      - right. split; auto. split; [|reflexivity]. unfold reclaimable. rewrite <- S1, <- A2, <- A4, <- A5, <- A6. auto. }
    apply G; auto. apply incl_refl.
  - subst l'. clear -B. induction B as [|t t' x y [A1 A2] F IH]; constructor; auto.
Qed.
Print Assumptions tick_keeps.
Example tick_keeps_example : let l := [mkT 0 MIdle false false false false true []; mkT 1 MBusy false false false false false [(5, false); (6, true)]; mkT 2 MBusy false false false false true [(7, false); (8, true)]] in
  NoDup (map tid l) /\ tick (fun _ => true) (fun _ => 0) 1 2 9 true l =
    ([1], [mkT 0 MDestroying false false false false false []; mkT 1 MBusy false false false false false [(5, false); (6, true)]; mkT 2 MBusy false false false false false [(7, false); (8, true)]], false).
Proof. split; [repeat constructor; simpl; intuition discriminate|vm_compute; reflexivity]. Qed.

(** If the routines did not count their own lock (the correction of C44), only threads that are stuck should lose coroutines.  But
    force_schedule__ has just reset the mark: every second period every thread that is not idle, stuck or not, would lose all the
    coroutines that can be moved, and be marked as blocked. *)
Theorem tick_corrected_refuted : exists l j c, In j l /\ tst j = MBusy /\ ~ hung j /\ In (c, true) (tctx j) /\
  forall sg l' d, tick_own 0 (fun _ => true) (fun _ => 0) 1 4 9 true l = (sg, l', d) -> exists j', In j' l' /\ tid j' = tid j /\ tst j' = MBlocked /\ ~ In (c, true) (tctx j').
Proof.
  exists [mkT 1 MBusy false false false false true [(5, false); (6, true)]; mkT 2 MBusy false false false false true [(7, false); (8, true)]].
  eexists. exists 6. split; [left; reflexivity|]. split; [reflexivity|]. split; [intros [_ X]; discriminate X|]. split; [simpl; auto|].
  intros sg l' d E. vm_compute in E. injection E as _ <- _. eexists. split; [left; reflexivity|]. split; [reflexivity|]. split; [reflexivity|]. simpl. intuition discriminate.
Qed.
Print Assumptions tick_corrected_refuted.
(** For all threads: a coroutine that can be moved is taken away from a thread that is not idle, whether it was stuck or not. *)
Theorem tick_corrected_all : forall lk oth l l' mv, redist_loop 0 lk oth (snd (force l)) = (l', mv) ->
  forall t c, In t l -> lk (tid t) = true -> oth (tid t) = 0 -> tst t = MBusy \/ tst t = MBlocked -> In (c, true) (tctx t) -> In c mv.
Proof.
  intros lk oth. unfold force. simpl. induction l as [|u l IH]; intros l' mv E t c H L O S0 C; [destruct H|]; destruct H as [<-|H]; simpl in E;
    destruct (redist_loop 0 lk oth (map reset_swd l)) as [r m] eqn:R.
  - rewrite L in E. unfold can_force in E. rewrite O in E. cbn in E. assert (B : is_blocked (reset_swd u) = true) by (unfold is_blocked; simpl; destruct S0 as [-> | ->]; reflexivity).
    rewrite B in E. injection E as _ <-. apply in_or_app. left.
    change c with (fst (c, true)). apply in_map. apply filter_In. split; auto. unfold set_st. simpl. destruct S0 as [-> | ->]; exact C.
  - specialize (IH _ _ eq_refl t c H L O S0 C). repeat match type of E with context[if ?x then _ else _] => destruct x end; injection E as _ <-; auto; apply in_or_app; auto.
Qed.
Print Assumptions tick_corrected_all.
Example tick_corrected_example : snd (redist_loop 0 (fun _ => true) (fun _ => 0)
  (snd (force [mkT 1 MBusy false false false false true [(5, false); (6, true)]; mkT 2 MBusy false false false false true [(7, false); (8, true)]]))) = [6; 8].
Proof. reflexivity. Qed.
