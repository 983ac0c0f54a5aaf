(** C127: the channel of the pipeline model is co_chan.  PipeModel.v takes a channel operation as one step of a plain record; here every execution of the model of
    co_chan (any number of producers and consumers, waits, notifications) is replayed, effect by effect, on that record. *)
From Coq Require Import List Arith Bool ZArith Lia.
From Verif Require Import Base LinSpec HistSpec Monitor MonitorProofs ChanSpec ChanModel ChanProofs ChanProps PipeModel.
Import ListNotations.

(** The sizes of co_chan and of the pipeline model. *)
Definition size_of (kd : kind) : size := match kd with KUnl => Unlimited | KSync => Unbuffered | KFix n => Fixed n end.
(** What the steps of PipeModel.v (step_src, step_stage) do with a channel, by the effect they stand for; None: the step is not enabled.
    push accepted: not closed, room, put; its return: at once, or (CWait) when the channel is empty or closed; push refused: closed; pop: the front, drop1; end of
    the stream: closed and empty; close. *)
Definition atomic (sz : size) (c : chan nat) (e : cev) : option (chan nat) :=
  match e with
  | EAux _ (APut v) => if clo nat c then None else if PipeModel.room nat sz c then Some (put nat c v) else None
  | ELin _ (OPush _) RTrue => match sz with Unbuffered => if clo nat c || is_nil (buf nat c) then Some c else None | _ => Some c end
  | ELin _ (OPush _) RFalse => if clo nat c then Some c else None
  | ELin _ OPop (RSome v) => match buf nat c with x :: r => if x =? v then Some (drop1 nat c v r) else None | [] => None end
  | ELin _ OPop RNone => match buf nat c with [] => if clo nat c then Some c else None | _ => None end
  | ELin _ OClose ROk => Some (close_p nat c)
  | ELin _ OIsClosed r => if cres_eqb r (if clo nat c then RTrue else RFalse) then Some c else None
  | ELin _ OIsEmpty r => if cres_eqb r (if is_nil (buf nat c) then RTrue else RFalse) then Some c else None
  | ELin _ _ _ => None
  | ECall _ _ | ERet _ _ _ => Some c
  end.
(** Histories are newest first. *)
Fixpoint replay (sz : size) (h : list cev) : option (chan nat) :=
  match h with [] => Some (ch0 nat) | e :: r => match replay sz r with Some c => atomic sz c e | None => None end end.

Lemma notify1_dh : forall (s : mst cdat cop cres caux cloc) c, dat (notify1 s c) = dat s /\ mhist (notify1 s c) = mhist s.
Proof. intros s c. unfold notify1. destruct (qs s c); auto. Qed.
Lemma notify_dh : forall (s : mst cdat cop cres caux cloc) g, dat (notify s g) = dat s /\ mhist (notify s g) = mhist s.
Proof.
  intros s [c|c]; [apply notify1_dh|]. simpl. generalize (length (qs s c)) as n. intros n. revert s. induction n as [|n IH]; intros s; [auto|].
  simpl. destruct (IH (notify1 s c)) as [-> ->]. apply notify1_dh.
Qed.
Lemma notifies_dh : forall sg (s : mst cdat cop cres caux cloc), dat (fold_left (@notify _ _ _ _ _) sg s) = dat s /\ mhist (fold_left (@notify _ _ _ _ _) sg s) = mhist s.
Proof.
  induction sg as [|g sg IH]; intros s; [auto|]. simpl. destruct (IH (notify s g)) as [-> ->]. apply notify_dh.
Qed.

(** The record after the replay shows what data__ and closed__ are, and its ghosts what was accepted and delivered. *)
Definition agrees (kd : kind) (h : list cev) (d : cdat) : Prop :=
  exists c, replay (size_of kd) h = Some c /\ buf nat c = cbuf d /\ clo nat c = cclosed d /\ ins nat c = accepted h /\ outs nat c = delivered h.
Lemma agrees_body : forall kd t o l b d h, agrees kd h d -> opl kd h t o l -> ChanProofs.room kd (length (cbuf d)) ->
  match chan_body kd t l b d with
  | ORet d' xs _ r => agrees kd (ELin t o r :: log_aux t xs h) d'
  | OWait d' xs _ _ _ | OAgain d' xs _ _ => agrees kd (log_aux t xs h) d'
  end.
Proof.
  intros kd t o l b [bf cl] h (c&R&B&C&X&Y) O K. unfold agrees. simpl in B, C. cbn [cbuf cclosed] in *.
  assert (P : forall v, cl = false -> PipeModel.room nat (size_of kd) c = true ->
    replay (size_of kd) (EAux t (APut v) :: h) = Some (put nat c v) /\ buf nat (put nat c v) = bf ++ [v] /\ clo nat (put nat c v) = cl /\
    ins nat (put nat c v) = accepted h ++ [v] /\ outs nat (put nat c v) = delivered h).
  { intros v F M. simpl. rewrite R, C, F, M, B, X, Y. repeat split; auto; congruence. }
  destruct l as [v|v|v| | | | |]; destruct o as [w| | | |]; simpl in O; try contradiction.
  - (* LPush *) cbn [chan_body cclosed cbuf]. destruct cl; [exists c; cbn [log_aux fold_left replay atomic accepted delivered]; rewrite R, C; auto|].
    destruct kd as [| |n]; cbn [size_of] in *.
    + cbn [do_push cbuf cclosed log_aux fold_left]. destruct (P v eq_refl eq_refl) as (P1&P2&P3&P4&P5). eexists. cbn [replay] in *. rewrite P1. cbn [atomic accepted delivered]. eauto.
    + destruct (Nat.eqb_spec (length bf) 1) as [Q|Q]; [exists c; auto|]. cbn in K. cbn [log_aux fold_left]. destruct bf as [|x bf]; [|simpl in K, Q; lia].
      destruct (P v eq_refl) as (P1&P2&P3&P4&P5); [unfold PipeModel.room; now rewrite B|]. eexists. split; [exact P1|]. auto.
    + destruct (Nat.eqb_spec (length bf) n) as [Q|Q]; [exists c; auto|]. cbn in K. cbn [do_push cbuf cclosed log_aux fold_left].
      destruct (P v eq_refl) as (P1&P2&P3&P4&P5); [unfold PipeModel.room; rewrite B; apply Nat.ltb_lt; unfold val in *; lia|]. eexists. cbn [replay] in *. rewrite P1. cbn [atomic accepted delivered]. eauto.
  - (* LPushW *) cbn [chan_body cclosed cbuf]. destruct O as (->&_&U). destruct kd as [| |n]; [congruence| |]; cbn [size_of] in *.
    + destruct cl; [|exists c; auto]. exists c. cbn [log_aux fold_left replay atomic accepted delivered]. rewrite R, C. auto.
    + destruct cl; cbn [orb]; [exists c; cbn [log_aux fold_left replay atomic accepted delivered]; rewrite R, C; auto|].
      destruct (Nat.ltb_spec (length bf) n) as [Q|Q]; [|exists c; auto]. cbn [do_push cbuf cclosed log_aux fold_left].
      destruct (P w eq_refl) as (P1&P2&P3&P4&P5); [unfold PipeModel.room; rewrite B; apply Nat.ltb_lt; unfold val in *; lia|]. eexists. cbn [replay] in *. rewrite P1. cbn [atomic accepted delivered]. eauto.
  - (* LSyncW *) cbn [chan_body cclosed cbuf]. destruct O as (->&_&->). cbn [size_of] in *. destruct (cl || is_nil bf) eqn:Q; [|exists c; auto].
    exists c. cbn [log_aux fold_left replay atomic accepted delivered]. rewrite R, C, B, Q. auto.
  - (* LPop *) cbn [chan_body cclosed cbuf]. destruct bf as [|x bf]; cbn [is_nil].
    + destruct cl; [|exists c; auto]. exists c. cbn [log_aux fold_left replay atomic accepted delivered]. rewrite R, C, B. auto.
    + cbn [do_pop cbuf cclosed log_aux fold_left]. exists (drop1 nat c x bf). cbn [replay atomic accepted delivered]. rewrite R, B, Nat.eqb_refl. cbn. rewrite Y. auto.
  - (* LPopW *) cbn [chan_body cclosed cbuf]. destruct bf as [|x bf]; cbn [is_nil negb].
    + rewrite orb_false_r. destruct cl; [|exists c; auto]. exists c. cbn [log_aux fold_left replay atomic accepted delivered]. rewrite R, C, B. auto.
    + rewrite orb_true_r. cbn [do_pop cbuf cclosed log_aux fold_left]. exists (drop1 nat c x bf). cbn [replay atomic accepted delivered]. rewrite R, B, Nat.eqb_refl. cbn. rewrite Y. auto.
  - (* LClose *) cbn. exists (close_p nat c). rewrite R. cbn. auto.
  - (* LClosed *) cbn [chan_body cclosed cbuf log_aux fold_left replay accepted delivered]. exists c. rewrite R. cbn [atomic]. rewrite C. destruct cl; cbn; auto.
  - (* LEmpty *) cbn [chan_body cclosed cbuf log_aux fold_left replay accepted delivered]. exists c. rewrite R. cbn [atomic]. rewrite B. destruct (is_nil bf); cbn; auto.
Qed.
Lemma agrees_run_body : forall kd s t o l b, agrees kd (mhist s) (dat s) -> opl kd (mhist s) t o l -> ChanProofs.room kd (length (cbuf (dat s))) ->
  agrees kd (mhist (run_body (chan_body kd) s t o l b)) (dat (run_body (chan_body kd) s t o l b)).
Proof.
  intros kd s t o l b A O K. assert (X := agrees_body kd t o l b (dat s) (mhist s) A O K). unfold run_body.
  destruct (chan_body kd t l b (dat s)) as [d xs sg r|d xs sg c l'|d xs sg l']; cbn [dat mhist]; match goal with |- context[fold_left _ ?sg ?s0] => destruct (notifies_dh sg s0) as [-> ->] end; exact X.
Qed.

(** ** C127 *)
(** Every execution of co_chan, of any size, is one of the channel of the pipeline model: its effects, in their order, are enabled steps there, and lead to the
    buffer and the closed flag that co_chan has. *)
Theorem chan_is_pipe_chan : forall size ls s, run (chan_step (kind_of_size size)) chan_init ls = Some s ->
  exists c, replay (size_of (kind_of_size size)) (mhist s) = Some c /\ buf nat c = cbuf (dat s) /\ clo nat c = cclosed (dat s) /\
    ins nat c = accepted (mhist s) /\ outs nat c = delivered (mhist s).
Proof.
  intros z ls. induction ls as [|l ls IH] using rev_ind; intros s R; [injection R as <-; exists (ch0 nat); auto|].
  rewrite run_app in R. destruct (run (chan_step (kind_of_size z)) chan_init ls) as [s1|] eqn:R1; [|discriminate]. assert (A := IH _ eq_refl). clear IH.
  assert (I := cinv_run _ ls s1 (kind_of_size_ok z) R1). simpl in R. set (kd := kind_of_size z) in *. change (agrees kd (mhist s1) (dat s1)) in A. change (agrees kd (mhist s) (dat s)).
  unfold chan_step in R. destruct l as [t o|t b|t]; cbn [mstep] in R.
  - destruct (ths s1 t); try discriminate R. injection R as <-. cbn [mhist dat]. destruct A as (c&A1&A2). exists c. cbn [replay atomic accepted delivered]. rewrite A1. auto.
  - assert (T := c_thr _ _ I t). destruct (ths s1 t) as [|o l|c o l|c o l|]; try discriminate R; injection R as <-.
    + apply agrees_run_body; auto. exact (c_room _ _ I).
    + destruct T as [T _]. apply agrees_run_body; auto. exact (c_room _ _ I).
  - destruct (ths s1 t); try discriminate R. injection R as <-. cbn [mhist dat]. destruct A as (c&A1&A2). exists c. cbn [replay atomic accepted delivered]. rewrite A1. auto.
Qed.
Print Assumptions chan_is_pipe_chan.

(** And the other way round: a step of the pipeline's channel is one that co_chan makes when a coroutine calls the operation and gets the mutex. *)
Theorem pipe_chan_is_chan : forall size ls s c t, run (chan_step (kind_of_size size)) chan_init ls = Some s -> replay (size_of (kind_of_size size)) (mhist s) = Some c -> ths s t = TOut ->
  let go o := run (chan_step (kind_of_size size)) s [MCall t o; MRun t false] in
  (forall v, clo nat c = false -> PipeModel.room nat (size_of (kind_of_size size)) c = true ->
     exists s', go (OPush v) = Some s' /\ cbuf (dat s') = buf nat (put nat c v) /\ accepted (mhist s') = accepted (mhist s) ++ [v]) /\
  (forall v, clo nat c = true -> exists s', go (OPush v) = Some s' /\ dat s' = dat s /\ mhist s' = ELin t (OPush v) RFalse :: ECall t (OPush v) :: mhist s) /\
  (forall v r, buf nat c = v :: r -> exists s', go OPop = Some s' /\ cbuf (dat s') = r /\ mhist s' = ELin t OPop (RSome v) :: ECall t OPop :: mhist s) /\
  (buf nat c = [] -> clo nat c = true -> exists s', go OPop = Some s' /\ dat s' = dat s /\ mhist s' = ELin t OPop RNone :: ECall t OPop :: mhist s) /\
  (exists s', go OClose = Some s' /\ cbuf (dat s') = cbuf (dat s) /\ cclosed (dat s') = true /\ mhist s' = ELin t OClose ROk :: ECall t OClose :: mhist s).
Proof.
  intros z ls s c t R RE T go. destruct (chan_is_pipe_chan z ls s R) as (c'&RE'&B&C&_&_). assert (c' = c) as -> by congruence. set (kd := kind_of_size z) in *.
  assert (G : forall o, go o = Some (run_body (chan_body kd) (mkM (dat s) (upd (ths s) t (TReady o (chan_entry o))) (qs s) (wk s) (ECall t o :: mhist s)) t o (chan_entry o) false)).
  { intros o. unfold go, chan_step. cbn [run mstep]. rewrite T. cbn [mstep ths]. now rewrite upd_same. }
  assert (Q : forall o d xs sg r, chan_body kd t (chan_entry o) false (dat s) = ORet d xs sg r ->
    exists s', go o = Some s' /\ dat s' = d /\ mhist s' = ELin t o r :: log_aux t xs (ECall t o :: mhist s)).
  { intros o d xs sg r E. eexists. split; [apply G|]. unfold run_body. cbn [dat]. rewrite E. match goal with |- context[fold_left _ ?g ?s0] => destruct (notifies_dh g s0) as [-> ->] end. auto. }
  destruct (dat s) as [bf cl] eqn:D. cbn [cbuf cclosed] in *. split; [|split; [|split; [|split]]].
  - intros v F M. rewrite C in F. clear C. subst cl. cbn [put buf]. rewrite B.
    assert (U : forall d xs sg r, chan_body kd t (LPush v) false (mkC bf false) = ORet d xs sg r -> xs = [APut v] -> cbuf d = bf ++ [v] ->
       exists s', go (OPush v) = Some s' /\ cbuf (dat s') = bf ++ [v] /\ accepted (mhist s') = accepted (mhist s) ++ [v]).
    { intros d xs sg r E -> E2. destruct (Q (OPush v) _ _ _ _ E) as (s'&X1&X2&X3). exists s'. rewrite X2, X3. auto. }
    destruct kd as [| |n] eqn:KD; cbn [size_of PipeModel.room] in M.
    + eapply U; cbn; reflexivity.
    + rewrite B in M. destruct bf; [|discriminate]. eexists. split; [apply G|]. unfold run_body. cbn [dat chan_entry]. try rewrite D. cbn [chan_body cclosed cbuf length Nat.eqb app].
      cbn [dat mhist]. match goal with |- context[fold_left _ ?g ?s0] => destruct (notifies_dh g s0) as [-> ->] end. auto.
    + rewrite B in M. apply Nat.ltb_lt in M. eapply U; cbn [chan_body cclosed cbuf]; (replace (length bf =? n) with false by (symmetry; apply Nat.eqb_neq; unfold val in *; lia)) || idtac; try reflexivity.
  - intros v F. rewrite C in F. clear C. subst cl. exact (Q (OPush v) _ [] [] RFalse eq_refl).
  - intros v r E. rewrite E in B. subst bf. destruct (Q OPop (mkC r cl) [] [SOne FULL] (RSome v) eq_refl) as (s'&X1&X2&X3). exists s'. rewrite X2. auto.
  - intros E F. rewrite E in B. rewrite F in C. subst bf cl. exact (Q OPop _ [] [] RNone eq_refl).
  - destruct (Q OClose _ _ _ _ eq_refl) as (s'&X1&X2&X3). exists s'. rewrite X2. auto.
Qed.
Print Assumptions pipe_chan_is_chan.
(** Two producers and a consumer at a channel of size 1, with a wait. *)
Example pipe_chan_example :
  option_map (fun s => (option_map (fun c => (buf nat c, clo nat c, ins nat c, outs nat c)) (replay (size_of (kind_of_size 1)) (mhist s)), dat s))
    (run (chan_step (kind_of_size 1)) chan_init
       [MCall 1 (OPush 10); MRun 1 false; MCall 2 (OPush 20); MRun 2 false; MCall 3 OPop; MRun 3 false; MRun 2 false; MCall 4 OClose; MRun 4 false]) =
  Some (Some ([20], true, [10; 20], [10]), mkC [20] true).
Proof. vm_compute. reflexivity. Qed.
Example pipe_chan_example2 : match run (chan_step (kind_of_size 1)) chan_init [MCall 1 (OPush 10); MRun 1 false; MLeave 1] with
  | Some s => ths s 3 = TOut /\ exists c, replay (Fixed 1) (mhist s) = Some c /\ buf nat c = [10] | None => False end.
Proof. vm_compute. split; [reflexivity|]. eexists. split; reflexivity. Qed.
