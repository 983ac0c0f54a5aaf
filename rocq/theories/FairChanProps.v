(** C108, C109: co_chan in fair executions. *)
From Coq Require Import List ZArith Bool Arith Lia.
From Verif Require Import Base LinSpec LinLemmas HistSpec Monitor MonitorProofs FairSpec FairCycle MonFair ChanSpec ChanModel ChanProofs.
Import ListNotations.

(** The call made at moment n returns. *)
Definition chan_returns (h : nat -> list cev) (t : tid) (o : cop) (n : nat) : Prop :=
  exists m r, n < m /\ h (S m) = ERet t o r :: h m.
(** A value is handed out to [u] at moment m. *)
Definition gets (h : nat -> list cev) (u : tid) (m : nat) : Prop := exists v, h (S m) = ELin u OPop (RSome v) :: h m.
(** Values in the channel. *)
Definition inside_chan (h : list cev) : nat := length (accepted h) - length (delivered h).

Lemma closed_app : forall a b, is_closed b = true -> is_closed (a ++ b) = true.
Proof. induction a as [|e a IH]; intros b H; simpl; auto. destruct e as [t o|t [] r|t o r|t x]; auto. Qed.

Section Fair.
  Variable kd : kind.
  Hypothesis Kok : kind_ok kd.
  Variables (st : nat -> mst cdat cop cres caux cloc) (lb : nat -> option (mlbl cop)).
  Hypothesis EX : execution _ _ (chan_step kd) chan_init st lb.
  Hypothesis WFR : weakly_fair _ _ (chan_step kd) mwho st lb.
  Notation h := (fun n => mhist (st n)).

  Lemma cinv_all : forall k, CInv kd (st k).
  Proof. intros k. destruct (exec_run _ _ _ _ _ _ _ _ st lb EX k) as (ls&R). exact (cinv_run kd ls _ Kok R). Qed.

  Lemma closed_returns : forall n t o, lb n = Some (MCall t o) ->
    match o with
    | OPush _ => kd = KUnl \/ exists m, is_closed (mhist (st m)) = true
    | OPop => exists m, is_closed (mhist (st m)) = true
    | _ => True
    end -> chan_returns h t o n.
  Proof.
    intros n t o C G.
    assert (K : exists K, forall k, K <= k -> match o with OPush _ => kd = KUnl \/ cclosed (dat (st k)) = true | OPop => cclosed (dat (st k)) = true | _ => True end).
    { assert (M : forall m k, is_closed (mhist (st m)) = true -> m <= k -> cclosed (dat (st k)) = true).
      { intros m k E L. rewrite <- (c_closed _ _ (cinv_all k)). destruct (hist_grows _ _ _ _ _ _ _ cop_refl cres_refl _ _ _ st lb EX m k L) as (nw&->). now apply closed_app. }
      destruct o; try (exists 0; auto; fail).
      - destruct G as [G|(m&G)]; [exists 0; auto|exists m; eauto].
      - destruct G as (m&G). exists m. eauto. }
    destruct K as (K&HK).
    destruct (call_served _ _ _ _ _ _ _ cop_refl cres_refl _ _ _ st lb EX WFR (fun _ => 0) n t o K C) as (m&r&L&H); [|exists m, r; auto].
    intros k Lk _ _ Hin. specialize (HK k Lk). pose proof (cinv_all k) as I. pose proof (c_thr _ _ I t) as T. split.
    - intros c p l E. rewrite E in *. simpl in Hin, T. subst p. destruct T as (T1&T2).
      assert (J : In t (qs (st k) c)) by (apply (w_q (c_wf _ _ I)); eauto).
      pose proof (c_e _ _ I) as Qe. pose proof (c_f _ _ I) as Qf.
      destruct o, l; simpl in T1; try contradiction; try discriminate; injection T2 as <-.
      + destruct (qs (st k) FULL); [destruct J|]. destruct (Qf ltac:(discriminate)). destruct HK as [HK|HK]; [tauto|congruence].
      + destruct (qs (st k) FULL); [destruct J|]. destruct (Qf ltac:(discriminate)). destruct HK as [HK|HK]; [destruct T1 as (_&_&T1); congruence|congruence].
      + destruct (qs (st k) EMPTY); [destruct J|]. destruct (Qe ltac:(discriminate)). congruence.
    - intros l b A. assert (T' : opl kd (mhist (st k)) t o l).
      { destruct (ths (st k) t) as [|p l'|c p l'|c p l'|p r]; simpl in A, Hin, T; try contradiction; subst p l'; tauto. }
      destruct o, l; simpl in T'; try contradiction; cbn [chan_body]; try exact Logic.I.
      + destruct HK as [HK|HK]; [rewrite HK; destruct (cclosed (dat (st k))); exact Logic.I|rewrite HK; exact Logic.I].
      + destruct HK as [HK|HK]; [tauto|]. rewrite HK. simpl. destruct kd; exact Logic.I.
      + destruct HK as [HK|HK]; [destruct T' as (_&_&T'); congruence|]. rewrite HK. exact Logic.I.
      + rewrite HK. unfold do_pop, is_nil. destruct (cbuf (dat (st k))); exact Logic.I.
      + rewrite HK. simpl. unfold do_pop, is_nil. destruct (cbuf (dat (st k))); exact Logic.I.
  Qed.

  Lemma buf_next : forall k, (exists u, gets h u k) \/ length (cbuf (dat (st k))) <= length (cbuf (dat (st (S k)))).
  Proof.
    intros k. pose proof (proj2 EX k) as H. destruct (lb k) as [l|]; [|rewrite H; auto]. pose proof (cinv_all k) as I. unfold chan_step in H. destruct l as [t o|t b|t].
    - apply call_post in H. destruct H as (_&E&_). right. rewrite E. auto.
    - apply run_post with (1 := c_wf _ _ I) in H. destruct H as (o&l&Et&H).
      assert (Hl : opl kd (mhist (st k)) t o l) by (pose proof (c_thr _ _ I t) as T; destruct Et as [Et|(c&Et)]; rewrite Et in T; simpl in T; tauto).
      assert (X : (chan_body kd t l b (dat (st k)) = do_pop (dat (st k)) /\ o = OPop) \/
        match chan_body kd t l b (dat (st k)) with ORet d _ _ _ | OWait d _ _ _ _ | OAgain d _ _ _ => length (cbuf (dat (st k))) <= length (cbuf d) end).
      { destruct o, l; simpl in Hl; try contradiction; cbn [chan_body]; unfold do_push;
          repeat (match goal with |- context [if ?c then _ else _] => destruct c eqn:?C end); try (left; split; reflexivity);
          right; try destruct kd; repeat (match goal with |- context [if ?c then _ else _] => destruct c eqn:?C end); cbn [cbuf]; rewrite ?app_length; simpl; lia. }
      destruct X as [(X&->)|X].
      + rewrite X in H. unfold do_pop in H. destruct (cbuf (dat (st k))) as [|v r] eqn:B; [right; simpl; lia|]. destruct H as (_&Hh&_). left. exists t, v. exact Hh.
      + right. destruct (chan_body kd t l b (dat (st k))); destruct H as (E&_); rewrite E; exact X.
    - apply leave_post in H. destruct H as (_&_&_&E&_). right. rewrite E. auto.
  Qed.
  Lemma buf_up : forall n j, (exists k u, n <= k < n + j /\ gets h u k) \/ length (cbuf (dat (st n))) <= length (cbuf (dat (st (n + j)))).
  Proof.
    intros n. induction j as [|j [(k&u&A&B)|IH]]; [right; rewrite Nat.add_0_r; lia|left; exists k, u; split; [lia|auto]|]. rewrite Nat.add_succ_r.
    destruct (buf_next (n + j)) as [(u&T)|X]; [left; exists (n + j), u; split; [lia|auto]|right; lia].
  Qed.
  (** Whenever a value is there and a coroutine is in pop() waiting for one, somebody gets one. *)
  Lemma pop_progress : forall n t, phase_of cop_eqb cres_eqb (mhist (st n)) t = Some (PPending OPop) -> 0 < inside_chan (mhist (st n)) ->
    exists m u, n <= m /\ gets h u m.
  Proof.
    intros n t P Pos. pose proof (cinv_all n) as I. rewrite (w_ph (c_wf _ _ I) t) in P.
    unfold inside_chan in Pos. rewrite (c_buf _ _ I), app_length in Pos. assert (Pos' : 0 < length (cbuf (dat (st n)))) by lia. clear Pos.
    assert (U : exists u l, (l = LPop \/ l = LPopW) /\ (ths (st n) u = TReady OPop l \/ exists c, ths (st n) u = TWoken c OPop l)).
    { pose proof (c_thr _ _ I t) as T. destruct (ths (st n) t) as [|o l|c o l|c o l|o r] eqn:E; simpl in P, T; try discriminate; injection P as ->.
      - exists t, l. split; [destruct l; simpl in T; try contradiction; auto|left; exact E].
      - destruct T as (T&Cv). destruct l; simpl in T; try contradiction; try discriminate. injection Cv as <-.
        assert (J : In t (qs (st n) EMPTY)) by (apply (w_q (c_wf _ _ I)); eauto). pose proof (c_e _ _ I) as Q.
        destruct (qs (st n) EMPTY); [destruct J|]. destruct (Q ltac:(discriminate)) as (_&Q'). destruct (wk (st n) EMPTY) as [|u r] eqn:Wk; [simpl in Q'; lia|].
        assert (Ju : In u (wk (st n) EMPTY)) by (rewrite Wk; now left). apply (w_wk (c_wf _ _ I)) in Ju. destruct Ju as (o'&l'&Eu).
        pose proof (c_thr _ _ I u) as Tu. rewrite Eu in Tu. simpl in Tu. destruct Tu as (Tu&Cv). destruct o', l'; simpl in Tu; try contradiction; try discriminate.
        exists u, LPopW. split; auto. right. eauto.
      - destruct T as (T&Cv). exists t, l. split; [destruct l; simpl in T; try contradiction; auto|right; eauto]. }
    destruct U as (u&l&Hl&U). destruct (run_fires _ _ _ _ _ _ _ cop_refl cres_refl _ _ _ st lb EX WFR n u _ _ U) as (m&b&L&Lb&H&Eu).
    destruct (buf_up n (m - n)) as [(k&v&A&B)|D]; [exists k, v; split; [lia|auto]|]. replace (n + (m - n)) with m in D by lia.
    exists m, u. split; auto. rewrite <- Eu in U. apply run_post with (1 := c_wf _ _ (cinv_all m)) in H. destruct H as (o&l'&Et&H).
    assert (X : o = OPop /\ l' = l) by (destruct U as [U|(c&U)], Et as [Et|(c'&Et)]; rewrite U in Et; try discriminate; injection Et; auto). destruct X as (->&->).
    assert (Y : chan_body kd u l b (dat (st m)) = do_pop (dat (st m))).
    { destruct (cbuf (dat (st m))) as [|x r] eqn:B; [simpl in D; lia|]. destruct Hl as [-> | ->]; cbn [chan_body]; rewrite B; simpl; [reflexivity|]. now rewrite orb_true_r. }
    rewrite Y in H. unfold do_pop in H. destruct (cbuf (dat (st m))) as [|x r]; [simpl in D; lia|]. destruct H as (_&Hh&_). exists x. exact Hh.
  Qed.
End Fair.

(** ** C108: in a weakly fair execution, once a channel is closed every push and pop on it returns, whether called before or after; close(),
    closed() and empty() always return, and so does push() on an unlimited channel. *)
Theorem chan_close_releases : forall kd st lb, kind_ok kd -> execution _ _ (chan_step kd) chan_init st lb -> weakly_fair _ _ (chan_step kd) mwho st lb ->
  forall n t o, lb n = Some (MCall t o) ->
  match o with
  | OPush _ => kd = KUnl \/ exists m, is_closed (mhist (st m)) = true
  | OPop => exists m, is_closed (mhist (st m)) = true
  | OClose | OIsClosed | OIsEmpty => True
  end -> chan_returns (fun n => mhist (st n)) t o n.
Proof. intros kd st lb K EX WFR n t o C G. exact (closed_returns kd K st lb EX WFR n t o C G). Qed.
Print Assumptions chan_close_releases.

(** ** C109, what holds: a value that is in the channel while somebody is in pop() is handed out to somebody ... *)
Theorem chan_progress_partial : forall kd st lb, kind_ok kd -> execution _ _ (chan_step kd) chan_init st lb -> weakly_fair _ _ (chan_step kd) mwho st lb ->
  forall n t, phase_of cop_eqb cres_eqb (mhist (st n)) t = Some (PPending OPop) -> 0 < inside_chan (mhist (st n)) ->
  exists m u, n <= m /\ gets (fun n => mhist (st n)) u m.
Proof. intros kd st lb K EX WFR n t P Pos. exact (pop_progress kd K st lb EX WFR n t P Pos). Qed.
Print Assumptions chan_progress_partial.

(** ... so a pop() that never returns although there are values again and again is overtaken again and again.
    Missing: the overtaking is not excluded (see the refutation below). *)
Theorem chan_overtaken_partial : forall kd st lb, kind_ok kd -> execution _ _ (chan_step kd) chan_init st lb -> weakly_fair _ _ (chan_step kd) mwho st lb ->
  forall n t, lb n = Some (MCall t OPop) -> ~ chan_returns (fun n => mhist (st n)) t OPop n ->
  (forall k, exists m, k <= m /\ 0 < inside_chan (mhist (st m))) ->
  forall k, exists m u, k <= m /\ u <> t /\ gets (fun n => mhist (st n)) u m.
Proof.
  intros kd st lb K EX WFR n t C NR Pos k.
  pose proof (called _ _ _ _ _ _ _ _ st lb EX n t _ C) as C'.
  assert (In_ : forall m, n < m -> inside _ _ _ (ths (st m) t) OPop).
  { intros m L. destruct (stays_inside _ _ _ _ _ _ _ cop_refl cres_refl _ _ _ st lb EX _ _ _ C' m L) as [(X&_)|(j&r&A&B)]; auto. exfalso. apply NR. exists j, r. split; [lia|auto]. }
  assert (ND : forall m r, n < m -> ths (st m) t <> TDone OPop r).
  { intros m r L E. destruct (leaves _ _ _ _ _ _ _ cop_refl cres_refl _ _ _ st lb EX WFR m t _ _ E) as (j&A&B). apply NR. exists j, r. split; [lia|exact B]. }
  destruct (Pos (Nat.max k (S n))) as (m&L&Pm).
  destruct (pop_progress kd K st lb EX WFR m t) as (m'&u&L'&T); [|exact Pm|].
  { rewrite (w_ph (c_wf _ _ (cinv_all kd K st lb EX m)) t). specialize (In_ m ltac:(lia)).
    destruct (ths (st m) t) as [|o l|c o l|c o l|o r] eqn:E; simpl in *; try contradiction; subst; auto. exfalso. exact (ND m r ltac:(lia) E). }
  exists m', u. split; [lia|]. split; [|exact T]. intros ->. destruct T as (v&Hh).
  pose proof (w_ph (c_wf _ _ (cinv_all kd K st lb EX (S m'))) t) as Q. rewrite Hh in Q. specialize (In_ (S m') ltac:(lia)).
  assert (Z1 : exists r', ths (st (S m')) t = TDone OPop r').
  { simpl in Q. unfold phase_step in Q. simpl in Q. rewrite Nat.eqb_refl in Q.
    destruct (phase_of cop_eqb cres_eqb (mhist (st m')) t) as [[|p|p q]|]; simpl in Q; try discriminate.
    destruct p; try discriminate. destruct (ths (st (S m')) t) as [|o' l|c o' l|c o' l|o' r'] eqn:E; simpl in *; try contradiction; try discriminate. subst. eauto. }
  destruct Z1 as (r'&Z1). exact (ND (S m') r' ltac:(lia) Z1).
Qed.
Print Assumptions chan_overtaken_partial.

(** ** C109, refuted: coroutine 0 is in pop(); coroutine 1 pushes a value and pops it again, again and again.  Each push wakes coroutine 0, and
    each time it finds the channel empty.  Everybody who can make a step again and again makes steps again and again. *)
Definition p_pre : list (mlbl cop) := [MCall 0 OPop; MRun 0 false].
Definition p_cyc : list (mlbl cop) := [MCall 1 (OPush 5); MRun 1 false; MLeave 1; MCall 1 OPop; MRun 1 false; MLeave 1; MRun 0 false].
Definition p_form (h : list cev) : mst cdat cop cres caux cloc :=
  mkM (mkC [] false) (fun t => match t with O => TWait EMPTY OPop LPopW | _ => TOut end) (fun c => match c with O => [0] | _ => [] end) (fun _ => []) h.
Definition p_base (s : mst cdat cop cres caux cloc) : Prop := exists h, meq _ _ _ _ _ (p_form h) s.
Notation pstep := (chan_step KUnl).
Lemma p_start : exists s, run pstep chan_init p_pre = Some s /\ p_base s.
Proof. eexists. split; [vm_compute; reflexivity|]. eexists. split; [reflexivity|]. split; [reflexivity|]. split; [intros [|[|t]]; reflexivity|]. split; intros [|[|c]]; reflexivity. Qed.
Lemma p_next : forall s, p_base s -> exists s', run pstep s p_cyc = Some s' /\ p_base s'.
Proof.
  intros s (h&E). assert (R : exists a, run pstep (p_form h) p_cyc = Some a /\ p_base a).
  { eexists. split; [vm_compute; reflexivity|]. eexists. split; [reflexivity|]. split; [reflexivity|]. split; [intros [|[|t]]; reflexivity|]. split; intros [|[|c]]; reflexivity. }
  destruct R as (a&R&h'&E'). destruct (meq_run _ _ _ _ _ _ _ _ _ _ _ E R) as (s'&R'&E2). exists s'. split; [exact R'|]. exists h'. eapply meq_trans; eauto.
Qed.
Lemma p_ne : p_cyc <> []. Proof. discriminate. Qed.
Definition pst := cst _ _ pstep chan_init p_pre p_cyc.
Definition plb := clb _ p_pre p_cyc.
Lemma p_exec : execution _ _ pstep chan_init pst plb.
Proof. exact (cyc_exec _ _ pstep chan_init p_pre p_cyc p_base p_ne p_start p_next). Qed.
Lemma p_cl : forall k i, i < 7 -> plb (2 + 7 * k + i) = nth_error p_cyc i.
Proof. intros k i L. exact (clb_cyc _ p_pre p_cyc k i L). Qed.
Lemma p_kok : kind_ok KUnl. Proof. intros n E. discriminate. Qed.
Lemma p_value : forall k, 0 < inside_chan (mhist (pst (2 + 7 * k + 2))).
Proof.
  intros k. pose proof (cyc_base _ _ pstep chan_init p_pre p_cyc p_base p_start p_next k) as (h&E).
  destruct (cyc_seg _ _ pstep chan_init p_pre p_cyc p_base p_start p_next k 2) as (R&_); [simpl; lia|].
  assert (X : exists a, run pstep (p_form h) (firstn 2 p_cyc) = Some a /\ dat a = mkC [5] false) by (eexists; split; [vm_compute; reflexivity|reflexivity]).
  destruct X as (a&Ra&Da). destruct (meq_run _ _ _ _ _ _ _ _ _ _ _ E Ra) as (b&Rb&(Eb&_)).
  assert (Q : b = pst (2 + 7 * k + 2)) by (assert (SI : forall A (x y : A), Some x = Some y -> x = y) by congruence; apply SI; rewrite <- Rb; exact R). subst b.
  unfold inside_chan. rewrite (c_buf _ _ (cinv_all KUnl p_kok pst plb p_exec (2 + 7 * k + 2))), app_length, <- Eb, Da. simpl. lia.
Qed.
Lemma p_fair : strongly_fair _ _ pstep mwho pst plb.
Proof.
  intros t n. destruct (Nat.eq_dec t 0) as [->|N0]; [|destruct (Nat.eq_dec t 1) as [->|N1]].
  - exists (2 + 7 * n + 6). split; [lia|]. left. exists (MRun 0 false). split; [|reflexivity]. rewrite p_cl by lia. reflexivity.
  - exists (2 + 7 * n + 1). split; [lia|]. left. exists (MRun 1 false). split; [|reflexivity]. rewrite p_cl by lia. reflexivity.
  - exists n. split; auto. right. intros k _. apply out_unable. left. apply (never_out _ _ _ _ _ _ _ cop_refl cres_refl _ _ _ pst plb p_exec t).
    intros j o E. apply clb_in in E. simpl in E. intuition (try discriminate; try congruence).
Qed.
Theorem chan_starvation_refuted : exists st lb, execution _ _ (chan_step KUnl) chan_init st lb /\ strongly_fair _ _ (chan_step KUnl) mwho st lb /\
  (forall k, exists m, k <= m /\ 0 < inside_chan (mhist (st m))) /\
  exists t n, lb n = Some (MCall t OPop) /\ ~ chan_returns (fun n => mhist (st n)) t OPop n.
Proof.
  exists pst, plb. pose proof p_exec as EX. split; [exact EX|]. split; [exact p_fair|]. split.
  - intros k. exists (2 + 7 * k + 2). split; [lia|]. apply p_value.
  - exists 0, 0. split; [reflexivity|]. intros (m&r&L&E). apply (ret_label _ _ _ _ _ _ _ cop_refl cres_refl _ _ _ pst plb EX) in E.
    apply clb_in in E. simpl in E. intuition discriminate.
Qed.
Print Assumptions chan_starvation_refuted.
(** The same execution meets the hypotheses of the two theorems before. *)
Example chan_overtaken_case : weakly_fair _ _ (chan_step KUnl) mwho pst plb /\ plb 0 = Some (MCall 0 OPop) /\
  phase_of cop_eqb cres_eqb (mhist (pst 4)) 0 = Some (PPending OPop) /\ inside_chan (mhist (pst 4)) = 1 /\ gets (fun n => mhist (pst n)) 1 6.
Proof.
  split; [exact (strong_weak _ _ _ _ _ _ p_fair)|]. split; [reflexivity|]. split; [vm_compute; reflexivity|]. split; [vm_compute; reflexivity|]. exists 5. vm_compute. reflexivity.
Qed.

(** An execution on a bounded channel in which a push waits for room and a pop for values when close() comes. *)
Definition c_ls : list (mlbl cop) := [MCall 0 (OPush 1); MRun 0 false; MLeave 0; MCall 0 (OPush 2); MRun 0 false; MCall 1 OClose; MRun 1 false; MRun 0 false; MLeave 0; MLeave 1; MCall 2 OPop; MRun 2 false; MLeave 2; MCall 2 OPop; MRun 2 false; MLeave 2].
Example chan_close_case : exists st lb, execution _ _ (chan_step (KFix 1)) chan_init st lb /\ weakly_fair _ _ (chan_step (KFix 1)) mwho st lb /\
  lb 3 = Some (MCall 0 (OPush 2)) /\ ths (st 5) 0 = TWait FULL (OPush 2) (LPushW 2) /\ is_closed (mhist (st 7)) = true /\ lb 13 = Some (MCall 2 OPop).
Proof.
  assert (R : exists s, run (chan_step (KFix 1)) chan_init c_ls = Some s /\ forall t, ths s t = TOut) by (eexists; split; [vm_compute; reflexivity|intros t; do 3 (destruct t as [|t]; [reflexivity|]); reflexivity]).
  destruct R as (s&R&O). exists (fst_ _ _ (chan_step (KFix 1)) chan_init c_ls), (flb _ c_ls). split; [exact (fin_exec _ _ _ _ _ _ R)|].
  split; [apply strong_weak; apply (fin_fair _ _ _ _ _ _ R); intros t; apply out_unable; auto|].
  split; [reflexivity|]. split; [vm_compute; reflexivity|]. split; [vm_compute; reflexivity|reflexivity].
Qed.
