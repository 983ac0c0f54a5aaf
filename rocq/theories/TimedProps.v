(** Properties C73 (co_timed_mutex, co_recursive_timed_mutex) and C74 (co_shared_timed_mutex). *)
From Coq Require Import List Arith Bool Lia NArith.
From Verif Require Import Base LinSpec TimedSpec TimedModel TimedProofs TimedInst MutexSpec MutexModel RecMutexSpec
  SharedMutexSpec SpinObj SpinObjProofs RecMutexModel SharedMutexModel.
From Verif Require MutexProofs MutexProps RecMutexProofs RecMutexProps SharedMutexProofs SharedMutexProps.
Import ListNotations.

(** ** co_timed_mutex *)
Notation mlbl := (tlbl lbl mop).
Definition mgo (t : tid) (n : nat) : list mlbl := repeat (LGo t) n.
Definition mrun (t : tid) (n : nat) : list mlbl := repeat (LU (Run t false)) n.
(** 1 locks; 2 calls try_lock_for(5): two attempts fail; 3 calls try_lock_until(2) when that moment has passed: one
    attempt, then false; 1 unlocks; the third attempt of 2 succeeds. *)
Definition tm_demo : list mlbl :=
  [LTick 3; LU (Call 1 OLock)] ++ mrun 1 3 ++ [LBegin 2 OTry (For 5)] ++ mgo 2 1 ++ mrun 2 3 ++ mgo 2 2 ++ [LTick 2] ++
  mgo 2 1 ++ mrun 2 3 ++ [LBegin 3 OTry (Until 2)] ++ mgo 3 1 ++ mrun 3 3 ++ mgo 3 3 ++
  [LU (Call 1 OUnlock)] ++ mrun 1 3 ++ mgo 2 2 ++ mgo 2 1 ++ mrun 2 3 ++ mgo 2 1.
Definition view {U Op Res Aux} (s : tst U Op Res Aux) : list (tid * bool * nat * nat * list nat) :=
  map (fun c => (c_t c, c_ans c, c_start c, c_end c, c_reads c)) (fin s).
Example tm_demo_ok :
  option_map (fun s => (view s, holding (hist (mu s)) 2, clk s)) (run tm_step tm_init tm_demo)
  = Some ([(2, true, 3, 5, [5; 3]); (3, false, 5, 5, [5])], true, 5) /\
  (forall s, run tm_step tm_init tm_demo = Some s -> no_relock (hist (mu s))).
Proof. split; [vm_compute; reflexivity|]. intros s H. vm_compute in H. injection H as <-. vm_compute. tauto. Qed.

Lemma tm_well : forall ls s, run tm_step tm_init ls = Some s -> no_relock (hist (mu s)) -> MutexProofs.Inv (mu s).
Proof.
  intros ls s Hr Hn. destruct (t_project m_laws init Logic.I ls Hr) as [ls' Hr']. eapply MutexProofs.reach_inv_mutex; eauto.
Qed.
Lemma tm_ti : forall ls s, run tm_step tm_init ls = Some s -> no_relock (hist (mu s)) ->
  TI mutex_face mop_eqb mres_eqb RTrue RFalse top s.
Proof.
  intros ls s Hr Hn. eapply ti_reach with (u0 := init) (ls := ls); try exact m_laws; try reflexivity; auto.
  intros t E. pose proof (MutexProofs.inv_linearizable _ (tm_well ls s Hr Hn)) as [W _]. exact (W t E).
Qed.

(** Every finished timed call: failed attempts while the clock is before the deadline, then a successful one (true) or a
    reading at or after the deadline (false); the answer true means that the caller holds the mutex now, false that it does
    not hold it (unless it did before). *)
Theorem timed_mutex_calls : forall ls s c,
  run tm_step tm_init ls = Some s -> no_relock (hist (mu s)) -> In c (fin s) ->
  tcall_ok RTrue RFalse c /\ holding (c_h1 c) (c_t c) = c_ans c || holding (c_h0 c) (c_t c).
Proof.
  intros ls s c Hr Hn Hc. destruct (ti_fin (tm_ti ls s Hr Hn) c Hc) as [A B]. split; [exact A|].
  apply m_answer; auto. apply (mop_eq OTry (c_o c)) in B. auto.
Qed.
Print Assumptions timed_mutex_calls.

(** false is never early: with try_lock_for(k) at least k has passed since the call. *)
Theorem timed_mutex_not_early : forall ls s c,
  run tm_step tm_init ls = Some s -> no_relock (hist (mu s)) -> In c (fin s) -> c_ans c = false ->
  match c_lim c with Until d => d <= c_end c | For k => c_start c + k <= c_end c end.
Proof.
  intros ls s c Hr Hn Hc Ha. destruct (timed_mutex_calls ls s c Hr Hn Hc) as [(es&_&H) _]. rewrite Ha in H.
  destruct H as (la&be&_&[A B]&_). unfold c_dl, deadline in A. destruct (c_lim c); lia.
Qed.
Print Assumptions timed_mutex_not_early.
Example timed_mutex_not_early_ex :
  option_map (fun s => map (fun c => (c_ans c, c_lim c)) (fin s)) (run tm_step tm_init tm_demo)
  = Some [(true, For 5); (false, Until 2)].
Proof. vm_compute. reflexivity. Qed.

(** It is still a mutex, with the same guarantees (C01-C03), timed calls included. *)
Theorem timed_mutex_is_mutex : forall ls s,
  run tm_step tm_init ls = Some s -> no_relock (hist (mu s)) ->
  mutex_linearizable (hist (mu s)) /\ unlock_results_ok (hist (mu s)) /\ line (hist (mu s)) <> None /\
  forall t u, holding (hist (mu s)) t = true -> holding (hist (mu s)) u = true -> t = u.
Proof.
  intros ls s Hr Hn. destruct (t_project m_laws init Logic.I ls Hr) as [ls' Hr'].
  split; [eapply MutexProps.mutex_is_linearizable; eauto|]. split; [eapply MutexProps.mutex_unlock_owner_only; eauto|].
  split; [eapply MutexProps.mutex_fifo_no_overtaking; eauto|].
  intros t u. eapply MutexProps.mutex_mutual_exclusion; eauto.
Qed.
Print Assumptions timed_mutex_is_mutex.

(** A coroutine inside a timed method is never parked and never in line; it can move, unless at this moment another coroutine is
    inside the spin lock, and that one can move. *)
Theorem timed_mutex_never_parks : forall ls s t c,
  run tm_step tm_init ls = Some s -> no_relock (hist (mu s)) -> frame_of (tp s t) = Some c ->
  waiting (mu s) t = false /\ ~ In t (q (mu s)) /\
  ((exists lb, own_lbl mutex_face t lb = true /\ tm_step s lb <> None) \/
   (spin (mu s) = true /\ exists v lb, v <> t /\ own_lbl mutex_face v lb = true /\ tm_step s lb <> None)).
Proof.
  intros ls s t c Hr Hn Hf. pose proof (tm_well ls s Hr Hn) as HI. pose proof (ti_pos (tm_ti ls s Hr Hn) t) as Hp.
  unfold pos in Hp.
  assert (Out : f_in mutex_face (mu s) t = None -> waiting (mu s) t = false /\ ~ In t (q (mu s))).
  { cbn. intros E. assert (Ei : pcs (mu s) t = Idle) by (destruct (pcs (mu s) t); cbn in E; congruence).
    pose proof (MutexProofs.i_loc _ HI t) as Hl. unfold MutexProofs.loc_ok in Hl. rewrite Ei in Hl. split; [exact Hl|].
    intros Hq. apply (MutexProofs.i_q _ HI) in Hq. rewrite Ei in Hq. intuition discriminate. }
  assert (Go : own_lbl mutex_face t (LGo t) = true) by (cbn; apply Nat.eqb_refl).
  destruct (tp s t) as [|c0|c0|c0|c0|c0 b] eqn:Et; cbn [frame_of] in Hf; try discriminate.
  - destruct Hp as [Hi _]. destruct (Out Hi) as [A B]. split; [exact A|]. split; [exact B|]. left. exists (LGo t).
    split; [exact Go|]. unfold tm_step. cbn [tstep]. rewrite Et.
    pose proof (@l_call_en _ _ _ _ _ _ _ _ _ _ _ m_laws (mu s) t (r_o c0) Hi) as En.
    destruct (f_step mutex_face (mu s) (f_call mutex_face t (r_o c0))); [discriminate|congruence].
  - destruct Hp as (Hi&Ht&_). apply (mop_eq OTry (r_o c0)) in Ht. cbn [mutex_face f_in] in Hi. rewrite <- Ht in Hi.
    destruct (m_no_block _ _ HI Hi) as (A&B&C). split; [exact A|]. split; [exact B|].
    destruct C as [C|(E&v&Hv&C)].
    + left. exists (LU (Run t false)). split; [exact Go|]. unfold tm_step. cbn [tstep mutex_face f_run f_step].
      specialize (C false). destruct (step (mu s) (Run t false)); [discriminate|congruence].
    + right. split; [exact E|]. exists v, (LU (Run v false)). split; [exact Hv|].
      split; [cbn; apply Nat.eqb_refl|]. unfold tm_step. cbn [tstep mutex_face f_run f_step].
      specialize (C false). destruct (step (mu s) (Run v false)); [discriminate|congruence].
  - destruct Hp as [Hi _]. destruct (Out Hi) as [A B]. split; [exact A|]. split; [exact B|]. left. exists (LGo t).
    split; [exact Go|]. unfold tm_step. cbn [tstep]. rewrite Et. cbn [mutex_face f_mark]. rewrite A. discriminate.
  - destruct Hp as [Hi _]. destruct (Out Hi) as [A B]. split; [exact A|]. split; [exact B|]. left. exists (LGo t).
    split; [exact Go|]. unfold tm_step. cbn [tstep]. rewrite Et. discriminate.
  - assert (Hi : f_in mutex_face (mu s) t = None) by (destruct b; apply Hp).
    destruct (Out Hi) as [A B]. split; [exact A|]. split; [exact B|]. left. exists (LGo t).
    split; [exact Go|]. unfold tm_step. cbn [tstep]. rewrite Et. discriminate.
Qed.
Print Assumptions timed_mutex_never_parks.

(** Once the deadline has passed the call returns after at most seven more steps of its caller (whatever the others do). *)
Theorem timed_mutex_returns_soon : forall ls s t c ls' s',
  run tm_step tm_init ls = Some s -> frame_of (tp s t) = Some c -> r_dl c <= clk s ->
  run tm_step s ls' = Some s' -> 7 <= length (filter (own_lbl mutex_face t) ls') -> done t s < done t s'.
Proof.
  intros ls s t c ls' s' Hr Hf Hd Hr' H7.
  assert (Hi : ins mutex_face top m_left s) by (eapply ins_reach with (u0 := init); eauto using m_laws, m_laws2; exact Logic.I).
  eapply soon; eauto using m_laws, m_laws2. pose proof (@budget_le _ _ _ _ _ mutex_face top m_left s t Hi). lia.
Qed.
Print Assumptions timed_mutex_returns_soon.
(** In [tm_demo] coroutine 3 starts after its deadline; it needs exactly seven steps. *)
Example timed_mutex_returns_soon_ex :
  let before := firstn 18 tm_demo in let after := firstn 7 (skipn 18 tm_demo) in
  option_map (fun s => (option_map (fun c => r_dl c) (frame_of (tp s 3)), clk s, done 3 s)) (run tm_step tm_init before)
    = Some (Some 2, 5, 0) /\
  length (filter (own_lbl mutex_face 3) after) = 7 /\
  option_map (fun s => done 3 s) (run tm_step tm_init (before ++ after)) = Some 1.
Proof. vm_compute. auto. Qed.

(** ** co_recursive_timed_mutex *)
Definition rgo (t : tid) (n : nat) : list (tlbl (slbl mop) mop) := repeat (LGo t) n.
Definition rrun (t : tid) (n : nat) : list (tlbl (slbl mop) mop) := repeat (LU (SRun t false)) n.
(** 1 locks, and again with try_lock_for(0); 2 tries until 4: fails, fails again, the deadline passes, false. *)
Definition tr_demo : list (tlbl (slbl mop) mop) :=
  [LU (SCall 1 OLock)] ++ rrun 1 3 ++ [LBegin 1 OTry (For 0)] ++ rgo 1 1 ++ rrun 1 3 ++ rgo 1 1 ++
  [LBegin 2 OTry (Until 4)] ++ rgo 2 1 ++ rrun 2 3 ++ rgo 2 2 ++ [LTick 4] ++ rgo 2 1 ++ rrun 2 3 ++ rgo 2 3.
Example tr_demo_ok :
  option_map (fun s => (view s, depth (fhist (mu s)) 1, depth (fhist (mu s)) 2)) (run tr_step tr_init tr_demo)
  = Some ([(2, false, 0, 4, [4; 0]); (1, true, 0, 0, [])], 2%N, 0%N) /\
  (forall s, run tr_step tr_init tr_demo = Some s -> shallow (fhist (mu s))).
Proof.
  split; [vm_compute; reflexivity|]. intros s H.
  assert (G : match run tr_step tr_init tr_demo with Some s' => shallow (fhist (mu s')) | None => False end).
  { vm_compute. repeat split. }
  now rewrite H in G.
Qed.

Lemma r_I0 : r_I rinit. Proof. intros t. exact Logic.I. Qed.
Lemma tr_under : forall ls s, run tr_step tr_init ls = Some s -> shallow (fhist (mu s)) ->
  exists a, R (mu s) a /\ RecMutexProofs.Inv a.
Proof.
  intros ls s Hr Hn. destruct (t_project r_laws rinit r_I0 ls Hr) as [ls' Hr']. eapply RecMutexProofs.rec_reach; eauto.
Qed.
Lemma tr_ti : forall ls s, run tr_step tr_init ls = Some s -> shallow (fhist (mu s)) ->
  TI rec_face mop_eqb mres_eqb RTrue RFalse r_I s.
Proof.
  intros ls s Hr Hn. eapply ti_reach with (u0 := rinit) (ls := ls); try exact r_laws; try exact r_I0; try reflexivity; auto.
  destruct (t_project r_laws rinit r_I0 ls Hr) as [ls' Hr'].
  pose proof (RecMutexProps.rec_mutex_linearizable ls' _ Hr' Hn) as [W _]. exact W.
Qed.

(** As for co_timed_mutex; here true means that the depth of the caller has grown by one. *)
Theorem timed_rec_mutex_calls : forall ls s c,
  run tr_step tr_init ls = Some s -> shallow (fhist (mu s)) -> In c (fin s) ->
  tcall_ok RTrue RFalse c /\ depth (c_h1 c) (c_t c) = (depth (c_h0 c) (c_t c) + if c_ans c then 1 else 0)%N.
Proof.
  intros ls s c Hr Hn Hc. destruct (ti_fin (tr_ti ls s Hr Hn) c Hc) as [A B]. split; [exact A|].
  apply r_answer; auto. apply (mop_eq OTry (c_o c)) in B. auto.
Qed.
Print Assumptions timed_rec_mutex_calls.

Theorem timed_rec_mutex_not_early : forall ls s c,
  run tr_step tr_init ls = Some s -> shallow (fhist (mu s)) -> In c (fin s) -> c_ans c = false ->
  match c_lim c with Until d => d <= c_end c | For k => c_start c + k <= c_end c end.
Proof.
  intros ls s c Hr Hn Hc Ha. destruct (timed_rec_mutex_calls ls s c Hr Hn Hc) as [(es&_&H) _]. rewrite Ha in H.
  destruct H as (la&be&_&[A B]&_). unfold c_dl, deadline in A. destruct (c_lim c); lia.
Qed.
Print Assumptions timed_rec_mutex_not_early.

Theorem timed_rec_mutex_is_mutex : forall ls s,
  run tr_step tr_init ls = Some s -> shallow (fhist (mu s)) ->
  rec_linearizable (fhist (mu s)) /\ rec_unlocks_ok (fhist (mu s)) /\ rline (fhist (mu s)) <> None /\
  forall t u, (0 < depth (fhist (mu s)) t)%N -> (0 < depth (fhist (mu s)) u)%N -> t = u.
Proof.
  intros ls s Hr Hn. destruct (t_project r_laws rinit r_I0 ls Hr) as [ls' Hr'].
  split; [eapply RecMutexProps.rec_mutex_linearizable; eauto|].
  split; [eapply RecMutexProps.rec_mutex_unlock_owner_only; eauto|].
  split; [eapply RecMutexProps.rec_mutex_fifo; eauto|].
  intros t u. eapply RecMutexProps.rec_mutex_exclusion; eauto.
Qed.
Print Assumptions timed_rec_mutex_is_mutex.

Theorem timed_rec_mutex_never_parks : forall ls s t c,
  run tr_step tr_init ls = Some s -> shallow (fhist (mu s)) -> frame_of (tp s t) = Some c ->
  fmark (mu s) t = false /\
  ((exists lb, own_lbl rec_face t lb = true /\ tr_step s lb <> None) \/
   (fspin (mu s) = true /\ exists v lb, v <> t /\ own_lbl rec_face v lb = true /\ tr_step s lb <> None)).
Proof.
  intros ls s t c Hr Hn Hf. destruct (tr_under ls s Hr Hn) as (a&HR&_).
  exact (s_stuck _ _ _ _ _ _ _ _ _ _ _ _ _ _ r_laws s a t c (tr_ti ls s Hr Hn) HR Hf).
Qed.
Print Assumptions timed_rec_mutex_never_parks.

Theorem timed_rec_mutex_returns_soon : forall ls s t c ls' s',
  run tr_step tr_init ls = Some s -> frame_of (tp s t) = Some c -> r_dl c <= clk s ->
  run tr_step s ls' = Some s' -> 7 <= length (filter (own_lbl rec_face t) ls') -> done t s < done t s'.
Proof.
  intros ls s t c ls' s' Hr Hf Hd Hr' H7.
  assert (Hi : ins rec_face r_I r_left s) by (eapply ins_reach with (u0 := rinit); eauto using r_laws, r_laws2, r_I0).
  eapply soon; eauto using r_laws, r_laws2. pose proof (@budget_le _ _ _ _ _ rec_face r_I r_left s t Hi). lia.
Qed.
Print Assumptions timed_rec_mutex_returns_soon.
(** 2 is at its test of the clock when the deadline 4 is reached. *)
Example timed_rec_mutex_returns_soon_ex :
  option_map (fun s => (option_map (fun c => r_dl c) (frame_of (tp s 2)), clk s, done 2 s, fmark (mu s) 2))
    (run tr_step tr_init (firstn 18 tr_demo)) = Some (Some 4, 4, 0, false) /\
  length (filter (own_lbl rec_face 2) (skipn 18 tr_demo)) = 7.
Proof. vm_compute. auto. Qed.

(** ** co_shared_timed_mutex *)
Definition sgo (t : tid) (n : nat) : list (tlbl (slbl sop) sop) := repeat (LGo t) n.
Definition srun (t : tid) (n : nat) (b : bool) : list (tlbl (slbl sop) sop) := repeat (LU (SRun t b)) n.
(** 1 holds in shared mode; 2 obtains shared mode with try_lock_shared_for(1); 3 fails to get exclusive mode until 0. *)
Definition ts_demo : list (tlbl (slbl sop) sop) :=
  [LU (SCall 1 SLock)] ++ srun 1 3 false ++ [LBegin 2 STry (For 1)] ++ sgo 2 1 ++ srun 2 3 false ++ sgo 2 1 ++
  [LBegin 3 WTry (Until 0)] ++ sgo 3 1 ++ srun 3 3 false ++ sgo 3 3.
Example ts_demo_ok :
  option_map (fun s => (view s, hold (fhist (mu s)) 2, hold (fhist (mu s)) 3)) (run ts_step ts_init ts_demo)
  = Some ([(3, false, 0, 0, [0]); (2, true, 0, 0, [])], Some false, None) /\
  (forall s, run ts_step ts_init ts_demo = Some s -> no_reacquire (fhist (mu s)) /\ unmixed (fhist (mu s))).
Proof.
  split; [vm_compute; reflexivity|]. intros s H. vm_compute in H. injection H as <-. split; [vm_compute; tauto|].
  vm_compute. intuition discriminate.
Qed.

Lemma s_I0 : s_I sinit. Proof. intros t. exact Logic.I. Qed.
Lemma ts_under : forall ls s, run ts_step ts_init ls = Some s -> no_reacquire (fhist (mu s)) -> unmixed (fhist (mu s)) ->
  exists a, R (mu s) a /\ SharedMutexProofs.Inv a.
Proof.
  intros ls s Hr Hn Hu. destruct (t_project sh_laws sinit s_I0 ls Hr) as [ls' Hr']. eapply SharedMutexProofs.sh_reach; eauto.
Qed.
Lemma ts_ti : forall ls s, run ts_step ts_init ls = Some s -> no_reacquire (fhist (mu s)) -> unmixed (fhist (mu s)) ->
  TI shared_face sop_eqb sres_eqb STrue SFalse s_I s.
Proof.
  intros ls s Hr Hn Hu. eapply ti_reach with (u0 := sinit) (ls := ls); try exact sh_laws; try exact s_I0; try reflexivity; auto.
  destruct (t_project sh_laws sinit s_I0 ls Hr) as [ls' Hr'].
  pose proof (SharedMutexProps.shared_mutex_linearizable_partial ls' _ Hr' Hn Hu) as [W _]. exact W.
Qed.

(** C74 is false because of the defect of co_shared_mutex (C06): 2 (shared), 3 (exclusive) and 4 (shared) park behind 1; the
    unlock() of 1 wakes 3 and 4 together and leaves 3 in the queue.  The unlock() of 3 throws, its unlock_shared() is accepted.
    During a later try_lock_until() of 3, which answers false, the release by 4 grants the mutex to 3 behind its back. *)
Definition ts_bad : list (tlbl (slbl sop) sop) :=
  map LU SharedMutexProps.bad_run ++
  [LU (SCall 3 WUnlock)] ++ srun 3 3 false ++ [LU (SCall 3 SUnlock)] ++ srun 3 3 false ++
  [LBegin 3 WTry (Until 0)] ++ sgo 3 1 ++
  [LU (SCall 4 SUnlock)] ++ srun 4 4 false ++
  srun 3 3 false ++ sgo 3 3.
Lemma prefix_is : forall A (es h0 h1 : list A), h1 = es ++ h0 -> es = firstn (length h1 - length h0) h1.
Proof.
  intros A es h0 h1 ->. rewrite app_length, Nat.add_sub, firstn_app, Nat.sub_diag, firstn_all. cbn. now rewrite app_nil_r.
Qed.
Theorem timed_shared_mutex_refuted : exists ls s c,
  run ts_step ts_init ls = Some s /\ no_reacquire (fhist (mu s)) /\ In c (fin s) /\ c_ans c = false /\
  ~ tcall_ok STrue SFalse c /\ sow (fdat (mu s)) = [c_t c].
Proof.
  exists ts_bad. destruct (run ts_step ts_init ts_bad) as [s|] eqn:E; [|vm_compute in E; discriminate].
  exists s. vm_compute in E. injection E as <-. eexists. split; [reflexivity|]. split; [vm_compute; tauto|].
  split; [left; reflexivity|]. split; [reflexivity|]. split; [|reflexivity].
  intros (es&E1&H). apply prefix_is in E1. subst es. vm_compute in H.
  destruct H as (la&be&E1&_&H&_). discriminate.
Qed.
Print Assumptions timed_shared_mutex_refuted.

(** C74 without the bad situation of C06. *)
Theorem timed_shared_mutex_calls_partial : forall ls s c,
  run ts_step ts_init ls = Some s -> no_reacquire (fhist (mu s)) -> unmixed (fhist (mu s)) -> In c (fin s) ->
  tcall_ok STrue SFalse c /\
  hold (c_h1 c) (c_t c) = (if c_ans c then Some (match c_o c with WTry => true | _ => false end) else hold (c_h0 c) (c_t c)).
Proof.
  intros ls s c Hr Hn Hu Hc. destruct (ti_fin (ts_ti ls s Hr Hn Hu) c Hc) as [A B]. split; [exact A|].
  now apply s_answer.
Qed.
Print Assumptions timed_shared_mutex_calls_partial.

Theorem timed_shared_mutex_not_early_partial : forall ls s c,
  run ts_step ts_init ls = Some s -> no_reacquire (fhist (mu s)) -> unmixed (fhist (mu s)) -> In c (fin s) -> c_ans c = false ->
  match c_lim c with Until d => d <= c_end c | For k => c_start c + k <= c_end c end.
Proof.
  intros ls s c Hr Hn Hu Hc Ha. destruct (timed_shared_mutex_calls_partial ls s c Hr Hn Hu Hc) as [(es&_&H) _].
  rewrite Ha in H. destruct H as (la&be&_&[A B]&_). unfold c_dl, deadline in A. destruct (c_lim c); lia.
Qed.
Print Assumptions timed_shared_mutex_not_early_partial.

Theorem timed_shared_mutex_is_mutex_partial : forall ls s,
  run ts_step ts_init ls = Some s -> no_reacquire (fhist (mu s)) -> unmixed (fhist (mu s)) ->
  rw_linearizable (fhist (mu s)) /\ rw_unlocks_ok (fhist (mu s)) /\ sline (fhist (mu s)) <> None /\
  forall t u b, hold (fhist (mu s)) t = Some true -> hold (fhist (mu s)) u = Some b -> u = t.
Proof.
  intros ls s Hr Hn Hu. destruct (t_project sh_laws sinit s_I0 ls Hr) as [ls' Hr'].
  split; [eapply SharedMutexProps.shared_mutex_linearizable_partial; eauto|].
  split; [eapply SharedMutexProps.shared_mutex_unlock_owner_only_partial; eauto|].
  split; [eapply SharedMutexProps.shared_mutex_line_partial; eauto|].
  intros t u b. eapply SharedMutexProps.shared_mutex_exclusion_partial; eauto.
Qed.
Print Assumptions timed_shared_mutex_is_mutex_partial.

Theorem timed_shared_mutex_never_parks_partial : forall ls s t c,
  run ts_step ts_init ls = Some s -> no_reacquire (fhist (mu s)) -> unmixed (fhist (mu s)) -> frame_of (tp s t) = Some c ->
  fmark (mu s) t = false /\
  ((exists lb, own_lbl shared_face t lb = true /\ ts_step s lb <> None) \/
   (fspin (mu s) = true /\ exists v lb, v <> t /\ own_lbl shared_face v lb = true /\ ts_step s lb <> None)).
Proof.
  intros ls s t c Hr Hn Hu Hf. destruct (ts_under ls s Hr Hn Hu) as (a&HR&_).
  exact (s_stuck _ _ _ _ _ _ _ _ _ _ _ _ _ _ sh_laws s a t c (ts_ti ls s Hr Hn Hu) HR Hf).
Qed.
Print Assumptions timed_shared_mutex_never_parks_partial.

(** This part holds in every execution. *)
Theorem timed_shared_mutex_returns_soon : forall ls s t c ls' s',
  run ts_step ts_init ls = Some s -> frame_of (tp s t) = Some c -> r_dl c <= clk s ->
  run ts_step s ls' = Some s' -> 7 <= length (filter (own_lbl shared_face t) ls') -> done t s < done t s'.
Proof.
  intros ls s t c ls' s' Hr Hf Hd Hr' H7.
  assert (Hi : ins shared_face s_I sh_left s) by (eapply ins_reach with (u0 := sinit); eauto using sh_laws, sh_laws2, s_I0).
  eapply soon; eauto using sh_laws, sh_laws2. pose proof (@budget_le _ _ _ _ _ shared_face s_I sh_left s t Hi). lia.
Qed.
Print Assumptions timed_shared_mutex_returns_soon.
Example timed_shared_mutex_returns_soon_ex :
  option_map (fun s => (option_map (fun c => r_dl c) (frame_of (tp s 3)), clk s, done 3 s, fmark (mu s) 3))
    (run ts_step ts_init (firstn 11 ts_demo)) = Some (Some 0, 0, 0, false) /\
  length (filter (own_lbl shared_face 3) (skipn 11 ts_demo)) = 7.
Proof. vm_compute. auto. Qed.
