(** C36, C37, C38, C40, C59, parts of C35 and C46, C66: the run queues of a thread.  [cfg] gives the configuration of each
    coroutine, [ls] is any interleaving of the thread with any number of calls of other threads. *)
From Coq Require Import List Arith Bool ZArith Lia.
From Verif Require Import Base SchedSpec SchedModel SchedProofs SchedHist SchedPick SchedRR.
Import ListNotations.

(** ** C36 *)
(** The coroutine picked is runnable, and no runnable coroutine has a smaller priority number, except those that a call
    still in progress has just added or released. *)
Theorem sched_priority : forall cfg ls s, run sstep_ok (sinit cfg) ls = Some s ->
  forall post c pre, shi s = post ++ VPick (Some c) :: pre ->
  runnable c pre /\ forall d, runnable d pre -> ~ busy d pre -> hprio c pre <= hprio d pre.
Proof.
  intros cfg ls s R post c pre E. destruct (hist_prefix _ _ _ R _ _ _ E) as (ls1&l&ls2&s1&s2&_&R1&S1&H1&H2).
  destruct (pinv_run _ _ _ R1) as (HI&HH&HP). rewrite <- H1 in *. destruct (ev_pick_some _ _ _ _ S1 H2) as (i&r&SC&CS).
  destruct (i_scn _ HI _ _ SC) as (MI&_&(l0&Q)&_).
  assert (Hc : loc (cx s1 c) = Here /\ pr (cx s1 c) = i) by (apply (i_q _ HI); rewrite Q; apply in_elt). destruct Hc as [Lc Pc].
  split; [apply (runnable_iff cfg); auto|]. intros d Rd Bd. apply (runnable_iff cfg) in Rd as [Ld Cd]; auto.
  rewrite (h_pr _ _ HH _ Lc), (h_pr _ _ HH _ Ld), Pc. destruct (le_lt_dec i (pr (cx s1 d))) as [|LT]; auto.
  destruct Bd. eapply pend_busy; eauto. eapply (p_scn _ HP); eauto.
Qed.
Print Assumptions sched_priority.

(** The thread goes idle only if nothing is runnable, again except what a call in progress has just added or released. *)
Theorem sched_idle : forall cfg ls s, run sstep_ok (sinit cfg) ls = Some s ->
  forall post pre, shi s = post ++ VPick None :: pre -> forall d, runnable d pre -> busy d pre.
Proof.
  intros cfg ls s R post pre E d Rd. destruct (hist_prefix _ _ _ R _ _ _ E) as (ls1&l&ls2&s1&s2&_&R1&S1&H1&H2).
  destruct (pinv_run _ _ _ R1) as (HI&HH&HP). rewrite <- H1 in *. destruct (ev_pick_none _ _ _ S1 H2) as (i&SC&GE).
  apply (runnable_iff cfg) in Rd as [Ld Cd]; auto. eapply pend_busy; eauto. eapply (p_scn _ HP); eauto.
  pose proof (i_pr _ HI d). destruct (Nat.eq_dec (pr (cx s1 d)) i); [right|left]; [auto|lia].
Qed.
Print Assumptions sched_idle.

Definition cfg0 (c : nat) : Z * bool * bool * bool := (Z.of_nat (10 * c), true, false, false).
Definition add (k c : nat) := [SetEnv k c; Push k; Upd1 k; Upd2 k].
Definition scan (n : nat) := PickB :: repeat PickS n.

(** Two coroutines: the more urgent one (1) waits, 2 runs; 1 is released; 1 runs; 2 gets priority 5 and runs. *)
Example sched_priority_ex : exists s,
  run sstep_ok (sinit cfg0) (add 0 1 ++ add 0 2 ++ scan 11 ++ [Enter 1 7] ++ scan 12 ++ [Leave 0 1 7; Upd1 0; Upd2 0]
                             ++ scan 1 ++ [Prio 2 5] ++ scan 1) = Some s /\
  pickl (shi s) = [2; 1; 2; 1] /\ ~ busy 1 (shi s) /\ runnable 1 (shi s).
Proof.
  eexists. split; [vm_compute; reflexivity|]. split; [reflexivity|]. split.
  - intros [k H]. cbn [shi at_work] in H. destruct k; discriminate.
  - split; [reflexivity|]. split; [reflexivity|]. intros x. cbn [shi waits]. destruct (Nat.eq_dec x 7) as [->|]; [reflexivity|].
    apply Nat.eqb_neq in n. rewrite n. reflexivity.
Qed.

(** The exception is needed: between the release of coroutine 1 and the end of the releasing call a less urgent coroutine
    can be picked. *)
Example sched_priority_busy_ex : exists s pre, run sstep_ok (sinit cfg0)
    (add 0 1 ++ add 0 2 ++ scan 11 ++ [Enter 1 7] ++ scan 12 ++ [Leave 0 1 7] ++ scan 1) = Some s /\
  shi s = VPick (Some 2) :: pre /\ member 1 pre = true /\ finished 1 pre = false /\ waits 1 7 pre = false /\ busy 1 pre.
Proof.
  eexists. eexists. split; [vm_compute; reflexivity|]. split; [reflexivity|]. split; [reflexivity|]. split; [reflexivity|].
  split; [reflexivity|]. exists 0. reflexivity.
Qed.

(** ** C37 *)
Lemma steady_overdue : forall c d W H, steady d W (VPick (Some c) :: H) -> ~ In (VPick (Some d)) W ->
  overdue c d (W ++ VPick (Some c) :: H).
Proof.
  intros c d W H. induction W as [|e W IH]; intros [S1 S2] N.
  - simpl. split; [apply (S1 [] []); auto|]. now rewrite Nat.eqb_refl.
  - assert (IH' : overdue c d (W ++ VPick (Some c) :: H)).
    { apply IH; [split|]; [|intros p X; apply (S2 p); now right|intros X; apply N; now right].
      intros m1 m2 X. apply (S1 (e :: m1) m2). now rewrite X. }
    change ((e :: W) ++ VPick (Some c) :: H) with (e :: (W ++ VPick (Some c) :: H)). simpl. split; [apply (S1 [] (e :: W)); auto|].
    destruct e as [| | | |x p| | |[x|]| |]; auto.
    + split; auto. intros ->. apply (S2 p). now left.
    + destruct (x =? c); auto. split; auto. intros ->. apply N. now left.
Qed.

Lemma add_fresh : forall cfg ls s, run sstep_ok (sinit cfg) ls = Some s ->
  forall post k d p pre, shi s = post ++ VAdd k d p :: pre -> member d pre = false.
Proof.
  intros cfg ls s R post k d p pre E. destruct (hist_prefix _ _ _ R _ _ _ E) as (ls1&l&ls2&s1&s2&_&R1&S1&H1&H2).
  destruct (hinv_run _ _ _ R1) as (HI&HH). rewrite <- H1 in *. rewrite (h_mem _ _ HH).
  unfold sstep_ok, sstep in S1. destruct l; dm S1; injection S1 as <-; cbn [shi setag setcx setq setmin setscn log do_pick do_idle] in H2;
  try (apply (f_equal (@length sev)) in H2; simpl in H2; lia); try discriminate.
  injection H2 as _ <- _. rewrite (i_set _ HI _ _ M). reflexivity.
Qed.

(** The priority does not change during a steady piece. *)
Lemma steady_prio : forall cfg ls s, run sstep_ok (sinit cfg) ls = Some s -> forall d W post H, shi s = post ++ W ++ H ->
  steady d W H -> hprio d (W ++ H) = hprio d H.
Proof.
  intros cfg ls s R d W. induction W as [|e W IH]; intros post H E [S1 S2]; auto.
  assert (IH' : hprio d (W ++ H) = hprio d H).
  { apply (IH (post ++ [e])); [rewrite <- app_assoc; auto|]. split; [|intros p X; apply (S2 p); now right].
    intros m1 m2 X. apply (S1 (e :: m1) m2). now rewrite X. }
  destruct e as [k x p| | | |x p| | | | |]; simpl; auto.
  - destruct (Nat.eqb_spec d x) as [<-|]; auto. exfalso.
    pose proof (add_fresh _ _ _ R post k d p (W ++ H) E) as F. destruct (S1 [VAdd k d p] W eq_refl) as [M _]. congruence.
  - destruct (Nat.eqb_spec d x) as [<-|]; auto. destruct (S2 p). now left.
Qed.

(** Between two picks of a coroutine every other one that stayed runnable at the same priority is picked. *)
Theorem round_robin : forall cfg ls s, run sstep_ok (sinit cfg) ls = Some s ->
  forall post W c d pre, shi s = post ++ VPick (Some c) :: W ++ VPick (Some c) :: pre -> c <> d ->
  steady d W (VPick (Some c) :: pre) -> hprio c (W ++ VPick (Some c) :: pre) = hprio d pre ->
  In (VPick (Some d)) W.
Proof.
  intros cfg ls s R post W c d pre E N S P.
  assert (D : In (VPick (Some d)) W \/ ~ In (VPick (Some d)) W).
  { destruct (In_dec (fun x y : sev => ltac:(repeat decide equality) : {x = y} + {x <> y}) (VPick (Some d)) W); auto. }
  destruct D as [D|D]; auto. exfalso. pose proof (steady_overdue _ _ _ _ S D) as O.
  eapply (rr_core cfg c d N ls s R post); eauto. rewrite P.
  rewrite (steady_prio _ _ _ R d W (post ++ [VPick (Some c)]) (VPick (Some c) :: pre)); auto. rewrite <- app_assoc. auto.
Qed.
Print Assumptions round_robin.

Lemma steady_sub : forall d a b W H, steady d (a ++ W ++ b) H -> steady d W (b ++ H).
Proof.
  intros d a b W H [S1 S2]. split.
  - intros m1 m2 ->. rewrite app_assoc. apply (S1 (a ++ m1) (m2 ++ b)). now rewrite <- !app_assoc.
  - intros p X. apply (S2 p). rewrite !in_app_iff. auto.
Qed.
Lemma pickl_in : forall c W, In (VPick (Some c)) W <-> In c (pickl W).
Proof.
  intros c W. induction W as [|e W IH]; simpl; [tauto|]. destruct e as [| | | | | | |[x|]| |]; simpl; rewrite <- IH; try (intuition congruence).
Qed.
Lemma pickl_app : forall a b, pickl (a ++ b) = pickl a ++ pickl b.
Proof. intros a b. induction a as [|e a IH]; simpl; auto. destruct e as [| | | | | | |[x|]| |]; simpl; auto. now f_equal. Qed.
Lemma pickl_split : forall W l1 c l2, pickl W = l1 ++ c :: l2 -> exists a b, W = a ++ VPick (Some c) :: b /\ pickl a = l1 /\ pickl b = l2.
Proof.
  induction W as [|e W IH]; intros l1 c l2 E; [destruct l1; discriminate|].
  assert (K : (exists x, e = VPick (Some x)) \/ pickl (e :: W) = pickl W).
  { destruct e as [| | | | | | |[x|]| |]; simpl; eauto. }
  destruct K as [(x&->)|K].
  - simpl in E. destruct l1 as [|y l1]; simpl in E; injection E as -> E.
    + exists [], W. auto.
    + destruct (IH _ _ _ E) as (a&b&->&A&B). exists (VPick (Some y) :: a), b. simpl. rewrite A. auto.
  - rewrite K in E. destruct (IH _ _ _ E) as (a&b&->&A&B). exists (e :: a), b. split; auto. split; auto.
    clear -K A. destruct e as [| | | | | | |[x|]| |]; simpl in *; auto. apply (f_equal (@length nat)) in K. simpl in K. lia.
Qed.

Ltac ap := repeat (rewrite <- ?app_assoc; simpl).

(** If both stay runnable at the same priority, exactly once. *)
Theorem round_robin_once : forall cfg ls s, run sstep_ok (sinit cfg) ls = Some s ->
  forall post W c d pre, shi s = post ++ VPick (Some c) :: W ++ VPick (Some c) :: pre -> c <> d ->
  steady d W (VPick (Some c) :: pre) -> steady c W (VPick (Some c) :: pre) -> hprio c pre = hprio d pre ->
  ~ In (VPick (Some c)) W -> picks d W = 1.
Proof.
  intros cfg ls s R post W c d pre E N Sd Sc P NC.
  assert (EC : forall m1 m2, W = m1 ++ m2 -> hprio c (m2 ++ VPick (Some c) :: pre) = hprio c pre /\
                                             hprio d (m2 ++ VPick (Some c) :: pre) = hprio d pre).
  { intros m1 m2 ->. assert (X : forall e, steady e (m1 ++ m2) (VPick (Some c) :: pre) ->
      hprio e (m2 ++ VPick (Some c) :: pre) = hprio e (VPick (Some c) :: pre)).
    { intros e Se. apply (steady_prio _ _ _ R e m2 (post ++ VPick (Some c) :: m1)); [rewrite E; ap; reflexivity|].
      apply (steady_sub e m1 [] m2). now rewrite app_nil_r. }
    split; apply X; auto. }
  destruct (EC [] W eq_refl) as [EC1 _].
  pose proof (round_robin _ _ _ R post W c d pre E N Sd ltac:(congruence)) as I.
  assert (C : picks d W = count_occ Nat.eq_dec (pickl W) d).
  { clear. induction W as [|e W IH]; auto. destruct e as [| | | | | | |[x|]| |]; simpl; auto.
    destruct (Nat.eqb_spec d x), (Nat.eq_dec x d); try congruence; lia. }
  rewrite C. apply pickl_in in I. apply in_split in I as (l1&l2&L). rewrite L.
  destruct (pickl_split _ _ _ _ L) as (a&b&WE&La&Lb).
  (* a second pick of d, later or earlier, would need a pick of c in between *)
  assert (Na : ~ In d l1).
  { intros X. rewrite <- La in X. apply in_split in X as (u&v&X). destruct (pickl_split _ _ _ _ X) as (a1&a2&->&_).
    rewrite <- app_assoc in WE. simpl in WE. assert (EQ : shi s = (post ++ VPick (Some c) :: a1) ++ VPick (Some d) :: a2 ++ VPick (Some d) :: (b ++ VPick (Some c) :: pre)).
    { rewrite E, WE. ap. reflexivity. }
    assert (Q : In (VPick (Some c)) a2).
    { eapply (round_robin _ _ _ R _ a2 d c _ EQ); auto.
      - rewrite WE in Sc. apply (steady_sub c (a1 ++ [VPick (Some d)]) (VPick (Some d) :: b) a2). rewrite <- app_assoc. exact Sc.
      - destruct (EC (a1 ++ [VPick (Some d)]) (a2 ++ VPick (Some d) :: b)) as [_ X1]; [rewrite WE; ap; reflexivity|].
        destruct (EC (a1 ++ VPick (Some d) :: a2 ++ [VPick (Some d)]) b) as [X2 _]; [rewrite WE; ap; reflexivity|].
        revert X1; ap; congruence. }
    apply NC. rewrite WE, in_app_iff. right. right. rewrite in_app_iff. auto. }
  assert (Nb : ~ In d l2).
  { intros X. rewrite <- Lb in X. apply in_split in X as (u&v&X). destruct (pickl_split _ _ _ _ X) as (a1&a2&->&_).
    assert (EQ : shi s = (post ++ VPick (Some c) :: a) ++ VPick (Some d) :: a1 ++ VPick (Some d) :: (a2 ++ VPick (Some c) :: pre)).
    { rewrite E, WE. ap. reflexivity. }
    assert (Q : In (VPick (Some c)) a1).
    { eapply (round_robin _ _ _ R _ a1 d c _ EQ); auto.
      - rewrite WE in Sc. apply (steady_sub c (a ++ [VPick (Some d)]) (VPick (Some d) :: a2) a1). rewrite <- app_assoc. exact Sc.
      - destruct (EC (a ++ [VPick (Some d)]) (a1 ++ VPick (Some d) :: a2)) as [_ X1]; [rewrite WE; ap; reflexivity|].
        destruct (EC (a ++ VPick (Some d) :: a1 ++ [VPick (Some d)]) a2) as [X2 _]; [rewrite WE; ap; reflexivity|].
        revert X1; ap; congruence. }
    apply NC. rewrite WE, in_app_iff. right. right. rewrite in_app_iff. auto. }
  rewrite count_occ_app. simpl. destruct (Nat.eq_dec d d); [|congruence].
  apply (count_occ_not_In Nat.eq_dec) in Na, Nb. lia.
Qed.
Print Assumptions round_robin_once.

Lemma nodup_split : forall l : list nat, NoDup l \/ exists c l1 l2 l3, l = l1 ++ c :: l2 ++ c :: l3.
Proof.
  induction l as [|a l [IH|(c&l1&l2&l3&->)]]; [left; constructor| |right].
  - destruct (in_dec Nat.eq_dec a l) as [I|I]; [right|left; now constructor].
    apply in_split in I as (l1&l2&->). exists a, [], l1, l2. reflexivity.
  - exists c, (a :: l1), l2, l3. reflexivity.
Qed.

(** With n coroutines taking turns, each of them runs within n decisions. *)
Theorem round_robin_n : forall cfg ls s, run sstep_ok (sinit cfg) ls = Some s ->
  forall post W pre L p, shi s = post ++ W ++ pre -> NoDup L ->
  (forall c, In c L -> steady c W pre /\ hprio c pre = p) -> (forall c, In (VPick (Some c)) W -> In c L) ->
  length L <= length (pickl W) -> forall d, In d L -> In (VPick (Some d)) W.
Proof.
  intros cfg ls s R post W pre L p E NL SL PL LEN d D.
  destruct (in_dec Nat.eq_dec d (pickl W)) as [I|I]; [now apply pickl_in|]. exfalso.
  destruct (nodup_split (pickl W)) as [ND|(c&l1&l2&l3&X)].
  - assert (Y : length (d :: pickl W) <= length L).
    { apply NoDup_incl_length; [now constructor|]. intros x [<-|H]; auto. apply PL, pickl_in. auto. }
    simpl in Y. lia.
  - destruct (pickl_split _ _ _ _ X) as (a&r&->&A1&A2). destruct (pickl_split _ _ _ _ A2) as (b&e&->&B1&B2).
    assert (EQ : shi s = (post ++ a) ++ VPick (Some c) :: b ++ VPick (Some c) :: (e ++ pre)).
    { rewrite E. ap. reflexivity. }
    assert (Lc : In c L) by (apply PL; rewrite in_app_iff; simpl; auto).
    destruct (SL _ Lc) as [Sc Pc]. destruct (SL _ D) as [Sd Pd].
    assert (Ncd : c <> d). { intros ->. apply I. rewrite X, in_app_iff. simpl. auto. }
    assert (HP : forall x m1 m2, steady x (m1 ++ m2) pre -> a ++ VPick (Some c) :: b ++ VPick (Some c) :: e = m1 ++ m2 -> hprio x (m2 ++ pre) = hprio x pre).
    { intros x m1 m2 S EQ2. apply (steady_prio _ _ _ R x m2 (post ++ m1)); [rewrite E, EQ2, <- !app_assoc; auto|].
      apply (steady_sub x m1 [] m2). now rewrite app_nil_r. }
    assert (Q : In (VPick (Some d)) b).
    { apply (round_robin _ _ _ R _ b c d _ EQ Ncd).
      - apply (steady_sub d (a ++ [VPick (Some c)]) (VPick (Some c) :: e) b). rewrite <- app_assoc. exact Sd.
      - pose proof (HP c (a ++ [VPick (Some c)]) (b ++ VPick (Some c) :: e)) as X1. rewrite <- !app_assoc in X1. simpl in X1.
        pose proof (HP d (a ++ VPick (Some c) :: b ++ [VPick (Some c)]) e) as X2. rewrite <- !app_assoc in X2. simpl in X2. rewrite <- !app_assoc in X2. simpl in X2.
        rewrite X1, X2; auto. congruence. }
    apply I, pickl_in. rewrite in_app_iff. right. right. rewrite in_app_iff. auto.
Qed.
Print Assumptions round_robin_n.

Definition cfg1 (c : nat) : Z * bool * bool * bool := (3%Z, true, false, false).
Example round_robin_ex : exists s pre,
  run sstep_ok (sinit cfg1) (add 0 1 ++ add 0 2 ++ add 0 3 ++ scan 4 ++ scan 1 ++ scan 1 ++ scan 1 ++ scan 1) = Some s /\
  shi s = [VPick (Some 2)] ++ VPick (Some 1) :: [VPick (Some 3); VPick (Some 2)] ++ VPick (Some 1) :: pre /\
  steady 2 [VPick (Some 3); VPick (Some 2)] (VPick (Some 1) :: pre) /\ hprio 1 pre = hprio 2 pre.
Proof.
  eexists. eexists. split; [vm_compute; reflexivity|]. split; [reflexivity|]. split; [|reflexivity].
  split; [|intros p [H|[H|[]]]; discriminate]. intros m1 m2 E.
  destruct m1 as [|? [|? [|? m1]]]; simpl in E; inversion E; subst; (split; [reflexivity|split; [reflexivity|intros; reflexivity]]).
Qed.

(** ** C38 *)
(** A coroutine is not picked while it waits for anything; that it is picked once it waits for nothing is C36. *)
Theorem wait_set_respected : forall cfg ls s, run sstep_ok (sinit cfg) ls = Some s ->
  forall post c pre, shi s = post ++ VPick (Some c) :: pre -> forall x, waits c x pre = false.
Proof. intros cfg ls s R post c pre E. apply (proj1 (sched_priority _ _ _ R _ _ _ E)). Qed.
Print Assumptions wait_set_respected.

(** A coroutine that waits for nothing and whose last release has returned is passed over only in favour of coroutines that
    are as urgent. *)
Theorem wait_set_released : forall cfg ls s, run sstep_ok (sinit cfg) ls = Some s ->
  forall post o pre d, shi s = post ++ VPick o :: pre -> member d pre = true -> finished d pre = false ->
  (forall x, waits d x pre = false) -> (forall k, at_work k d pre = false) ->
  exists c, o = Some c /\ hprio c pre <= hprio d pre.
Proof.
  intros cfg ls s R post o pre d E M F W A. assert (Rn : runnable d pre) by (split; auto).
  assert (NB : ~ busy d pre) by (intros [k B]; rewrite A in B; discriminate).
  destruct o as [c|].
  - exists c. split; auto. now apply (sched_priority _ _ _ R _ _ _ E).
  - destruct NB. eapply sched_idle; eauto.
Qed.
Print Assumptions wait_set_released.

(** Releasing a resource the coroutine does not wait for changes nothing about it. *)
Theorem wait_release_other : forall cfg ls s, run sstep_ok (sinit cfg) ls = Some s ->
  forall k c r s', sstep_ok s (Leave k c r) = Some s' -> waits c r (shi s) = false -> cx s' c = cx s c.
Proof.
  intros cfg ls s R k c r s' E W. destruct (hinv_run _ _ _ R) as [HI HH]. rewrite (h_w _ _ HH) in W.
  unfold sstep_ok, sstep in E. dm E; injection E as <-. hs. rewrite upd_same. unfold leave_w.
  assert (X : filter (fun y => negb (r =? y)) (wset (cx s c)) = wset (cx s c)).
  { apply (rm_notin r). intros I. apply existsb_in in I. congruence. }
  rewrite X. pose proof (i_w _ HI c) as Y. destruct (cx s c) as [p t w f l b h o]. cbn [pr stt wset wflag lockd bnd shr loc] in *. subst f.
  destruct w; reflexivity.
Qed.
Print Assumptions wait_release_other.
(** Coroutine 1 waits for two resources; it runs only after both are released. *)
Example wait_set_ex : exists s,
  run sstep_ok (sinit cfg0) (add 0 1 ++ add 0 2 ++ [Enter 1 7; Enter 1 8; Leave 0 1 7; Upd1 0; Leave 0 1 9; Upd1 0] ++ scan 22 ++ [Leave 0 1 8; Upd1 0; Upd2 0] ++ scan 1) = Some s
  /\ pickl (shi s) = [1; 2].
Proof. eexists. split; vm_compute; reflexivity. Qed.

(** ** C40 *)
(** Every member of the thread is in exactly one queue, once, the one of its current priority; nothing else is queued. *)
Theorem sched_conservation : forall cfg ls s, run sstep_ok (sinit cfg) ls = Some s ->
  (forall c i, In c (qs s i) <-> member c (shi s) = true /\ hprio c (shi s) = i) /\ (forall i, NoDup (qs s i)).
Proof.
  intros cfg ls s R. destruct (hinv_run _ _ _ R) as [HI HH]. split; [|apply (i_nd _ HI)]. intros c i.
  rewrite (i_q _ HI), (h_mem _ _ HH). split.
  - intros [L P]. rewrite (h_pr _ _ HH _ L), L. auto.
  - intros [L P]. assert (L' : loc (cx s c) = Here) by (destruct (loc (cx s c)); simpl in L; congruence).
    rewrite (h_pr _ _ HH _ L') in P. auto.
Qed.
Print Assumptions sched_conservation.

(** The reported workload (ctx_count__) is the number of members. *)
Theorem sched_workload : forall cfg ls s, run sstep_ok (sinit cfg) ls = Some s ->
  exists l, NoDup l /\ (forall c, In c l <-> member c (shi s) = true) /\ length l = count s.
Proof.
  intros cfg ls s R. destruct (hinv_run _ _ _ R) as [HI HH]. destruct (i_cnt _ HI) as (l&A&B&C). exists l. split; auto. split; auto.
  intros c. rewrite B, (h_mem _ _ HH). destruct (loc (cx s c)); simpl; split; congruence.
Qed.
Print Assumptions sched_workload.

(** A coroutine taken away is a member, neither bound nor on a shared stack, neither finished nor the running one. *)
Theorem sched_takes : forall cfg ls s, run sstep_ok (sinit cfg) ls = Some s ->
  forall post c pre, shi s = post ++ VTake c :: pre ->
  member c pre = true /\ finished c pre = false /\ current pre <> Some c /\ snd (fst (cfg c)) = false /\ snd (cfg c) = false.
Proof.
  intros cfg ls s R post c pre E. destruct (hist_prefix _ _ _ R _ _ _ E) as (ls1&l&ls2&s1&s2&_&R1&S1&H1&H2).
  destruct (hinv_run _ _ _ R1) as (HI&HH). rewrite <- H1 in *.
  assert (X : exists i, In c (qs s1 i) /\ can_move (cx s1 c) = true).
  { unfold sstep_ok, sstep in S1. destruct l; dm S1; injection S1 as <-; cbn [shi setag setcx setq setmin setscn log do_pick do_idle] in H2;
    try (apply (f_equal (@length sev)) in H2; simpl in H2; lia); try discriminate.
    injection H2 as <-. apply scan_mv_some in M0 as (_&_&A&B). eauto. }
  destruct X as (i&Q&CM). apply (i_q _ HI) in Q as [L P]. unfold can_move in CM. destruct (stt (cx s1 c)) eqn:T; try discriminate.
  apply negb_true_iff, orb_false_iff in CM as [B1 B2]. destruct (h_cfg _ _ HH c) as [C1 C2].
  rewrite (h_mem _ _ HH), (h_fin _ _ HH), (h_cur _ _ HH), L, T. repeat split; try congruence.
  intros X. apply (i_cur _ HI) in X. destruct X; congruence.
Qed.
Print Assumptions sched_takes.

(** The search finds a coroutine whenever there is one it may take at or behind the level where it starts, and none of a
    better level is passed over. *)
Theorem sched_take_finds : forall cfg ls s c, run sstep_ok (sinit cfg) ls = Some s -> unlocked s = true ->
  member c (shi s) = true -> finished c (shi s) = false -> current (shi s) <> Some c -> pnd s <> Some c ->
  snd (fst (cfg c)) = false -> snd (cfg c) = false -> minp s <= pr (cx s c) ->
  exists d s', sstep_ok s Take = Some s' /\ shi s' = VTake d :: shi s /\ pr (cx s d) <= pr (cx s c).
Proof.
  intros cfg ls s c R U M F C P B1 B2 L. destruct (hinv_run _ _ _ R) as (HI&HH).
  rewrite (h_mem _ _ HH) in M. rewrite (h_fin _ _ HH) in F. rewrite (h_cur _ _ HH) in C. destruct (h_cfg _ _ HH c) as [C1 C2].
  assert (LC : loc (cx s c) = Here) by (destruct (loc (cx s c)); simpl in M; congruence).
  assert (CM : can_move (cx s c) = true).
  { unfold can_move. destruct (stt (cx s c)) eqn:T; [rewrite C1, C2, B1, B2; reflexivity| |discriminate].
    exfalso. destruct (i_run _ HI _ LC T); contradiction. }
  assert (Q : In c (qs s (pr (cx s c)))) by (apply (i_q _ HI); auto).
  assert (S : exists j d, scan_mv (cx s) (qs s) (minp s) (nprio - minp s) = Some (j, d) /\ j <= pr (cx s c)).
  { pose proof (i_pr _ HI c) as LT. assert (X : pr (cx s c) < minp s + (nprio - minp s)) by lia. clear LT.
    revert X L. generalize (minp s) as i, (nprio - minp s) as n. intros i n. revert i.
    induction n as [|n IH]; intros i X L; [lia|]. cbn [scan_mv]. destruct (find _ (qs s i)) as [d|] eqn:E; [eauto|].
    destruct (Nat.eq_dec i (pr (cx s c))) as [-> |N]; [|apply IH; lia]. eapply find_none in E; eauto. congruence. }
  destruct S as (j&d&S&J). pose proof (scan_mv_some _ _ _ _ _ _ S) as (_&_&Qd&_). apply (i_q _ HI) in Qd as [_ Pd].
  exists d. unfold sstep_ok. cbn [sstep]. rewrite U, S. eexists. split; [reflexivity|]. split; [reflexivity|]. lia.
Qed.
Print Assumptions sched_take_finds.

Example sched_take_ex : exists s,
  run sstep_ok (sinit cfg0) (add 0 1 ++ add 1 2 ++ scan 11 ++ [Prio 2 7; Take; Depart 2; SetEnv 1 2; Push 1]) = Some s /\
  member 2 (shi s) = true /\ count s = 2 /\ qs s 7 = [2] /\ qs s 20 = [].
Proof. eexists. split; [vm_compute; reflexivity|]. repeat split. Qed.

(** ** C35 (the part of the run queues) *)
(** A coroutine is destroyed only once, after it has finished, after the last handle has let go of it, and not while it is
    the running one. *)
Theorem sched_reap_partial : forall cfg ls s, run sstep_ok (sinit cfg) ls = Some s ->
  forall post c pre, shi s = post ++ VReap c :: pre ->
  finished c pre = true /\ current pre <> Some c /\ (snd (fst (fst (cfg c))) = true -> In (VDet c) pre) /\ ~ In (VReap c) pre.
Proof.
  intros cfg ls s R post c pre E. destruct (hist_prefix _ _ _ R _ _ _ E) as (ls1&l&ls2&s1&s2&_&R1&S1&H1&H2).
  destruct (hinv_run _ _ _ R1) as (HI&HH). rewrite <- H1 in *.
  assert (X : loc (cx s1 c) = Here /\ stt (cx s1 c) = Fin /\ lockd (cx s1 c) = false /\ cur s1 <> Some c).
  { unfold sstep_ok, sstep in S1. destruct l; try (dm S1; injection S1 as <-; cbn [shi setag setcx setq setmin setscn log do_pick do_idle] in H2;
    try (apply (f_equal (@length sev)) in H2; simpl in H2; lia); try discriminate; fail).
    destruct (loc (cx s1 c0)) eqn:L; try discriminate. destruct (stt (cx s1 c0)) eqn:T; try discriminate.
    destruct (_ && _) eqn:G; [|discriminate]. injection S1 as <-. cbn [shi setcx setq log] in H2. injection H2 as <-.
    apply andb_true_iff in G as [G1 G2]. apply andb_true_iff in G1 as [_ G1]. apply negb_true_iff in G1. repeat split; auto.
    intros X. rewrite X, Nat.eqb_refl in G2. discriminate. }
  destruct X as (L&T&K&C). rewrite (h_fin _ _ HH), (h_cur _ _ HH), T. split; auto. split; auto. split.
  - intros Q. destruct (h_lck _ _ HH _ K); auto. congruence.
  - intros X. apply (h_dead _ _ HH) in X. congruence.
Qed.
Print Assumptions sched_reap_partial.
(** And it is: once finished, let go of and not the running one, nothing but a scheduling decision in progress keeps the
    clean-up from destroying it. *)
Lemma det_unlocked : forall cfg ls s, run sstep_ok (sinit cfg) ls = Some s ->
  forall c, snd (fst (fst (cfg c))) = false \/ In (VDet c) (shi s) -> lockd (cx s c) = false.
Proof.
  intros cfg ls s R. set (I := fun s : sst => forall c, snd (fst (fst (cfg c))) = false \/ In (VDet c) (shi s) -> lockd (cx s c) = false).
  change (I s). revert R. apply run_inv; unfold I; clear.
  - intros c [H|[]]. unfold sinit, fresh_cx. cbn [cx]. destruct (cfg c) as [[[? ?] ?] ?]. exact H.
  - intros s1 l s2 IH E c H. pose proof (IH c) as G. assert (D : forall x t, lockd (set_stt x t) = lockd x) by (intros x t; unfold set_stt; destruct (stt x); reflexivity).
    unfold sstep_ok, sstep, do_pick, do_idle in E. dm E; injection E as <-; cbn [cx shi setcx setag setq setmin setscn log] in *;
      unfold upd; repeat match goal with |- context [if ?x =? ?y then _ else _] => destruct (Nat.eqb_spec x y); subst end;
      rewrite ?D; cbn [lockd set_loc set_pr enter_w leave_w unlock_d]; auto;
      try (apply G; destruct H as [H|H]; [now left|]; cbn [In] in H; destruct H as [H|H]; [discriminate|now right]);
      try (apply G; destruct H as [H|H]; [now left|]; cbn [In] in H; destruct H as [H|H]; [congruence|now right]).
Qed.
Theorem sched_reap_enabled : forall cfg ls s c, run sstep_ok (sinit cfg) ls = Some s -> running s = true ->
  member c (shi s) = true -> finished c (shi s) = true -> current (shi s) <> Some c ->
  snd (fst (fst (cfg c))) = false \/ In (VDet c) (shi s) ->
  exists s', sstep_ok s (Reap c) = Some s' /\ shi s' = VReap c :: shi s /\ member c (shi s') = false.
Proof.
  intros cfg ls s c R U M F C L. pose proof (det_unlocked _ _ _ R c L) as K. destruct (hinv_run _ _ _ R) as (HI&HH).
  rewrite (h_mem _ _ HH) in M. rewrite (h_fin _ _ HH) in F. rewrite (h_cur _ _ HH) in C.
  assert (LC : loc (cx s c) = Here) by (destruct (loc (cx s c)); simpl in M; congruence).
  assert (ST : stt (cx s c) = Fin) by (destruct (stt (cx s c)); simpl in F; congruence).
  unfold sstep_ok. cbn [sstep]. rewrite LC, ST, U, K. cbn [negb andb].
  assert (X : match cur s with Some d => negb (c =? d) | None => true end = true).
  { destruct (cur s) as [d|]; auto. apply negb_true_iff, Nat.eqb_neq. congruence. }
  rewrite X. eexists. split; [reflexivity|]. split; [reflexivity|]. cbn [shi log setcx setq member]. now rewrite Nat.eqb_refl.
Qed.
Print Assumptions sched_reap_enabled.
Example sched_reap_ex : exists s,
  run sstep_ok (sinit cfg0) (add 0 1 ++ scan 11 ++ [Finish; Unlock 1] ++ scan 91 ++ [Mark; Reap 1]) = Some s /\ count s = 0 /\
  hd_error (shi s) = Some (VReap 1).
Proof. eexists. split; [vm_compute; reflexivity|]. split; reflexivity. Qed.

(** ** C59 *)
(** A coroutine that has finished is never picked or taken again and does not finish twice. *)
Theorem finished_final : forall cfg ls s, run sstep_ok (sinit cfg) ls = Some s ->
  forall post c pre, shi s = post ++ VFin c :: pre ->
  finished c pre = false /\ ~ In (VPick (Some c)) post /\ ~ In (VTake c) post /\ ~ In (VFin c) post.
Proof.
  intros cfg ls s R post c pre E.
  assert (FM : forall a b, finished c b = true -> finished c (a ++ b) = true).
  { intros a b H. induction a as [|e a IH]; auto. destruct e; simpl; auto. rewrite IH. apply orb_true_r. }
  assert (FP : forall a e b, post = a ++ e :: b -> finished c (b ++ VFin c :: pre) = true).
  { intros a e b _. apply FM. simpl. now rewrite Nat.eqb_refl. }
  assert (VF : forall a b, shi s = a ++ VFin c :: b -> finished c b = false).
  { intros a b X. destruct (hist_prefix _ _ _ R _ _ _ X) as (ls1&l&ls2&s1&s2&_&R1&S1&H1&H2).
    destruct (hinv_run _ _ _ R1) as (HI&HH). rewrite <- H1 in *. rewrite (h_fin _ _ HH).
    unfold sstep_ok, sstep in S1. destruct l; dm S1; injection S1 as <-; cbn [shi setag setcx setq setmin setscn log do_pick do_idle] in H2;
    try (apply (f_equal (@length sev)) in H2; simpl in H2; lia); try discriminate; injection H2 as <-; now rewrite ?M0, ?M. }
  split; [eauto|]. split; [|split]; intros X; apply in_split in X as (a&b&->); rewrite <- app_assoc in E; simpl in E.
  - destruct (sched_priority _ _ _ R _ _ _ E) as [(_&F&_) _]. rewrite (FP a _ b eq_refl) in F. discriminate.
  - destruct (sched_takes _ _ _ R _ _ _ E) as (_&F&_). rewrite (FP a _ b eq_refl) in F. discriminate.
  - apply VF in E. rewrite (FP a _ b eq_refl) in E. discriminate.
Qed.
Print Assumptions finished_final.

(** ... and its state stays finished. *)
Theorem finished_state_final : forall cfg ls s, run sstep_ok (sinit cfg) ls = Some s -> forall c, stt (cx s c) = Fin ->
  forall ls' s', run sstep_ok s ls' = Some s' -> stt (cx s' c) = Fin.
Proof.
  intros cfg ls s R c T ls' s' R'. pose proof (hinv_run _ _ _ R) as [_ HH].
  assert (R2 : run sstep_ok (sinit cfg) (ls ++ ls') = Some s') by (rewrite run_app, R; auto).
  pose proof (hinv_run _ _ _ R2) as [_ HH']. pose proof (h_fin _ _ HH c) as F. rewrite T in F. simpl in F.
  assert (M : forall ls' s s', run sstep_ok s ls' = Some s' -> finished c (shi s) = true -> finished c (shi s') = true).
  { clear. induction ls' as [|l ls' IH]; intros s s' R F; simpl in R; [injection R as <-; auto|].
    destruct (sstep_ok s l) as [s1|] eqn:E; [|discriminate]. apply (IH s1 s' R).
    assert (Y : shi s1 = shi s \/ exists f, shi s1 = f :: shi s).
    { clear -E. unfold sstep_ok, sstep in E. destruct l; dm E; injection E as <-; hs; eauto. }
    destruct Y as [-> |(f&->)]; auto. destruct f; simpl; auto. rewrite F. apply orb_true_r. }
  pose proof (M _ _ _ R' F) as F'. rewrite (h_fin _ _ HH' c) in F'. destruct (stt (cx s' c)); simpl in F'; congruence.
Qed.
Print Assumptions finished_state_final.
Example finished_ex : exists s,
  run sstep_ok (sinit cfg1) (add 0 1 ++ add 0 2 ++ scan 4 ++ [Finish] ++ scan 1) = Some s /\ stt (cx s 1) = Fin /\
  shi s = [VPick (Some 2)] ++ VFin 1 :: tl (tl (shi s)).
Proof. eexists. split; [vm_compute; reflexivity|]. split; reflexivity. Qed.

(** ** C46 (calls of other threads) *)
(** A thread that adds a detached coroutine reads its priority after the coroutine may have run, finished and been
    destroyed (co_env.cpp 93 after 89). *)
Definition cfgd (c : nat) : Z * bool * bool * bool := (0%Z, false, false, false).
Theorem sched_add_freed_refuted : exists cfg ls s k, run sstep_ok (sinit cfg) ls = Some s /\ sstep s (Upd1 k) = Some SFreed.
Proof.
  exists cfgd, ([SetEnv 0 1; Push 0] ++ scan 1 ++ [Finish] ++ scan 101 ++ [Mark; Reap 1]). eexists. exists 0.
  split; vm_compute; reflexivity.
Qed.
Print Assumptions sched_add_freed_refuted.
(** The same for a thread that releases the last resource of a detached coroutine (co_ctx.cpp 202 after 199). *)
Theorem sched_wake_freed_refuted : exists cfg ls s k, run sstep_ok (sinit cfg) ls = Some s /\
  ag s k = ALeft 1 /\ sstep s (Upd1 k) = Some SFreed.
Proof.
  exists cfgd, (add 0 1 ++ scan 1 ++ [Enter 1 7] ++ scan 101 ++ [Mark; Leave 0 1 7] ++ scan 1 ++ [Finish] ++ scan 101 ++ [Mark; Reap 1]).
  eexists. exists 0. split; [|split]; vm_compute; reflexivity.
Qed.
Print Assumptions sched_wake_freed_refuted.
(** What holds: such a call touches a destroyed coroutine only if that was destroyed while the call was at work on it;
    hence never one that is still referenced by a handle. *)
Theorem sched_freed_partial : forall cfg ls s l, run sstep_ok (sinit cfg) ls = Some s -> sstep s l = Some SFreed ->
  exists k c, l = Upd1 k /\ at_work k c (shi s) = true /\ In (VReap c) (shi s) /\
              (snd (fst (fst (cfg c))) = true -> In (VDet c) (shi s)).
Proof.
  intros cfg ls s l R E. destruct (hinv_run _ _ _ R) as [HI HH]. unfold sstep in E.
  assert (X : exists k c, l = Upd1 k /\ target (ag s k) = Some c /\ loc (cx s c) = Dead).
  { destruct l; dm E; eexists; eexists; (split; [reflexivity|]); rewrite M; simpl; (split; [reflexivity|]);
    unfold alive in *; match goal with H : match loc ?x with _ => _ end = false |- _ => destruct (loc x); congruence end. }
  destruct X as (k&c&->&A&D). exists k, c. split; auto. split; [now apply (h_ag _ _ HH)|]. apply (h_dead _ _ HH) in D. split; auto.
  intros Q. apply in_split in D as (a&b&D). pose proof (sched_reap_partial _ _ _ R _ _ _ D) as (_&_&X&_).
  rewrite D, in_app_iff. right. right. auto.
Qed.
Print Assumptions sched_freed_partial.

(** ** C66 *)
(** set_priority on a coroutine that is being moved to another thread erases list::end() (co_env.cpp 497). *)
Theorem prio_move_refuted : exists cfg ls s c z, run sstep_ok (sinit cfg) ls = Some s /\ sstep s (Prio c z) = Some SErase.
Proof. exists cfg0, (add 0 1 ++ [Take]). eexists. exists 1, 5%Z. split; vm_compute; reflexivity. Qed.
Print Assumptions prio_move_refuted.
(** It is safe for every coroutine that is not being moved. *)
Theorem prio_safe_partial : forall cfg ls s c z, run sstep_ok (sinit cfg) ls = Some s -> sstep s (Prio c z) = Some SErase ->
  member c (shi s) = false /\ (loc (cx s c) = Taken \/ loc (cx s c) = Coming).
Proof.
  intros cfg ls s c z R E. destruct (hinv_run _ _ _ R) as [HI HH]. rewrite (h_mem _ _ HH). unfold sstep in E.
  destruct (alive s c) eqn:A; [|discriminate]. unfold alive in A. simpl in E. destruct (unlocked s); [|discriminate].
  destruct (clamp z =? pr (cx s c)); [discriminate|]. destruct (loc (cx s c)) eqn:L; try discriminate; simpl; auto.
  assert (Q : In c (qs s (pr (cx s c)))) by (apply (i_q _ HI); auto). apply existsb_in in Q. rewrite Q in E. discriminate.
Qed.
Print Assumptions prio_safe_partial.
Example prio_ex : exists s, run sstep_ok (sinit cfg0) (add 0 1 ++ [Prio 1 500; Prio 1 (-3)]) = Some s /\ qs s 0 = [1] /\ minp s = 0.
Proof. eexists. split; [vm_compute; reflexivity|]. split; reflexivity. Qed.
