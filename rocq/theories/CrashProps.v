(** C89-C90: what happens after a fatal signal. *)
From Coq Require Import List Arith Bool Lia.
From Verif Require Import Base HistSpec ShutSpec ShutModel ShutProofs ShutLive CrashSpec CrashModel CrashProofs CrashLive.
Import ListNotations.

(** ** C89: a fatal signal is reported in full and the program ends with its code *)
(** The code of a delivered signal, once; and if the report is not complete then a second signal came. *)
Theorem crash_code : forall ls s, run step cinit ls = Some s -> end_code (evs s) /\ end_cut (evs s).
Proof. intros ls s R. pose proof (HI_reach _ _ R) as I. split; [apply (h_code _ I)|apply (h_cut _ I)]. Qed.
Print Assumptions crash_code.

(** Segmentation fault on a thread of the client: reported in full, shut down, ended with 128 - 11. *)
Definition reports (t : thr) : list clbl := repeat (CH t) 8.
Definition one_crash : list clbl :=
  [CS LC; CS LC; CS (LM []); CS (LT true); CS (LT true); CS (LT true); CSig (TUser 0) 11] ++ reports (TUser 0) ++ [CH (TUser 0); CS LC; CS LC; CS LC; CS (LM []); CS (LM []); CS (LM []); CS (LT true); CH (TUser 0); CH (TUser 0); CH (TUser 0); CH (TUser 0)].
Example one_crash_ex : exists s, run step cinit one_crash = Some s /\ evs s =
  [WEnd 117; WExit (TUser 0); WSec (TUser 0) 4; WSec (TUser 0) 3; WSec (TUser 0) 2; WSec (TUser 0) 1; WSec (TUser 0) 0; WBegin (TUser 0); WLine (TUser 0) 11; WSig (TUser 0) 11].
Proof. eexists. split; [vm_compute; reflexivity|reflexivity]. Qed.

(** Refuted: the signals are not blocked while another is handled, so that a second one ends the program at once. *)
Definition cut_crash : list clbl :=
  [CSig (TUser 0) 11; CH (TUser 0); CH (TUser 0); CH (TUser 0); CH (TUser 0); CSig (TUser 0) 6; CH (TUser 0); CH (TUser 0)].
Theorem crash_report_refuted : exists ls s, run step cinit ls = Some s /\ In (WEnd 122) (evs s) /\ ~ end_reported (evs s).
Proof.
  exists cut_crash. eexists. split; [vm_compute; reflexivity|]. split; [now left|].
  intros X. apply always_at_cons in X as [X _]. destruct X as (t&n&A&B&C). simpl in A. destruct A as [A|[A|[]]]; injection A as <- <-; unfold reported in C; vm_compute in C; discriminate.
Qed.
Print Assumptions crash_report_refuted.
(** With one signal the report is complete, and exit is called once.  Missing: further signals. *)
Theorem crash_report_partial : forall ls s, run step cinit ls = Some s -> length (signals (evs s)) <= 1 -> end_reported (evs s) /\ fate s <> Some Undefined.
Proof.
  intros ls s R L. pose proof (HI_reach _ _ R) as I. split.
  - pose proof (h_cut _ I) as X. unfold end_reported, end_cut in *. clear R I. revert L X. induction (evs s) as [|v h IH]; intros L X; [apply always_at_nil|].
    apply always_at_cons in X as [X1 X2]. assert (L' : length (signals h) <= 1) by (destruct v; simpl in *; lia). apply always_at_cons. split; auto.
    destruct v; auto. destruct X1 as [X1|(t&n&_&_&X1)]; auto. lia.
  - intros F. pose proof (h_fate _ I) as X. rewrite F in X. lia.
Qed.
Print Assumptions crash_report_partial.
Example crash_report_ex : exists s, run step cinit one_crash = Some s /\ length (signals (evs s)) <= 1 /\ In (WEnd 117) (evs s).
Proof. eexists. split; [vm_compute; reflexivity|]. simpl. split; auto. Qed.

(** Refuted: in_exception is no atomic variable, and is tested and set in two steps: two threads that crash together both report
    and both call exit, which is undefined. *)
Definition two_crash : list clbl :=
  [CS LC; CS LC; CSig (TUser 0) 11; CSig (TUser 1) 11; CH (TUser 0); CH (TUser 1); CH (TUser 0); CH (TUser 1); CH (TUser 0); CH (TUser 1);
   CH (TUser 0); CH (TUser 0); CH (TUser 0); CH (TUser 0); CH (TUser 0); CH (TUser 0); CH (TUser 1); CH (TUser 1); CH (TUser 1); CH (TUser 1); CH (TUser 1); CH (TUser 1)].
Theorem crash_exit_refuted : exists ls s, run step cinit ls = Some s /\ fate s = Some Undefined /\ ~ exit_once (evs s).
Proof.
  exists two_crash. eexists. split; [vm_compute; reflexivity|]. split; [reflexivity|].
  intros X. apply always_at_cons in X as [X _]. apply (X (TUser 0)). simpl. tauto.
Qed.
Print Assumptions crash_exit_refuted.
(** exit is called at most once when every signal after the first comes after in_exception was set.  Missing: the time between. *)
Theorem crash_exit_partial : forall ls s, run step cinit ls = Some s -> spaced (evs s) -> exit_once (evs s) /\ fate s <> Some Undefined.
Proof. intros ls s R X. pose proof (PI_reach _ _ R X) as I. split; [apply (p_exit _ I)|apply (p_fate _ I)]. Qed.
Print Assumptions crash_exit_partial.
Example crash_exit_ex : exists s, run step cinit cut_crash = Some s /\ spaced (evs s) /\ length (signals (evs s)) = 2.
Proof.
  eexists. split; [vm_compute; reflexivity|]. split; [|reflexivity]. unfold spaced.
  repeat (apply always_at_cons; split; [try exact I; try (now left); right; exists (TUser 0); simpl; tauto|]). apply always_at_nil.
Qed.

(** ** C90: after a fatal signal the program ends *)
(** Refuted: exit, called on one of the manager's own threads, waits for that thread.  No execution ends. *)
Theorem crash_background : forall ls s t n, run step cinit ls = Some s -> signals (evs s) = [(t, n)] -> In t [TCleaner; TMonitor; TTimer] -> ~ ended (evs s).
Proof.
  intros ls s t n R Sg B. assert (F : fate s = None) by (eapply back_hangs; eauto; simpl in B; intuition (subst; auto)).
  pose proof (h_fate _ (HI_reach _ _ R)) as X. now rewrite F in X.
Qed.
Print Assumptions crash_background.
(** The timer thread crashes: the report is complete, exit is called. *)
Definition timer_crash : list clbl := [CS LC; CS LC; CS (LM []); CSig TTimer 11] ++ reports TTimer ++ [CH TTimer; CS LC; CS LC; CS LC; CS (LM []); CH TTimer; CS (LM []); CS (LM []); CH TTimer].
Example crash_background_ex : exists s, run step cinit timer_crash = Some s /\ signals (evs s) = [(TTimer, 11)] /\ reported TTimer (evs s) /\ dp (sh s) = DTimer.
Proof. eexists. split; [vm_compute; reflexivity|]. split; [reflexivity|]. split; reflexivity. Qed.
(** Along an execution the signals are kept. *)
Lemma signals_inner : forall ls s s', Forall (fun l => inner l = true) ls -> run step s ls = Some s' -> signals (evs s') = signals (evs s).
Proof.
  induction ls as [|l ls IH]; intros s s' F R; simpl in R; [now injection R as <-|]. destruct (step s l) as [s1|] eqn:S; [|discriminate]. inversion F; subst.
  rewrite (IH s1 s'); auto. unfold step in S. destruct (fate s); [discriminate|]. destruct l as [l|t n|t]; [|discriminate|].
  - assert (X : option_map (setsh s) (sstep (sh s) l) = Some s1).
    { destruct (who (sh s) l) as [[]|]; try discriminate; auto; destruct (hp s _); auto; discriminate. }
    destruct (sstep (sh s) l); [|discriminate]. now injection X as <-.
  - destruct (hp s t) as [|h r]; [discriminate|]. destruct h as [m|m|m|m k|m]; simpl in S.
    + now injection S as <-.
    + destruct (flag s); now injection S as <-.
    + now injection S as <-.
    + destruct (k <? 4); [now injection S as <-|]. destruct (k =? 4).
      { destruct (info_free (sh s) t); [|discriminate]. now injection S as <-. }
      destruct (dp (sh s)); try (now injection S as <-). destruct (dstep (sh s)); [|discriminate]. now injection S as <-.
    + destruct (dp (sh s)); try (destruct (dstep (sh s)); [|discriminate]; now injection S as <-). now injection S as <-.
Qed.
(** Each of the three threads, interrupted after its start, reaches exit. *)
Definition back_crash (t : thr) : list clbl := [CS LC; CS LC; CSig t 11] ++ reports t ++ [CH t].
Theorem crash_ends_refuted : forall t, In t [TCleaner; TMonitor; TTimer] -> exists ls s, run step cinit ls = Some s /\ In (WExit t) (evs s) /\ reported t (evs s) /\
  forall ls' s', Forall (fun l => forall t n, l <> CSig t n) ls' -> run step s ls' = Some s' -> ~ ended (evs s').
Proof.
  intros t T. assert (X : exists s, run step cinit (back_crash t) = Some s /\ In (WExit t) (evs s) /\ reported t (evs s) /\ signals (evs s) = [(t, 11)]).
  { destruct T as [<-|[<-|[<-|[]]]]; (eexists; split; [vm_compute; reflexivity|]; split; [now left|]; split; reflexivity). }
  destruct X as (s0&R0&X1&X2&Sg). exists (back_crash t), s0. split; [exact R0|]. split; [exact X1|]. split; [exact X2|]. intros ls' s' F R.
  apply crash_background with (back_crash t ++ ls') t 11; [now rewrite run_app, R0| |exact T].
  assert (G : forall ls a b, Forall (fun l => forall t n, l <> CSig t n) ls -> run step a ls = Some b -> signals (evs b) = signals (evs a)).
  { induction ls as [|l ls IH]; intros a b Fa Ra; simpl in Ra; [now injection Ra as <-|]. destruct (step a l) as [a1|] eqn:S; [|discriminate]. inversion Fa; subst.
    rewrite (IH a1 b); auto. unfold step in S. destruct (fate a) eqn:Fx; [discriminate|]. destruct l as [l|u n|u]; [|exfalso; eapply H1; reflexivity|].
    - assert (X : option_map (setsh a) (sstep (sh a) l) = Some a1).
      { destruct (who (sh a) l) as [[]|]; try discriminate; auto; destruct (hp a _); auto; discriminate. }
      destruct (sstep (sh a) l); [|discriminate]. now injection X as <-.
    - apply (signals_inner [CH u]); auto. simpl. unfold step. now rewrite Fx, S. }
  now rewrite (G _ _ _ F R).
Qed.
Print Assumptions crash_ends_refuted.
(** A thread of the client, or of an environment that is not just finishing. *)
Definition away (s : sst) (t : thr) : Prop :=
  match t with TUser _ => True | TWorker e => ph (envs s e) <> PPub | _ => False end.
(** From every state after one signal on such a thread, if the clean-up has not begun or the timer thread has seen it, the
    background threads, the environments and the handler, with no step of the client, can bring the program to its end,
    with the code of the signal and a full report.  Missing: the background threads; an environment that is finishing, for which
    the cleaner may wait; the lost notification of C75. *)
Theorem crash_ends_partial : forall ls s t n, run step cinit ls = Some s -> signals (evs s) = [(t, n)] -> away (sh s) t ->
  (clean (sh s) = true -> match tp (sh s) with REmpty | RPark | RWait => False | _ => True end) ->
  exists ls' s', Forall (fun l => inner l = true) ls' /\ run step s ls' = Some s' /\ In (WEnd (128 - n)) (evs s') /\ reported t (evs s').
Proof.
  intros ls s t n R Sg Aw Cw. pose proof (HI_reach _ _ R) as I. pose proof (inv3_crash _ _ R) as I3.
  assert (Hs : forall u, map sig_of (hp s u) = if thr_eq t u then [n] else []).
  { intros u. rewrite <- (h_sig _ I). unfold sigs_of. rewrite Sg. simpl. destruct (thr_eq t u); auto. }
  assert (Ex : exists ls' s', Forall (fun l => inner l = true) ls' /\ run step s ls' = Some s' /\ fate s' = Some (Ended (128 - n))).
  { destruct (fate s) as [[c|]|] eqn:F.
    - exists [], s. split; auto. split; auto. pose proof (h_fate _ I) as X. rewrite F in X. assert (c = 128 - n); [|congruence].
      pose proof (h_code _ I) as Y. unfold end_code in Y. clear -X Y Sg. revert Sg X Y. generalize (evs s) as h.
      assert (G : forall h, In (WEnd c) h -> end_code h -> exists u m, In (u, m) (signals h) /\ c = 128 - m).
      { induction h as [|v h IH]; intros X Y; [destruct X|]. apply always_at_cons in Y as [Y1 Y2]. destruct X as [->|X].
        - destruct Y1 as (_&u&m&Z&Z'). exists u, m. auto.
        - destruct (IH X Y2) as (u&m&Z&Z'). exists u, m. split; auto. destruct v; simpl; auto. }
      intros h Sg X Y. destruct (G h X Y) as (u&m&Z&->). rewrite Sg in Z. destruct Z as [Z|[]]. now injection Z as _ ->.
    - pose proof (h_fate _ I) as X. rewrite F, Sg in X. simpl in X. lia.
    - pose proof (Hs t) as Ht. destruct (thr_eq t t) as [_|]; [|congruence]. destruct (hp s t) as [|h [|? ?]] eqn:P; try discriminate. simpl in Ht. injection Ht as <-.
      assert (O : solo s t h).
      { split; auto. split; auto. intros u N. pose proof (Hs u) as X. destruct (thr_eq t u); [congruence|]. destruct (hp s u); auto; discriminate. }
      assert (Id : idle (sh s) t).
      { destruct t; simpl in *; auto. destruct I3 as (H&_). assert (Al : alive (sh s) (TWorker e) = true).
        { apply (b_al _ (BI_reach _ _ R)); auto. rewrite P. discriminate. }
        simpl in Al. apply andb_true_iff in Al as [Al _]. apply andb_true_iff in Al as [A1 A2]. apply Nat.ltb_lt in A1. auto. }
      destruct (can_end s t h O I3 I Id) as (s'&(ls'&A1&A2)&A3); [|exists ls', s'; auto].
      intros Cl. specialize (Cw Cl). destruct (tp (sh s)); auto; destruct Cw. }
  destruct Ex as (ls'&s'&A&B&C). exists ls', s'. split; auto. split; auto.
  assert (R' : run step cinit (ls ++ ls') = Some s') by (now rewrite run_app, R). pose proof (HI_reach _ _ R') as I'.
  pose proof (h_fate _ I') as X. rewrite C in X. split; auto.
  assert (Sg' : signals (evs s') = [(t, n)]) by (rewrite (signals_inner _ _ _ A B); auto).
  assert (Z : 5 <= length (printed t (evs s'))).
  { pose proof (h_cut _ I') as Y. clear -X Y Sg'. revert Sg' X Y. generalize (evs s') as h.
    assert (G : forall h, length (signals h) <= 1 -> In (WEnd (128 - n)) h -> end_cut h -> exists u m, In (u, m) (signals h) /\ 5 <= length (printed u h)).
    { induction h as [|v h IH]; intros L X Y; [destruct X|]. apply always_at_cons in Y as [Y1 Y2]. destruct X as [->|X].
      - destruct Y1 as [(u&m&A1&_&A2)|(u&m&_&_&A1)]; [|simpl in L; lia]. exists u, m. split; auto. unfold reported in A2. simpl. rewrite A2. simpl. lia.
      - assert (L' : length (signals h) <= 1) by (destruct v; simpl in *; lia). destruct (IH L' X Y2) as (u&m&A1&A2). exists u, m. split; [destruct v; simpl; auto|].
        destruct v; auto. simpl. rewrite app_length. lia. }
    intros h Sg X Y. destruct (G h) as (u&m&A1&A2); auto; [rewrite Sg; auto|]. rewrite Sg in A1. destruct A1 as [A1|[]]. injection A1 as <- <-. auto. }
  pose proof (h_out _ I' t) as Ou. assert (Ht : map sig_of (hp s' t) = [n]).
  { rewrite <- (h_sig _ I'). unfold sigs_of. rewrite Sg'. simpl. destruct (thr_eq t t); [reflexivity|congruence]. }
  pose proof (h_shape _ I' t) as Sp. destruct (hp s' t) as [|h [|? ?]] eqn:P; try discriminate. unfold reported, sections.
  destruct (prog h) as [k|] eqn:Pr.
  - destruct (head_main _ _ k Sp Pr) as (_&K&E). rewrite Ou, E in *. rewrite rev_length, seq_length in Z. assert (k = 5) by lia. now subst.
  - rewrite Ou in Z. simpl in Z. rewrite Pr in Z. simpl in Z. lia.
Qed.
Print Assumptions crash_ends_partial.
(** The cleaner holds the lock that the report needs and the timer thread the other: an environment has just ended. *)
Definition busy_crash : list clbl :=
  [CS LC; CS LC; CS (LCur 0); CS (LMake (TUser 0)); CS (LMake (TUser 0)); CS (LM []); CS (LM []); CS (LM [2]); CS (LFin 2); CS LC; CS (LT true); CSig (TWorker 1) 11; CH (TWorker 1)].
Example crash_ends_ex : exists s, run step cinit busy_crash = Some s /\ signals (evs s) = [(TWorker 1, 11)] /\ away (sh s) (TWorker 1) /\
  clean (sh s) = false /\ locked (sh s) = true /\ tp (sh s) = REmpty /\ pl (envs (sh s) 2) = Expired.
Proof. eexists. split; [vm_compute; reflexivity|]. repeat split; try discriminate. Qed.
