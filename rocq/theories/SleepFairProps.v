(** C118: sleeps in fair executions. *)
From Coq Require Import List Arith Bool Lia.
From Verif Require Import Base FairSpec TimerSpec TimerModel SleepModel SleepFair.
Import ListNotations.

(** Executions in which all timers belong to calls of sleep_until, call t until the moment [d t], no two until the same moment (that case
    is C88, sleep_ends_refuted); the timer thread, the threads in start, the callbacks and the calls are treated fairly; and the timer thread
    does not wake up without reason (that case is C51). *)
Definition fair_sleeps (d : nat -> nat) (st : nat -> sst) (lb : nat -> option slbl) : Prop :=
  (forall t u, d t = d u -> t = u) /\ execution _ _ (slstep (fun t => KAbs (d t)) (fun _ => true)) (slinit (fun t => KAbs (d t))) st lb /\
  strongly_fair _ _ (slstep (fun t => KAbs (d t)) (fun _ => true)) slwho st lb /\ forall n, lb n <> Some (SL LSpur).

(** Every call that has begun and not returned returns if its moment comes, and not before. *)
Theorem sleep_fair_returns : forall d st lb, fair_sleeps d st lb -> forall t n c, sp (st n) t <> SNone -> sp (st n) t <> SRet -> d t <= now (tm (st c)) ->
  exists m x, n <= m /\ back (st m) t = Some x /\ d t <= x.
Proof. intros d st lb (DI&EX&SF&NS) t n c A B C. apply (sleep_back d DI st lb EX SF NS n t A B). eauto. Qed.
Print Assumptions sleep_fair_returns.

(** The hypotheses hold of this execution: call 1 until 3 and call 2 until 5; the first callback is running when the timer thread wants to
    retire its timer; the second call is begun while the timer thread waits for the first moment. *)
Definition d35 (t : nat) : nat := 2 * t + 1.
Definition sls : list slbl :=
  [SL LTimer; SBegin 1; SStart 0 1; SL (LGo 0); SGo 1; SBegin 2; SStart 1 2; SL (LGo 1); SL LTimer; SL LTimer; SL (LClock 4); SL LTimer; SL LTimer; SL (LRun 3 1);
   SLeave 3 1; SBack 1; SL (LRet 3); SGo 2] ++ repeat (SL LTimer) 4 ++ [SL (LClock 1)] ++ repeat (SL LTimer) 7 ++ [SL (LRun 3 2); SLeave 3 2; SBack 2; SL (LRet 3)].
Definition sstp := slstep (fun t => KAbs (d35 t)) (fun _ => true).
Definition sini := slinit (fun t => KAbs (d35 t)).
Definition s_st (n : nat) : sst := match run sstp sini (firstn n sls) with Some s => s | None => sini end.
Definition s_lb (n : nat) : option slbl := nth_error sls n.

Lemma firstn_S : forall A (l : list A) n x, nth_error l n = Some x -> firstn (S n) l = firstn n l ++ [x].
Proof. induction l as [|y l IH]; intros [|n] x E; simpl in E; try discriminate E; [now injection E as ->|]. simpl. f_equal. now apply IH. Qed.
Lemma s_prefix : forall n, run sstp sini (firstn n sls) <> None.
Proof. intros n E. assert (R : run sstp sini sls <> None) by (vm_compute; discriminate). apply R. rewrite <- (firstn_skipn n sls), run_app, E. reflexivity. Qed.
Lemma s_final : forall n, length sls <= n -> s_st n = s_st (length sls).
Proof. intros n L. unfold s_st. now rewrite !firstn_all2 by auto. Qed.
Lemma s_exec : execution _ _ sstp sini s_st s_lb.
Proof.
  split; [reflexivity|]. intros n. unfold s_lb. destruct (nth_error sls n) as [l|] eqn:E.
  - unfold s_st. pose proof (s_prefix (S n)) as Q. rewrite (firstn_S _ _ _ _ E), run_app in *. destruct (run sstp sini (firstn n sls)) as [s|]; [|congruence].
    cbn [run] in *. destruct (sstp s l); congruence.
  - apply nth_error_None in E. now rewrite (s_final n), (s_final (S n)) by lia.
Qed.
Lemma s_fair : fair_sleeps d35 s_st s_lb.
Proof.
  split; [unfold d35; intros; lia|]. split; [exact s_exec|]. split.
  - intros x n. exists (max n (length sls)). split; [lia|]. right. intros k Lk (l&s'&W&H). rewrite s_final in H by lia.
    destruct l as [[c|a t|a t|a|a t|a| |]|t|a t|t|a t|t]; try discriminate W; clear W.
    + do 4 (destruct a as [|a]; [vm_compute in H; discriminate H|]). vm_compute in H. discriminate H.
    + do 4 (destruct a as [|a]; [do 3 (destruct t as [|t]; [vm_compute in H; discriminate H|]); vm_compute in H; discriminate H|]).
      do 3 (destruct t as [|t]; [vm_compute in H; discriminate H|]). vm_compute in H. discriminate H.
    + do 4 (destruct a as [|a]; [vm_compute in H; discriminate H|]). vm_compute in H. discriminate H.
    + vm_compute in H. discriminate H.
    + do 3 (destruct t as [|t]; [vm_compute in H; discriminate H|]). vm_compute in H. discriminate H.
    + do 3 (destruct t as [|t]; [vm_compute in H; discriminate H|]). vm_compute in H. discriminate H.
    + do 4 (destruct a as [|a]; [vm_compute in H; discriminate H|]). vm_compute in H. discriminate H.
    + do 3 (destruct t as [|t]; [vm_compute in H; discriminate H|]). vm_compute in H. discriminate H.
  - intros n E. apply nth_error_In in E. simpl in E. repeat destruct E as [E|E]; try discriminate E. exact E.
Qed.
(** At 8 call 1 has called start and call 2 is in start; the moments come at 11 and 23. *)
Example sleep_fair_example : fair_sleeps d35 s_st s_lb /\ (sp (s_st 8) 1 = SOut /\ d35 1 <= now (tm (s_st 11))) /\ (sp (s_st 8) 2 = SStarting 1 /\ d35 2 <= now (tm (s_st 23))) /\
  back (s_st 8) 1 = None /\ back (s_st 35) 1 = Some 4 /\ back (s_st 35) 2 = Some 5.
Proof. split; [exact s_fair|]. vm_compute. repeat split; lia. Qed.
