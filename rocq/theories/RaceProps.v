(** C94: the library's own data is free of data races. *)
From Coq Require Import List Arith Bool Lia.
From Verif Require Import Base RaceSpec RaceLemmas RaceCheck RaceModel RaceRule RaceInv.
Import ListNotations.

(** The calls that an execution contains. *)
Definition made (ls : list lbl) (c : call) : Prop := exists t k, In (Begin t k c) ls.

Lemma without_cause : forall ls x, (forall c, made ls c -> causes c <> Some x) ->
  calls_ok (fun y => if cause_eq y x then false else true) ls.
Proof.
  intros ls x H t k c I. unfold permits. specialize (H c (ex_intro _ t (ex_intro _ k I))). destruct (causes c) as [y|]; auto.
  destruct (cause_eq y x); congruence.
Qed.
Lemma with_all : forall ls, calls_ok (fun _ => true) ls.
Proof. intros ls t k c _. unfold permits. now destruct (causes c). Qed.
Definition causeb (x : cause) (l : lbl) : bool := match l with Begin _ _ c => match causes c with Some y => if cause_eq y x then true else false | None => false end | _ => false end.
Lemma cause_found : forall ls x, (exists c, made ls c /\ causes c = Some x) \/ (forall c, made ls c -> causes c <> Some x).
Proof.
  intros ls x. destruct (existsb (causeb x) ls) eqn:E.
  - left. apply existsb_exists in E as (l&I&E). destruct l as [t k c|]; simpl in E; [|discriminate]. destruct (causes c) as [y|] eqn:C; [|discriminate].
    destruct (cause_eq y x); [subst|discriminate]. exists c. split; auto. exists t, k. exact I.
  - right. intros c (t&k&I) C. assert (existsb (causeb x) ls = true); [|congruence]. apply existsb_exists. exists (Begin t k c). split; auto. simpl. rewrite C. destruct (cause_eq x x); congruence.
Qed.
Lemma rule_no_race : forall d ls s x, calls_ok d ls -> run step init ls = Some s -> rule_of d x <> NoRule -> ~ race (tr s) x.
Proof. intros d ls s x C R N. apply ordered_no_race. destruct (i_race d s (reach_Inv d ls s C R)) as (_&_&H). now apply H. Qed.
Lemma race_cause : forall ls s x z, run step init ls = Some s -> race (tr s) x -> rule_of (fun y => if cause_eq y z then false else true) x <> NoRule ->
  exists c, made ls c /\ causes c = Some z.
Proof.
  intros ls s x z R H N. destruct (cause_found ls z) as [C|C]; auto. exfalso. exact (rule_no_race _ ls s x (without_cause ls z C) R N H).
Qed.

Ltac other C := simpl in C; repeat match type of C with context [match ?e with _ => _ end] => destruct e end; discriminate.

(** Where a race can be, and what call must have been made: nearly everything is protected.  What is not: the numbers that
    clients set, once they set them; clean_up__, once the library shuts down; the exception of a coroutine, once one ended with an
    exception; the priority of a coroutine, once the dump is asked for; and four objects without rule. *)
Theorem internals_race_partial : forall ls s x, run step init ls = Some s -> race (tr s) x ->
  match x with
  | XBase => made ls KSetBase
  | XMax => made ls KSetMax
  | XSize => made ls KSetSize
  | XTick => made ls KSetTick
  | XClean => exists es, made ls (KCleanUp es)
  | XExc _ => (exists c subs, made ls (KFinish c true subs)) \/ (exists c w b timed, made ls (KWaitEnd c w b timed (Some true)))
  | XPrio _ => exists es ts, made ls (KInfo es ts)
  | XTid _ | XShared _ | XLocals _ | XRegs _ => True
  | _ => False
  end.
Proof.
  intros ls s x R H.
  assert (A : rule_of (fun _ => true) x <> NoRule -> False) by (intros N; exact (rule_no_race _ ls s x (with_all ls) R N H)).
  destruct x; auto; simpl in A; try (apply A; discriminate); clear A.
  - destruct (race_cause ls s _ CBase R H) as (c&M&C); [discriminate|]. destruct c; try discriminate; auto; other C.
  - destruct (race_cause ls s _ CMax R H) as (c&M&C); [discriminate|]. destruct c; try discriminate; auto; other C.
  - destruct (race_cause ls s _ CStop R H) as (c&M&C); [discriminate|]. destruct c; try discriminate; eauto; other C.
  - destruct (race_cause ls s _ CTick R H) as (c&M&C); [discriminate|]. destruct c; try discriminate; auto; other C.
  - destruct (race_cause ls s _ CSize R H) as (c&M&C); [discriminate|]. destruct c; try discriminate; auto; other C.
  - destruct (race_cause ls s _ CThrow R H) as (d&M&C); [discriminate|]. destruct d; try discriminate.
    + right. destruct ex as [[]|]; try discriminate. eauto 6.
    + left. destruct ex; try discriminate. eauto.
  - destruct (race_cause ls s _ CDump R H) as (d&M&C); [discriminate|]. destruct d; try discriminate; eauto; other C.
Qed.
Print Assumptions internals_race_partial.

(** No lock is ever unlocked by a thread that does not hold it. *)
Theorem internals_unlock : forall ls s t k l r, run step init ls = Some s -> pr s t k = Ul l :: r -> exists s', step s (Go t k) = Some s'.
Proof.
  intros ls s t k l r R P. pose proof (reach_Inv _ ls s (with_all ls) R) as J. destruct (holds _ s l t k J) as (ks&O).
  - rewrite P. simpl. destruct (lock_eq l l); [lia|congruence].
  - simpl. rewrite P. simpl. unfold release. rewrite O, Nat.eqb_refl. eauto.
Qed.
Print Assumptions internals_unlock.

(** A whole call; the first n steps of a call. *)
Definition all_of (t k : nat) (c : call) : list lbl := Begin t k c :: repeat (Go t k) (length (code t c)).
Definition first (n t k : nat) (c : call) : list lbl := Begin t k c :: repeat (Go t k) n.
(** Position of an operation in a call. *)
Fixpoint pos (f : rop -> bool) (p : list rop) : nat := match p with [] => 0 | o :: r => if f o then 1 else S (pos f r) end.
Definition isw (x : loc) (o : rop) : bool :=
  match o, x with Wr XBase, XBase | Wr XMax, XMax | Wr XClean, XClean | Wr XTick, XTick | Wr XSize, XSize => true
  | Wr (XTid a), XTid b | Wr (XShared a), XShared b | Wr (XExc a), XExc b | Wr (XPrio a), XPrio b | Wr (XLocals a), XLocals b | Wr (XRegs a), XRegs b => a =? b
  | _, _ => false end.
Definition isr (x : loc) (o : rop) : bool := match o with Rd y => isw x (Wr y) | _ => false end.
Definition leq (y x : loc) : bool := isw x (Wr y).
Lemma leq_eq : forall y x, leq y x = true -> y = x.
Proof. intros y x. unfold leq. destruct x, y; simpl; try discriminate; auto; intros H; apply Nat.eqb_eq in H; now subst. Qed.
Definition sync_eq (a b : sync) : {a = b} + {a <> b}. Proof. decide equality; try apply Nat.eq_dec; apply lock_eq. Defined.
(** Some race on x in the trace: the last event and an earlier one. *)
Definition racy (ls : list lbl) (x : loc) : bool :=
  match run step init ls with
  | Some s => let t := tr s in let j := pred (length t) in existsb (fun i => raceb sync_eq leq t i j x) (seq 0 j)
  | None => false
  end.
Lemma racy_race : forall ls x, racy ls x = true -> exists ls s, run step init ls = Some s /\ race (tr s) x.
Proof.
  intros ls x H. unfold racy in H. destruct (run step init ls) as [s|] eqn:E; [|discriminate]. exists ls, s. split; auto.
  apply existsb_exists in H as (i&_&H). eapply raceb_race; [exact leq_eq|exact H].
Qed.

(** Environment 1 with its thread 1 is there, with two coroutines 1 and 2 (created by thread 0). *)
Definition setting : list lbl :=
  all_of 0 0 KEnv ++ all_of 0 0 (KCreateEnv 1 true) ++ all_of 0 0 (KCreate 1 None 1 (Some true)) ++ all_of 0 0 (KCreate 2 None 1 None).
Definition tofirst (f : rop -> bool) (t k : nat) (c : call) : list lbl := first (pos f (code t c)) t k c.
(** A client sets a number while another thread creates a coroutine, or while the monitor (thread 8) makes its round. *)
Definition w_base := setting ++ all_of 0 0 KSetBase ++ tofirst (isr XBase) 7 0 (KCreate 3 (Some ([(1, 3)], true, None)) 1 None).
Definition a_second : second := ([(1, true, None)], [], ([1], []), ([1], [])).
Definition w_max := setting ++ all_of 0 0 KSetMax ++ tofirst (isr XMax) 8 0 (KMonitor [(1, false)] (Some a_second)).
Definition w_size := setting ++ all_of 0 0 KSetSize ++ tofirst (isr XSize) 7 0 (KCreateEnv 3 true).
(** The monitor has taken the reference; then a client sets the duration; then sleep_for reads it. *)
Definition w_tick := setting ++ first 2 8 0 (KMonitor [] None) ++ tofirst (isw XTick) 0 0 KSetTick ++ [Go 8 0].
(** main returns: clean_up__ is written under one lock and read by the timer thread (9) under another. *)
Definition w_clean := setting ++ tofirst (isw XClean) 0 0 (KCleanUp [(1, true)]) ++ tofirst (isr XClean) 9 0 (KTimer true None).
(** The monitor signals thread 1 before its routine has stored its number. *)
Definition w_tid := setting ++ tofirst (isw (XTid 1)) 1 0 KStart ++ tofirst (isr (XTid 1)) 8 0 (KMonitor [(1, true)] None).
(** Coroutine 1 ended with an exception; coroutines 5 and 6 on threads 2 and 3, which waited for it, both take it. *)
Definition w_exc := setting ++ all_of 1 0 (KFinish 1 true [(None, (5, 2, true, false)); (None, (6, 3, true, false))]) ++
  tofirst (isw (XExc 1)) 2 0 (KWaitEnd 1 5 (FSame true) false (Some true)) ++ tofirst (isr (XExc 1)) 3 0 (KWaitEnd 1 6 (FSame true) false (Some true)).
(** Thread 7 asks for the dump, while thread 0 creates the first coroutine with shared stack, or coroutine 1 changes its priority, makes a local
    variable, or is switched away from. *)
Definition dump := KInfo [(1, [1; 2])] [].
Definition w_shared := all_of 0 0 (KCreateEnv 1 true) ++ tofirst (isw (XShared 1)) 0 0 (KCreate 1 None 1 (Some true)) ++ tofirst (isr (XShared 1)) 7 0 dump.
Definition w_prio := setting ++ tofirst (isw (XPrio 1)) 1 0 (KSetPrio 1 (FChange 1)) ++ tofirst (isr (XPrio 1)) 7 0 dump.
Definition w_locals := setting ++ tofirst (isw (XLocals 1)) 1 0 (KLocal 1) ++ tofirst (isr (XLocals 1)) 7 0 dump.
Definition w_regs := setting ++ tofirst (isw (XRegs 1)) 1 0 (KYield [1; 2] [] (SwGo 1 2)) ++ tofirst (isr (XRegs 1)) 7 0 dump.

(** The claim is false for eleven objects. *)
Theorem internals_race_refuted : Forall (fun x => exists ls s, run step init ls = Some s /\ race (tr s) x)
  [XBase; XMax; XSize; XTick; XClean; XTid 1; XExc 1; XShared 1; XPrio 1; XLocals 1; XRegs 1].
Proof.
  repeat constructor.
  - apply racy_race with w_base. vm_compute. reflexivity.
  - apply racy_race with w_max. vm_compute. reflexivity.
  - apply racy_race with w_size. vm_compute. reflexivity.
  - apply racy_race with w_tick. vm_compute. reflexivity.
  - apply racy_race with w_clean. vm_compute. reflexivity.
  - apply racy_race with w_tid. vm_compute. reflexivity.
  - apply racy_race with w_exc. vm_compute. reflexivity.
  - apply racy_race with w_shared. vm_compute. reflexivity.
  - apply racy_race with w_prio. vm_compute. reflexivity.
  - apply racy_race with w_locals. vm_compute. reflexivity.
  - apply racy_race with w_regs. vm_compute. reflexivity.
Qed.
Print Assumptions internals_race_refuted.

(** The hypotheses are met: an execution with a race; one in which thread 0 and the monitor write the same flags in turn and that
    is ordered; one with an unlock next. *)
Example race_example : exists s, run step init w_base = Some s /\ race (tr s) XBase /\ made w_base KSetBase.
Proof.
  assert (X : racy w_base XBase = true) by (vm_compute; reflexivity). unfold racy in X. destruct (run step init w_base) as [s|] eqn:E; [|discriminate].
  exists s. split; auto. assert (H : race (tr s) XBase). { apply existsb_exists in X as (i&_&X). eapply raceb_race; [exact leq_eq|exact X]. }
  split; auto. exact (internals_race_partial w_base s XBase E H).
Qed.
Definition w_flags : list lbl := setting ++ all_of 8 0 (KMonitor [(1, true)] (Some a_second)) ++ all_of 1 0 KStart ++ all_of 8 0 (KMonitor [(1, true)] None).
Definition writers (x : loc -> bool) (t : list (RaceSpec.ev sync loc)) : list nat :=
  map thr (filter (fun e => match act e with KWr y => x y | _ => false end) t).
Example flags_example : exists s, run step init w_flags = Some s /\ nodup Nat.eq_dec (writers (fun y => match y with XEFlags 1 => true | _ => false end) (tr s)) = [0; 1; 8] /\
  ~ race (tr s) (XEFlags 1).
Proof.
  assert (X : match run step init w_flags with Some s => nodup Nat.eq_dec (writers (fun y => match y with XEFlags 1 => true | _ => false end) (tr s)) = [0; 1; 8] | None => False end)
    by (vm_compute; reflexivity).
  destruct (run step init w_flags) as [s|] eqn:E; [|easy]. exists s. split; auto. split; auto. intros H. exact (internals_race_partial w_flags s _ E H).
Qed.
Example unlock_example : exists s r, run step init (first 2 7 0 (KPrio 1)) = Some s /\ pr s 7 0 = Ul (Prio 1) :: r.
Proof. eexists. eexists. split; vm_compute; reflexivity. Qed.
