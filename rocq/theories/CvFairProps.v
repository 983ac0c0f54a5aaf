(** Property C115: in a fair execution the calls on a condition variable come to their end. *)
From Coq Require Import List Arith Bool Lia.
From Verif Require Import Base LinSpec CvSpec CvModel CvProofs FairSpec CvFair.
Import ListNotations.

Local Notation phase := (phase_of cvop_eqb cvres_eqb).

(** A strongly fair execution in which every client that holds the lock gives it up again, by unlock() or by a wait. *)
Definition fair_cv (D : Type) (d0 : D) modf pred (st : nat -> cst D) (lb : nat -> option lbl) : Prop :=
  execution _ _ (cstep D modf pred) (cinit D d0) st lb /\ strongly_fair _ _ (cstep D modf pred) cwho st lb /\
  forall t n, holds (hist D (st n)) t = true -> exists m, n <= m /\ holds (hist D (st m)) t = false.
(** [t] is in a wait, has released the lock, and is not in the line any more. *)
Definition taken_off (h : list cvev) (t : tid) (o : cvop) : Prop :=
  phase h t = Some (PPending o) /\ stage h t = Some WsEntered /\ ~ In t (cline h).

(** lock(), unlock(), notify_one() and notify_all() return. *)
Theorem cv_fair_calls : forall D d0 modf pred st lb, fair_cv D d0 modf pred st lb ->
  forall t n o, is_wait o = false -> phase (hist D (st n)) t = Some (PPending o) \/ (exists r, phase (hist D (st n)) t = Some (PDone o r)) ->
  exists m r, n <= m /\ hist D (st (S m)) = ERet t o r :: hist D (st m).
Proof. intros D d0 modf pred st lb (EX&SF&CL) t n o W P. exact (plain_returns D d0 modf pred st lb EX SF CL t n o W P). Qed.
Print Assumptions cv_fair_calls.

(** A wait without predicate that has been notified, or has timed out, returns. *)
Theorem cv_fair_notified : forall D d0 modf pred st lb, fair_cv D d0 modf pred st lb ->
  forall t n o, o = OWait \/ o = OWaitU -> taken_off (hist D (st n)) t o ->
  exists m r, n <= m /\ hist D (st (S m)) = ERet t o r :: hist D (st m).
Proof.
  intros D d0 modf pred st lb (EX&SF&CL) t n o W (P&S0&N). apply (woken_returns D d0 modf pred st lb EX SF CL t n o); auto.
  intros m _. destruct W as [-> | ->]; reflexivity.
Qed.
Print Assumptions cv_fair_notified.

(** A wait with predicate that has been notified, or has timed out, returns if the predicate holds from then on. *)
Theorem cv_fair_predicate : forall D d0 modf pred st lb, fair_cv D d0 modf pred st lb ->
  forall t n o k, o = OWaitP k \/ o = OWaitUP k -> taken_off (hist D (st n)) t o ->
  (forall m, n <= m -> pred k (shared D d0 modf (hist D (st m))) = true) ->
  exists m r, n <= m /\ hist D (st (S m)) = ERet t o r :: hist D (st m).
Proof.
  intros D d0 modf pred st lb (EX&SF&CL) t n o k W (P&S0&N) T. apply (woken_returns D d0 modf pred st lb EX SF CL t n o); auto.
  intros m L. specialize (T m L). rewrite <- (i_d _ _ _ _ _ (ex_inv D d0 modf pred st lb EX m)) in T.
  destruct W as [-> | ->]; simpl; rewrite T; auto. apply andb_false_r.
Qed.
Print Assumptions cv_fair_predicate.

(** wait_until(lock, time) returns when its deadline passes while it is in the line, whether anybody notifies or not. *)
Theorem cv_fair_deadline : forall D d0 modf pred st lb, fair_cv D d0 modf pred st lb ->
  forall t n, phase (hist D (st n)) t = Some (PPending OWaitU) -> In t (cline (hist D (st n))) -> hist D (st (S n)) = EAux t ADeadline :: hist D (st n) ->
  exists m r, n <= m /\ hist D (st (S m)) = ERet t OWaitU r :: hist D (st m).
Proof. intros D d0 modf pred st lb (EX&SF&CL) t n P Q H. exact (deadline_returns D d0 modf pred st lb EX SF CL t n P Q H). Qed.
Print Assumptions cv_fair_deadline.

(** ** An execution that meets the hypotheses of all four: 1, 2 and 4 wait, 2 for the data to be at least 5; the deadline of 4 passes; 3
    adds 7 and notifies all. *)
Definition fstep := cstep nat Nat.add Nat.leb.
Definition fcall (t : tid) (o : cvop) (n : nat) : list lbl := Call t o :: repeat (Run t) n.
Definition f_ls : list lbl :=
  fcall 1 OLock 2 ++ fcall 1 OWait 5 ++ fcall 2 OLock 2 ++ fcall 2 (OWaitP 5) 5 ++ fcall 4 OLock 2 ++ fcall 4 OWaitU 6 ++
  [Fire 4 0; CbRun 0; CbRun 0; CbRun 0; CbRun 0; CbRun 0] ++ fcall 3 OLock 2 ++ fcall 3 (OMod 7) 2 ++ fcall 3 ONotifyAll 7 ++ fcall 3 OUnlock 2 ++
  repeat (Run 1) 5 ++ fcall 1 OUnlock 2 ++ repeat (Run 2) 5 ++ fcall 2 OUnlock 2 ++ repeat (Run 4) 5 ++ fcall 4 OUnlock 2.
Definition fst_ (n : nat) : cst nat := match run fstep (cinit nat 0) (firstn n f_ls) with Some s => s | None => cinit nat 0 end.
Definition flb (n : nat) : option lbl := nth_error f_ls n.

Lemma firstn_S : forall A (l : list A) n x, nth_error l n = Some x -> firstn (S n) l = firstn n l ++ [x].
Proof. induction l as [|y l IH]; intros [|n] x E; simpl in E; try discriminate E; [now injection E as ->|]. simpl. f_equal. now apply IH. Qed.
Lemma f_prefix : forall n, run fstep (cinit nat 0) (firstn n f_ls) <> None.
Proof.
  intros n E. assert (R : run fstep (cinit nat 0) f_ls <> None) by (vm_compute; discriminate). apply R. rewrite <- (firstn_skipn n f_ls), run_app, E. reflexivity.
Qed.
Lemma f_final : forall n, length f_ls <= n -> fst_ n = fst_ (length f_ls).
Proof. intros n L. unfold fst_. now rewrite !firstn_all2 by auto. Qed.
Lemma f_exec : execution _ _ fstep (cinit nat 0) fst_ flb.
Proof.
  split; [reflexivity|]. intros n. unfold flb. destruct (nth_error f_ls n) as [l|] eqn:E.
  - unfold fst_. pose proof (f_prefix (S n)) as Q. rewrite (firstn_S _ _ _ _ E), run_app in *. destruct (run fstep (cinit nat 0) (firstn n f_ls)) as [s|]; [|congruence].
    cbn [run] in *. destruct (fstep s l); congruence.
  - apply nth_error_None in E. now rewrite (f_final n), (f_final (S n)) by lia.
Qed.
Lemma f_fair : fair_cv nat 0 Nat.add Nat.leb fst_ flb.
Proof.
  split; [exact f_exec|]. split.
  - intros x n. exists (max n (length f_ls)). split; [lia|]. right. intros k Lk (l&s'&W&H). rewrite f_final in H by lia.
    destruct l as [u o|u|u a|a]; try discriminate W.
    + do 5 (destruct u as [|u]; [vm_compute in H; discriminate H|]). vm_compute in H. discriminate H.
    + destruct a as [|a]; vm_compute in H; discriminate H.
  - intros t n _. exists (max n (length f_ls)). split; [lia|]. rewrite f_final by lia. do 5 (destruct t as [|t]; [vm_compute; reflexivity|]). vm_compute. reflexivity.
Qed.
(** At 29 the deadline has passed; at 31 the callback has taken 4 off the line; at 42 notify_all has taken effect. *)
Example cv_fair_example : fair_cv nat 0 Nat.add Nat.leb fst_ flb /\
  (phase (hist _ (fst_ 28)) 4 = Some (PPending OWaitU) /\ In 4 (cline (hist _ (fst_ 28))) /\ hist _ (fst_ 29) = EAux 4 ADeadline :: hist _ (fst_ 28)) /\
  phase (hist _ (fst_ 41)) 3 = Some (PPending ONotifyAll) /\ taken_off (hist _ (fst_ 42)) 1 OWait /\ taken_off (hist _ (fst_ 42)) 4 OWaitU /\
  taken_off (hist _ (fst_ 42)) 2 (OWaitP 5) /\ forall m, 42 <= m -> 5 <=? shared nat 0 Nat.add (hist _ (fst_ m)) = true.
Proof.
  assert (N1 : ~ In 1 (cline (hist _ (fst_ 42)))) by (vm_compute; tauto). assert (N2 : ~ In 2 (cline (hist _ (fst_ 42)))) by (vm_compute; tauto). assert (N4 : ~ In 4 (cline (hist _ (fst_ 42)))) by (vm_compute; tauto).
  split; [exact f_fair|]. split; [split; [vm_compute; reflexivity|split; [vm_compute; tauto|vm_compute; reflexivity]]|]. split; [vm_compute; reflexivity|].
  split; [split; [vm_compute; reflexivity|split; [vm_compute; reflexivity|exact N1]]|]. split; [split; [vm_compute; reflexivity|split; [vm_compute; reflexivity|exact N4]]|].
  split; [split; [vm_compute; reflexivity|split; [vm_compute; reflexivity|exact N2]]|].
  intros m L. destruct (le_lt_dec (length f_ls) m) as [Lm|Lm]; [rewrite f_final by auto; vm_compute; reflexivity|].
  assert (Q : In m (seq 42 (length f_ls - 42))) by (apply in_seq; lia).
  assert (F : forallb (fun m => 5 <=? shared nat 0 Nat.add (hist _ (fst_ m))) (seq 42 (length f_ls - 42)) = true) by (vm_compute; reflexivity).
  rewrite forallb_forall in F. exact (F m Q).
Qed.
