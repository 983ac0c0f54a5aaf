(** Which lock protects which object; the programs keep to it. *)
From Coq Require Import List Arith Bool Lia.
From Verif Require Import Base RaceSpec RaceModel.
Import ListNotations.

(** The rule: an object is used only under a lock, used only by one thread, never written, or without rule. *)
Inductive rule := ByLock (l : lock) | ByThread (t : nat) | Frozen | NoRule.
(** What a client may do that upsets the rule for an object: ask for the information dump; set a number; shut down; let a
    coroutine end with an exception. *)
Inductive cause := CDump | CBase | CMax | CSize | CTick | CStop | CThrow.
Definition cause_eq (x y : cause) : {x = y} + {x <> y}. Proof. decide equality. Defined.
Definition causes (c : call) : option cause :=
  match c with
  | KInfo _ _ => Some CDump
  | KSetBase => Some CBase
  | KSetMax => Some CMax
  | KSetSize => Some CSize
  | KSetTick => Some CTick
  | KCleanUp _ => Some CStop
  | KFinish _ true _ | KWaitEnd _ _ _ _ (Some true) => Some CThrow
  | _ => None
  end.
(** The rules where only the causes d occur. *)
Definition rule_of (d : cause -> bool) (x : loc) : rule :=
  match x with
  | XNormal | XExpired => ByLock Mgr
  | XTimers => ByLock TQ
  | XEFlags e => ByLock (EFl e)
  | XEState e => ByLock (ESt e)
  | XList e | XCount e => ByLock (Normal e)
  | XMin e => ByLock (MinP e)
  | XInfo e => ByThread e
  | XCFlags c => ByLock (CFl c)
  | XCState c => ByLock (CSt c)
  | XWait c => ByLock (Wait c)
  | XCall t | XExpire t | XStatus t => ByLock (Tm t)
  | XEvent l => ByLock l
  | XPrio c => if d CDump then NoRule else ByLock (Prio c)
  | XBase => if d CBase then NoRule else Frozen
  | XMax => if d CMax then NoRule else Frozen
  | XSize => if d CSize then NoRule else Frozen
  | XTick => if d CTick then NoRule else Frozen
  | XClean => if d CStop then NoRule else Frozen
  | XExc _ => if d CThrow then NoRule else Frozen
  | XTid _ | XShared _ | XLocals _ | XRegs _ => NoRule
  end.

(** How often the rest of a program unlocks l more than it locks it: how often l is held. *)
Fixpoint need (l : lock) (p : list rop) : nat :=
  match p with
  | [] => 0
  | Lk m :: r => if lock_eq l m then pred (need l r) else need l r
  | All ms :: r => need l r - count_occ lock_eq ms l
  | Ul m :: r => if lock_eq l m then S (need l r) else need l r
  | _ :: r => need l r
  end.
(** What an access needs. *)
Definition allowed (d : cause -> bool) (t : nat) (w : bool) (x : loc) (r : list rop) : Prop :=
  match rule_of d x with ByLock l => 1 <= need l r | ByThread e => e = t | Frozen => w = false | NoRule => True end.
(** A program whose locks are all unlocked and whose accesses keep to the rule. *)
Fixpoint good (d : cause -> bool) (t : nat) (p : list rop) : Prop :=
  match p with
  | [] => True
  | Lk l :: r => 1 <= need l r /\ good d t r
  | All ls :: r => (forall l, count_occ lock_eq ls l <= need l r) /\ good d t r
  | Rd x :: r => allowed d t false x r /\ good d t r
  | Wr x :: r => allowed d t true x r /\ good d t r
  | _ :: r => good d t r
  end.

(** A piece of program that gives back what it takes and keeps to the rule where the locks H are held. *)
Definition ok (d : cause -> bool) (t : nat) (H : list lock) (p : list rop) : Prop :=
  forall k, (forall l, In l H -> 1 <= need l k) -> (forall l, need l (p ++ k) = need l k) /\ (good d t k -> good d t (p ++ k)).

Section Pieces.
  Variables (d : cause -> bool) (t : nat).
  Notation ok := (ok d t).

  Lemma ok_nil : forall H, ok H [].
  Proof. intros H k _. simpl. auto. Qed.
  Lemma ok_app : forall H p q, ok H p -> ok H q -> ok H (p ++ q).
  Proof.
    intros H p q P Q k K. destruct (Q k K) as [Q1 Q2]. rewrite <- app_assoc. destruct (P (q ++ k)) as [P1 P2].
    - intros l I. rewrite Q1. auto.
    - split; [intros l; now rewrite P1|auto].
  Qed.
  Lemma ok_sub : forall H H' p, (forall l, In l H -> In l H') -> ok H p -> ok H' p.
  Proof. intros H H' p S P k K. apply P. auto. Qed.
  Lemma ok_crit : forall H l p, ok (l :: H) p -> ok H (crit l p).
  Proof.
    intros H l p P k K. unfold crit. rewrite <- !app_assoc. destruct (P (Ul l :: k)) as [P1 P2].
    - intros m [<-|I]; simpl; destruct (lock_eq _ _); try congruence; try lia; auto.
    - split.
      + intros m. simpl. rewrite P1. simpl. destruct (lock_eq m l); auto.
      + intros G. split; [|apply P2; exact G]. rewrite P1. simpl. destruct (lock_eq l l); [lia|congruence].
  Qed.
  Lemma ok_open : forall H l p, In l H -> ok (remove lock_eq l H) p -> ok H (open l p).
  Proof.
    intros H l p L P k K. unfold open. rewrite <- !app_assoc. destruct (P (Lk l :: k)) as [P1 P2].
    - intros m I. apply in_remove in I as [I N]. simpl. destruct (lock_eq m l); [congruence|auto].
    - split.
      + intros m. simpl. rewrite P1. simpl. destruct (lock_eq m l) as [->|]; auto. specialize (K l L). lia.
      + intros G. simpl. apply P2. split; auto.
  Qed.
  Lemma need_unall : forall l ls k, need l (unall ls ++ k) = count_occ lock_eq ls l + need l k.
  Proof.
    intros l ls k. induction ls as [|m r IH]; simpl; auto. rewrite IH. destruct (lock_eq l m), (lock_eq m l); subst; try congruence; lia.
  Qed.
  Lemma good_unall : forall ls k, good d t k -> good d t (unall ls ++ k).
  Proof. induction ls; simpl; auto. Qed.
  Lemma ok_crits : forall H ls p, ok (ls ++ H) p -> ok H (crits ls p).
  Proof.
    intros H ls p P k K. unfold crits. rewrite <- !app_assoc. destruct (P (unall ls ++ k)) as [P1 P2].
    - intros m I. rewrite need_unall. apply in_app_or in I as [I|I].
      + apply (count_occ_In lock_eq) in I. lia.
      + apply K in I. lia.
    - split.
      + intros m. simpl. rewrite P1, need_unall. lia.
      + intros G. split; [|apply P2, good_unall, G]. intros m. rewrite P1, need_unall. lia.
  Qed.
  Lemma ok_each : forall A H (f : A -> list rop) xs, (forall x, ok H (f x)) -> ok H (each f xs).
  Proof. intros A H f xs F. induction xs; simpl; [apply ok_nil|apply ok_app; auto]. Qed.
  Lemma ok_opt : forall A H (f : A -> list rop) x, (forall y, ok H (f y)) -> ok H (opt x f).
  Proof. intros A H f [y|] F; [apply F|apply ok_nil]. Qed.
  Lemma ok_when : forall H b p, ok H p -> ok H (when b p).
  Proof. intros H [] p P; [exact P|apply ok_nil]. Qed.
  Lemma ok_cons : forall H o p, ok H [o] -> ok H p -> ok H (o :: p).
  Proof. intros H o p. apply (ok_app H [o] p). Qed.
  Lemma ok_cnt : forall H e, ok H [Cnt e]. Proof. intros H e k K. simpl. auto. Qed.
  Lemma ok_ldc : forall H e, ok H [LdC e]. Proof. intros H e k K. simpl. auto. Qed.
  Lemma ok_ld : forall H e, ok H [Ld e]. Proof. intros H e k K. simpl. auto. Qed.
  Lemma ok_st : forall H e, ok H [St e]. Proof. intros H e k K. simpl. auto. Qed.
  (** The access is under the lock, by the thread, no write, or free. *)
  Definition may (w : bool) (H : list lock) (x : loc) : Prop :=
    match rule_of d x with ByLock l => In l H | ByThread e => e = t | Frozen => w = false | NoRule => True end.
  Lemma may_allowed : forall w H x k, may w H x -> (forall l, In l H -> 1 <= need l k) -> allowed d t w x k.
  Proof. intros w H x k M K. unfold may, allowed in *. destruct (rule_of d x); auto. Qed.
  Lemma ok_rd : forall H x, may false H x -> ok H [Rd x].
  Proof. intros H x M k K. simpl. split; auto. intros G. split; auto. eapply may_allowed; eauto. Qed.
  Lemma ok_wr : forall H x, may true H x -> ok H [Wr x].
  Proof. intros H x M k K. simpl. split; auto. intros G. split; auto. eapply may_allowed; eauto. Qed.
  Lemma ok_guard : forall H m p, ok H p -> ok H (guard m p).
  Proof. intros. unfold guard. apply ok_app; [apply ok_cnt|]. apply ok_app; auto using ok_cnt. Qed.
  Lemma ok_scrit : forall H e p, ok (Sched e :: H) p -> ok H (scrit e p).
  Proof. intros. unfold scrit. apply ok_app; [apply ok_cnt|]. apply ok_app; auto using ok_cnt, ok_crit. Qed.
  Lemma ok_sopen : forall H e p, In (Sched e) H -> ok (remove lock_eq (Sched e) H) p -> ok H (sopen e p).
  Proof. intros. unfold sopen. apply ok_open; auto. apply ok_app; [apply ok_cnt|]. apply ok_app; auto using ok_cnt. Qed.
  Lemma ok_event : forall H l w p, ok (l :: H) p -> ok H (event l w p).
  Proof.
    intros H l w p P. unfold event. apply ok_crit. apply ok_app; [|apply ok_app; auto]; [apply ok_rd|apply ok_when, ok_wr]; unfold may; simpl; auto.
  Qed.
End Pieces.
Lemma opt_some : forall A (x : A) f, opt (Some x) f = f x. Proof. reflexivity. Qed.
Lemma opt_none : forall A (f : A -> list rop), opt None f = []. Proof. reflexivity. Qed.
Lemma when_true : forall p, when true p = p. Proof. reflexivity. Qed.
Lemma when_false : forall p, when false p = []. Proof. reflexivity. Qed.
#[global] Opaque crit open crits guard scrit sopen event each opt when.

(** Breaking a program into pieces; [known] are the lemmas about functions. *)
Create HintDb known.
Ltac held := unfold may; simpl; repeat match goal with |- context [if ?b then _ else _] => destruct b end; simpl; first [reflexivity | discriminate | tauto].
Ltac pieces :=
  repeat first
    [ solve [eauto 3 with known]
    | match goal with
      | |- ok _ _ _ [] => apply ok_nil
      | |- ok _ _ _ (_ ++ _) => apply ok_app
      | |- ok _ _ _ (crit _ _) => apply ok_crit
      | |- ok _ _ _ (crits _ _) => apply ok_crits
      | |- ok _ _ _ (open _ _) => apply ok_open; [simpl; tauto|]
      | |- ok _ _ _ (guard _ _) => apply ok_guard
      | |- ok _ _ _ (scrit _ _) => apply ok_scrit
      | |- ok _ _ _ (event _ _ _) => apply ok_event
      | |- ok _ _ _ (each _ _) => apply ok_each; intros
      | |- ok _ _ _ (opt _ _) => apply ok_opt; intros
      | |- ok _ _ _ (when _ _) => apply ok_when
      | |- ok _ _ _ [Rd _] => apply ok_rd; held
      | |- ok _ _ _ [Wr _] => apply ok_wr; held
      | |- ok _ _ _ [Cnt _] => apply ok_cnt
      | |- ok _ _ _ [LdC _] => apply ok_ldc
      | |- ok _ _ _ [Ld _] => apply ok_ld
      | |- ok _ _ _ [St _] => apply ok_st
      | |- ok _ _ _ (_ :: _ :: _) => apply ok_cons
      | |- ok _ _ _ (match ?x with _ => _ end) => destruct x
      end ].

Section Functions.
  Variables (d : cause -> bool) (t : nat).
  Notation ok := (ok d t).

  Lemma eflag_ok : forall H e w, ok H (eflag e w). Proof. intros H e []; unfold eflag; pieces. Qed.
  Lemma estate_ok : forall H e w, ok H (estate e w). Proof. intros H e w; unfold estate; pieces. Qed.
  Lemma cflag_ok : forall H e w, ok H (cflag e w). Proof. intros H e []; unfold cflag; pieces. Qed.
  Lemma cstate_ok : forall H e w, ok H (cstate e w). Proof. intros H e w; unfold cstate; pieces. Qed.
  Hint Resolve eflag_ok estate_ok cflag_ok cstate_ok : known.
  Lemma priority_ok : forall H c, ok H (priority c). Proof. intros; unfold priority; pieces. Qed.
  Lemma update_min_ok : forall H e, ok H (update_min e). Proof. intros; unfold update_min; pieces. Qed.
  Hint Resolve priority_ok update_min_ok : known.
  Lemma handle_changed_ok : forall H e c, ok H (handle_changed e c). Proof. intros; unfold handle_changed; pieces. Qed.
  Hint Resolve handle_changed_ok : known.
  Lemma set_priority_ok : forall H c f, ok H (set_priority c f). Proof. intros; unfold set_priority; pieces. Qed.
  Lemma can_schedule_ok : forall H c, ok H (can_schedule c). Proof. intros; unfold can_schedule; pieces. Qed.
  Lemma can_move_ok : forall H c, ok H (can_move c). Proof. intros; unfold can_move; pieces. Qed.
  Lemma set_state_ok : forall H c, ok H (set_state c). Proof. intros; unfold set_state; pieces. Qed.
  Lemma wake_up_ok : forall H m e, ok H (wake_up m e). Proof. intros; unfold wake_up; pieces. Qed.
  Lemma workload_ok : forall H e, ok H (workload e). Proof. intros; unfold workload; pieces. Qed.
  Hint Resolve set_priority_ok can_schedule_ok can_move_ok set_state_ok wake_up_ok workload_ok : known.
  Lemma stop_schedule_ok : forall H m e, ok H (stop_schedule m e). Proof. intros; unfold stop_schedule; pieces. Qed.
  Lemma need_sleep_ok : forall H e cs, ok H (need_sleep e cs). Proof. intros; unfold need_sleep; pieces. Qed.
  Lemma choose_ok : forall H e cs b, ok H (choose e cs b). Proof. intros; unfold choose; pieces. Qed.
  Hint Resolve stop_schedule_ok need_sleep_ok choose_ok : known.
  Lemma sleep_if_need_ok : forall H m e css cs w, ok H (sleep_if_need m e css cs w).
  Proof. intros; unfold sleep_if_need; pieces. apply ok_sopen; [now left|pieces]. Qed.
  Lemma all_ctx_ok : forall H m e, ok H (all_ctx m e). Proof. intros; unfold all_ctx; pieces. Qed.
  Lemma remove_ctx_ok : forall H m e c, ok H (remove_ctx m e c). Proof. intros; unfold remove_ctx; pieces. Qed.
  Hint Resolve sleep_if_need_ok all_ctx_ok remove_ctx_ok : known.
  Lemma remove_detached_ok : forall H m e cs rem, ok H (remove_detached m e cs rem). Proof. intros; unfold remove_detached; pieces. Qed.
  Lemma change_ok : forall H a b sh, ok H (change t a b sh). Proof. intros; unfold change; pieces. Qed.
  Hint Resolve remove_detached_ok change_ok : known.
  Lemma prepare_ok : forall H cs x, In (Sched t) H -> ok H (prepare t cs x).
  Proof. intros H cs x I; unfold prepare; pieces. apply ok_sopen; auto; pieces. Qed.
  Lemma go_ok : forall H p, ok H (go p). Proof. intros; unfold go; pieces. Qed.
  Hint Resolve prepare_ok go_ok : known.
  Lemma schedule_switch_ok : forall H cs rem x, ok H (schedule_switch t cs rem x).
  Proof. intros; unfold schedule_switch; pieces; apply prepare_ok; now left. Qed.
  Lemma resume_ok : forall H e, ok H (resume e). Proof. intros; unfold resume; pieces. Qed.
  Lemma handler_ok : forall H cs x, ok H (handler t cs x). Proof. intros; unfold handler; pieces. apply prepare_ok; now left. Qed.
  Lemma start_routine_ok : forall H e, ok H (start_routine e). Proof. intros; unfold start_routine; pieces. Qed.
  Lemma routine_round_ok : forall H css cs, ok H (routine_round t css cs). Proof. intros; unfold routine_round; pieces. apply ok_sopen; [now left|pieces]. Qed.
  Lemma move_here_ok : forall H m e c, ok H (move_here m e c). Proof. intros; unfold move_here; pieces. Qed.
  Hint Resolve schedule_switch_ok resume_ok handler_ok start_routine_ok routine_round_ok move_here_ok : known.
  Lemma add_ctx_ok : forall H m e c sh, ok H (add_ctx m e c sh). Proof. intros; unfold add_ctx; pieces. Qed.
  Lemma create_env_ok : forall H e b, ok H (create_env e b). Proof. intros; unfold create_env; pieces. Qed.
  Lemma create_env_here_ok : forall H e, ok H (create_env_here e). Proof. intros; unfold create_env_here; pieces. Qed.
  Hint Resolve add_ctx_ok create_env_ok create_env_here_ok : known.
  Lemma get_best_ok : forall H b, ok H (get_best b). Proof. intros H [[es b] new]; unfold get_best; pieces. Qed.
  Hint Resolve get_best_ok : known.
  Lemma create_ctx_ok : forall H m c b e sh, ok H (create_ctx m c b e sh). Proof. intros; unfold create_ctx; pieces. Qed.
  Lemma enter_wait_ok : forall H w, ok H (enter_wait w). Proof. intros; unfold enter_wait; pieces. Qed.
  Lemma leave_wait_ok : forall H m w e b i, ok H (leave_wait m w e b i). Proof. intros; unfold leave_wait; pieces. Qed.
  Hint Resolve create_ctx_ok enter_wait_ok leave_wait_ok : known.
  Lemma wake_ok : forall H m w, ok H (wake m w). Proof. intros H m [[[w e] b] i]; unfold wake; pieces. Qed.
  Lemma enqueue_ok : forall H cmp, ok H (enqueue cmp). Proof. intros; unfold enqueue; pieces. Qed.
  Hint Resolve wake_ok enqueue_ok : known.
  Lemma timer_start_ok : forall H x c, ok H (timer_start x c). Proof. intros; unfold timer_start; pieces. Qed.
  Lemma timer_stop_ok : forall H x c, ok H (timer_stop x c). Proof. intros; unfold timer_stop; pieces. Qed.
  Lemma timer_callback_ok : forall H x, ok H (timer_callback x). Proof. intros; unfold timer_callback; pieces. Qed.
  Hint Resolve timer_start_ok timer_stop_ok timer_callback_ok : known.
  Lemma timer_run_ok : forall H m x u w, ok H (timer_run m x u w). Proof. intros; unfold timer_run; pieces. Qed.
  Lemma timer_round_ok : forall H m e x, ok H (timer_round m e x).
  Proof. intros; unfold timer_round; pieces. Qed.
  Lemma wait_ctx_ok : forall H e c w b tm g, ok H (wait_ctx e c w b tm g). Proof. intros; unfold wait_ctx; pieces. Qed.
  Lemma wait_end_ok : forall H e c w b tm ex, implb (match ex with Some b => b | None => false end) (d CThrow) = true -> ok H (wait_end e c w b tm ex).
  Proof. intros H e c w b tm [[]|] D; unfold wait_end; simpl in D; rewrite ?opt_some, ?opt_none, ?when_true, ?when_false; pieces. Qed.
  Lemma finish_ok : forall H m c ex subs, implb ex (d CThrow) = true -> ok H (finish m c ex subs).
  Proof. intros H m c [] subs D; unfold finish; simpl in D; rewrite ?when_true, ?when_false; pieces. Qed.
  Lemma sleep_until_ok : forall H e w x cmp, ok H (sleep_until e w x cmp). Proof. intros; unfold sleep_until; pieces. Qed.
  Lemma force_schedule_ok : forall H es, ok H (force_schedule es). Proof. intros; unfold force_schedule; pieces. Qed.
  Lemma take_ok : forall H e cs, ok H (take e cs). Proof. intros; unfold take; pieces. Qed.
  Hint Resolve timer_run_ok timer_round_ok wait_ctx_ok sleep_until_ok force_schedule_ok take_ok : known.
  Lemma redistribute_ok : forall H m es mv, ok H (redistribute m es mv). Proof. intros; unfold redistribute; pieces. Qed.
  Lemma steal_ok : forall H m es ps, ok H (steal m es ps). Proof. intros; unfold steal; pieces. Qed.
  Lemma destroy_redundant_ok : forall H m es stop, ok H (destroy_redundant m es stop). Proof. intros; unfold destroy_redundant; pieces. Qed.
  Hint Resolve redistribute_ok steal_ok destroy_redundant_ok : known.
  Lemma monitor_round_ok : forall H m es s, ok H (monitor_round m es s). Proof. intros; unfold monitor_round; pieces. Qed.
  Lemma remove_env_ok : forall H, ok H remove_env. Proof. intros; unfold remove_env; pieces. Qed.
  Hint Resolve monitor_round_ok remove_env_ok : known.
  Lemma tell_stop_ok : forall H m es, ok H (tell_stop m es). Proof. intros; unfold tell_stop; pieces. Qed.
  Hint Resolve tell_stop_ok : known.
  Lemma set_clean_up_ok : forall H m es, d CStop = true -> ok H (set_clean_up m es).
  Proof. intros H m es D; unfold set_clean_up; pieces. Qed.
  Lemma clean_round_ok : forall H m es, ok H (clean_round m es). Proof. intros; unfold clean_round; pieces. Qed.
  Lemma end_env_ok : forall H e rem, ok H (end_env e rem). Proof. intros; unfold end_env; pieces. Qed.
  Hint Resolve clean_round_ok end_env_ok : known.
  Lemma ctx_info_ok : forall H c, d CDump = true -> ok H (ctx_info c).
  Proof. intros H c D; unfold ctx_info; pieces. Qed.
  Lemma env_info_ok : forall H p, d CDump = true -> ok H (env_info p).
  Proof. intros H p D; unfold env_info; pieces; now apply ctx_info_ok. Qed.
  Lemma manager_info_ok : forall H es ts, d CDump = true -> ok H (manager_info es ts).
  Proof. intros H es ts D; unfold manager_info; pieces; now apply env_info_ok. Qed.

  (** The call has only causes that are allowed for. *)
  Definition permits (c : call) : bool := match causes c with Some x => d x | None => true end.
  Lemma code_ok : forall c, permits c = true -> ok [] (code t c).
  Proof.
    intros c D. unfold permits in D. destruct c; simpl in D |- *; try solve [pieces].
    - apply wait_end_ok. destruct ex as [[]|]; auto.
    - apply finish_ok. destruct ex; auto.
    - now apply set_clean_up_ok.
    - now apply manager_info_ok.
  Qed.
End Functions.
