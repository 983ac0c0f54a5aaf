(** C124: the counters that hold off preemption stay right when coroutines are moved. *)
From Coq Require Import List Arith ZArith Bool Lia.
From Verif Require Import Base.
From Verif Require Import MoveModel.
Import ListNotations.
Local Open Scope Z_scope.

(** How often the coroutines that are on env [e] now have raised minus lowered counters: what the counter of [e] ought to be. *)
Fixpoint inside (n : nat) (at_ : nat -> nat) (dep : nat -> Z) (e : nat) : Z :=
  match n with 0%nat => 0 | S m => inside m at_ dep e + (if (at_ m =? e)%nat then dep m else 0) end.
Definition right (n : nat) (s : mvst) : Prop := forall e, cnt s e = inside n (at_ s) (dep s) e.

Lemma inside_dep : forall n a d e c x, inside n a (upd d c (d c + x)) e = inside n a d e + (if (c <? n)%nat && (a c =? e)%nat then x else 0).
Proof.
  induction n as [|m IH]; intros a d e c x; [simpl; lia|]. cbn [inside]. rewrite IH. destruct (Nat.eq_dec m c) as [->|N].
  - rewrite upd_same. replace (c <? c)%nat with false by (symmetry; apply Nat.ltb_irrefl). replace (c <? S c)%nat with true by (symmetry; apply Nat.ltb_lt; lia).
    simpl. destruct (a c =? e)%nat; lia.
  - rewrite upd_other by auto. replace (c <? S m)%nat with (c <? m)%nat; [lia|]. destruct (Nat.ltb_spec c m), (Nat.ltb_spec c (S m)); auto; lia.
Qed.
Lemma inside_at : forall n a d e c x, d c = 0 -> inside n (upd a c x) d e = inside n a d e.
Proof.
  induction n as [|m IH]; intros a d e c x D; [reflexivity|]. cbn [inside]. rewrite IH by auto. f_equal. destruct (Nat.eq_dec m c) as [->|N]; [|now rewrite upd_other].
  rewrite D. now destruct (upd a c x c =? e)%nat, (a c =? e)%nat.
Qed.
(** Guards refer to the env of their coroutine. *)
Definition refs_ok (s : mvst) : Prop := forall c x, In x (refs s c) -> x = at_ s c.
(** What one operation on counters does to the difference between a counter and what it ought to be. *)
Lemma bump_diff : forall n a (k : nat -> Z) d c x e, (c < n)%nat -> upd k (a c) (k (a c) + x) e - inside n a (upd d c (d c + x)) e = k e - inside n a d e.
Proof.
  intros n a k d c x e L. rewrite inside_dep. apply Nat.ltb_lt in L. rewrite L. destruct (Nat.eq_dec e (a c)) as [->|N].
  - rewrite upd_same, Nat.eqb_refl. simpl. lia.
  - rewrite upd_other by auto. replace (a c =? e)%nat with false by (symmetry; apply Nat.eqb_neq; auto). simpl. lia.
Qed.
Lemma step_diff : forall mv fx n s l s', (fx = true \/ refs_ok s) -> (mv = false \/ fx = true) -> mvstep mv fx n s l = Some s' ->
  (forall e, cnt s' e - inside n (at_ s') (dep s') e = cnt s e - inside n (at_ s) (dep s) e) /\ (mv = false -> refs_ok s -> refs_ok s' /\ at_ s' = at_ s).
Proof.
  intros mv fx n s l s' R F E. destruct l as [c|c|e c|c e]; simpl in E.
  - destruct ((c <? n)%nat) eqn:L; [|discriminate]. destruct (match cur s (at_ s c) with Some d => _ | None => false end); [|discriminate]. simpl in E.
    apply Nat.ltb_lt in L. destruct (prog s c) as [|[] r]; try discriminate.
    + injection E as <-. simpl. split; [auto|]. intros _ K. split; [|reflexivity]. intros d x I. simpl in *. destruct (Nat.eq_dec d c) as [->|N].
      * rewrite upd_same in I. destruct I as [<-|I]; auto.
      * rewrite upd_other in I by auto. auto.
    + destruct (refs s c) as [|x rf] eqn:Q; [discriminate|]. injection E as <-. simpl.
      assert (X : (if fx then at_ s c else x) = at_ s c) by (destruct R as [->|R]; [reflexivity|destruct fx; [reflexivity|apply R; rewrite Q; now left]]).
      rewrite X. split; [intros e; now apply bump_diff|]. intros _ K. split; [|reflexivity]. intros d y I. simpl in *.
      destruct (Nat.eq_dec d c) as [->|N]; [rewrite upd_same in I; apply K; now rewrite Q|rewrite upd_other in I by auto; auto].
    + injection E as <-. simpl. split; [intros e; now apply bump_diff|]. intros _ K. split; [|reflexivity]. intros d y I. simpl in *.
      destruct (Nat.eq_dec d c) as [->|N]; [rewrite upd_same in I; now apply K|rewrite upd_other in I by auto; auto].
    + injection E as <-. simpl. split; [intros e; now apply bump_diff|]. intros _ K. split; [|reflexivity]. intros d y I. simpl in *.
      destruct (Nat.eq_dec d c) as [->|N]; [rewrite upd_same in I; now apply K|rewrite upd_other in I by auto; auto].
    + injection E as <-. simpl. split; auto.
    + destruct (refs s c) as [|x rf] eqn:Q; [discriminate|]. injection E as <-. simpl.
      assert (X : (if fx then at_ s c else x) = at_ s c) by (destruct R as [->|R]; [reflexivity|destruct fx; [reflexivity|apply R; rewrite Q; now left]]).
      rewrite X. split; [intros e; now apply bump_diff|]. intros _ K. split; [|reflexivity]. intros d y I. simpl in *.
      destruct (Nat.eq_dec d c) as [->|N]; [rewrite upd_same in I; apply K; rewrite Q; now right|rewrite upd_other in I by auto; auto].
  - destruct (_ && _); [|discriminate]. injection E as <-. simpl. split; auto.
  - destruct (cur s e); [discriminate|]. destruct (_ && _); [|discriminate]. injection E as <-. simpl. split; auto.
  - destruct mv; [|discriminate]. destruct F as [F| ->]; [discriminate|]. destruct ((c <? n)%nat); [|discriminate]. destruct (match cur s (at_ s c) with Some d => _ | None => false end); [discriminate|].
    destruct (cnt s (at_ s c) =? 0); [|discriminate]. simpl in E. destruct (Z.eqb_spec (dep s c) 0) as [D|]; [|discriminate]. injection E as <-. simpl. split; [|discriminate]. intros x. now rewrite inside_at.
Qed.

(** REFUTED once coroutines are moved: one call of co_mutex::lock that waits once, moved from env 0 to env 1 while it waits, leaves the counter of
    env 0 at -1 and that of env 1 at 1, with nobody inside anything. *)
Definition moved : list mvlbl := [VPick 0 5; VExec 5; VExec 5; VExec 5; VExec 5; VMove 5 1; VPick 1 5; VExec 5; VExec 5].
Theorem move_refuted : exists s, run (mvstep true false 9) (mvinit (fun _ => 0%nat) (fun _ => lock_prog 1)) moved = Some s /\
  (forall c, dep s c = 0) /\ prog s 5 = [] /\ refs s 5 = [] /\ cnt s 0 = -1 /\ cnt s 1 = 1 /\ ~ right 9 s.
Proof.
  destruct (run (mvstep true false 9) (mvinit (fun _ => 0%nat) (fun _ => lock_prog 1)) moved) as [s|] eqn:E; [|vm_compute in E; discriminate E].
  vm_compute in E. injection E as <-. eexists. split; [reflexivity|]. split; [intros c; do 6 (destruct c as [|c]; [reflexivity|]); reflexivity|].
  do 4 (split; [reflexivity|]). intros R. specialize (R 1%nat). discriminate R.
Qed.
Print Assumptions move_refuted.
(** A move between the reference and the raising of the counter leaves the coroutine inside its guard open to preemption. *)
Theorem move_guard_refuted : exists s, run (mvstep true false 9) (mvinit (fun _ => 0%nat) (fun _ => unlock_prog))
    [VPick 0 5; VExec 5; VPreempt 5; VMove 5 1; VPick 1 5; VExec 5; VPreempt 5] = Some s /\ dep s 5 = 1 /\ cur s 1%nat = None.
Proof. eexists. split; [vm_compute; reflexivity|]. split; reflexivity. Qed.
Print Assumptions move_guard_refuted.
(** The damage is for ever: from any state in which no guard exists, however wrong the counters are, they stay as wrong as they are as long as nothing is
    moved; an env whose counter is wrong is not preempted any more when nobody on it is inside a guard. *)
Theorem move_stuck : forall n s ls s', (forall c, refs s c = []) -> run (mvstep false false n) s ls = Some s' ->
  forall e, cnt s' e - inside n (at_ s') (dep s') e = cnt s e - inside n (at_ s) (dep s) e.
Proof.
  intros n s ls s' R0 R. assert (K : refs_ok s) by (intros c x I; rewrite R0 in I; contradiction). clear R0. revert s K R.
  induction ls as [|l ls IH]; intros s K R e; [now injection R as <-|]. cbn [run] in R. destruct (mvstep false false n s l) as [s1|] eqn:E; [|discriminate R].
  destruct (step_diff _ _ _ _ _ _ (or_intror K) (or_introl eq_refl) E) as [D F]. destruct (F eq_refl K) as [K1 _]. rewrite (IH s1 K1 R e). apply D.
Qed.
Print Assumptions move_stuck.
Theorem move_never_preempted : forall n s ls s' c, (forall d, refs s d = []) -> run (mvstep false false n) s ls = Some s' ->
  cnt s (at_ s' c) <> inside n (at_ s) (dep s) (at_ s' c) -> inside n (at_ s') (dep s') (at_ s' c) = 0 -> mvstep false false n s' (VPreempt c) = None.
Proof.
  intros n s ls s' c R0 R W I. assert (D := move_stuck n s ls s' R0 R (at_ s' c)). simpl. replace (cnt s' (at_ s' c) =? 0) with false by (symmetry; apply Z.eqb_neq; lia).
  now rewrite andb_false_r.
Qed.
Print Assumptions move_never_preempted.

(** What holds of the code as it is, which moves nothing: the counters are right in every state. *)
Theorem move_partial : forall n a p ls s, run (mvstep false false n) (mvinit a p) ls = Some s -> right n s.
Proof.
  intros n a p ls s R e. assert (D := move_stuck n (mvinit a p) ls s (fun _ => eq_refl) R e). simpl in D.
  assert (Z0 : forall m, inside m a (fun _ => 0) e = 0) by (induction m as [|m IH]; cbn [inside]; [reflexivity|]; rewrite IH; now destruct (a m =? e)%nat).
  rewrite Z0 in D. lia.
Qed.
Print Assumptions move_partial.
(** With guards that act on the env that is current, and moving only coroutines that are inside no guard, they are right with moves as well. *)
Theorem move_corrected_all : forall n a p ls s, run (mvstep true true n) (mvinit a p) ls = Some s -> right n s.
Proof.
  intros n a p ls s. apply (run_inv (mvstep true true n) (right n)).
  - intros e. simpl. induction n as [|m IH]; cbn [inside]; [reflexivity|]. rewrite <- IH. now destruct (a m =? e)%nat.
  - intros s1 l s2 R E e. destruct (step_diff _ _ _ _ _ _ (or_introl eq_refl) (or_intror eq_refl) E) as [D _]. specialize (D e). specialize (R e). lia.
Qed.
Print Assumptions move_corrected_all.
(** So a coroutine inside a guard is not preempted, without moves or with the correction, if no coroutine on its env has opened more than it closed; and one
    whose env has nobody inside a guard is, whenever the signal comes. *)
Lemma inside_pos : forall n a d c, (forall x, 0 <= d x) -> (c < n)%nat -> d c <= inside n a d (a c).
Proof.
  induction n as [|m IH]; intros a d c P L; [lia|]. cbn [inside]. assert (Q : forall k e, 0 <= inside k a d e).
  { induction k as [|k IHk]; intros e; cbn [inside]; [lia|]. specialize (IHk e). specialize (P k). destruct (a k =? e)%nat; lia. }
  destruct (Nat.eq_dec c m) as [->|N]; [rewrite Nat.eqb_refl; specialize (Q m (a m)); lia|]. assert (K := IH a d c P ltac:(lia)). specialize (P m). destruct (a m =? a c)%nat; lia.
Qed.
Theorem move_held : forall b n a p ls s c, run (mvstep b b n) (mvinit a p) ls = Some s -> (c < n)%nat -> cur s (at_ s c) = Some c ->
  ((forall d, 0 <= dep s d) -> 0 < dep s c -> mvstep b b n s (VPreempt c) = None) /\
  ((forall d, (d < n)%nat -> at_ s d = at_ s c -> dep s d = 0) -> exists s', mvstep b b n s (VPreempt c) = Some s' /\ cur s' (at_ s c) = None).
Proof.
  intros b n a p ls s c R L U. assert (K : right n s) by (destruct b; [eapply move_corrected_all|eapply move_partial]; exact R). apply Nat.ltb_lt in L as L'.
  unfold mvstep. rewrite L', U, Nat.eqb_refl, (K (at_ s c)). cbn [andb]. split.
  - intros P D. assert (X := inside_pos n (at_ s) (dep s) c P L). replace (_ =? 0) with false by (symmetry; apply Z.eqb_neq; lia). reflexivity.
  - intros D. assert (X : inside n (at_ s) (dep s) (at_ s c) = 0).
    { clear - D. revert D. generalize (at_ s c) as e. intros e D. induction n as [|m IH]; [reflexivity|]. cbn [inside]. rewrite IH by (intros d Ld; apply D; lia).
      destruct (Nat.eqb_spec (at_ s m) e) as [Q|Q]; [rewrite D by (auto; lia)|]; reflexivity. }
    rewrite X. cbn. eexists. split; [reflexivity|]. simpl. apply upd_same.
Qed.
Print Assumptions move_held.
(** After the schedule of move_refuted the hypotheses of move_never_preempted hold of both envs. *)
Example move_never_example : match run (mvstep true false 9) (mvinit (fun _ => 0%nat) (fun c => if (c =? 5)%nat then lock_prog 1 else [])) (moved ++ [VPick 0 6]) with
  | Some s => forallb (fun c => match refs s c with [] => true | _ => false end) (seq 0 9) = true /\ cnt s 0 <> inside 9 (at_ s) (dep s) 0 /\ cnt s 1 <> inside 9 (at_ s) (dep s) 1 /\ mvstep false false 9 s (VPreempt 6) = @None mvst /\ mvstep false false 9 s (VPreempt 5) = @None mvst
  | None => False
  end.
Proof. vm_compute. repeat split; try reflexivity; discriminate. Qed.
(** The schedule of move_refuted with corrected guards. *)
Example move_example : option_map (fun s => (cnt s 0%nat, cnt s 1%nat, at_ s 5%nat, prog s 5%nat))
    (run (mvstep true true 9) (mvinit (fun _ => 0%nat) (fun _ => lock_prog 1)) moved) = Some (0, 0, 1%nat, []) /\
  option_map (fun s => (cnt s 0%nat, dep s 5%nat, dep s 6%nat))
    (run (mvstep false false 9) (mvinit (fun _ => 0%nat) (fun _ => lock_prog 2)) [VPick 0 5; VExec 5; VExec 5; VExec 5; VExec 5; VPick 0 6; VExec 6; VExec 6]) = Some (1, 0, 1).
Proof. split; vm_compute; reflexivity. Qed.
Example move_held_example : match run (mvstep false false 9) (mvinit (fun _ => 0%nat) (fun _ => lock_prog 2)) [VPick 0 5; VExec 5; VExec 5] with
  | Some s => cur s (at_ s 5%nat) = Some 5%nat /\ dep s 5%nat = 1 /\ mvstep false false 9 s (VPreempt 5) = @None mvst | None => False end /\
  match run (mvstep false false 9) (mvinit (fun _ => 0%nat) (fun _ => lock_prog 2)) [VPick 0 5; VExec 5; VExec 5; VExec 5] with
  | Some s => dep s 5%nat = 0 /\ mvstep false false 9 s (VPreempt 5) <> @None mvst | None => False end.
Proof. vm_compute. repeat split; discriminate. Qed.

(** ** The library's own programs *)
(** What an operation does to the counters. *)
Definition eff (i : instr) : Z := match i with IInc | IDisable => 1 | IEnable | IDrop => -1 | _ => 0 end.
Fixpoint total (l : list instr) : Z := match l with [] => 0 | i :: r => eff i + total r end.
Lemma total_app : forall a b, total (a ++ b) = total a + total b.
Proof. induction a as [|i a IH]; intros b; cbn [total app]; [reflexivity|]. rewrite IH. lia. Qed.
(** What a coroutine has done is a beginning of its program, and the ghost counts it. *)
Lemma done_so_far : forall mv fx n a p ls s c, run (mvstep mv fx n) (mvinit a p) ls = Some s -> exists pre, p c = pre ++ prog s c /\ dep s c = total pre.
Proof.
  intros mv fx n a p ls s c. apply (run_inv (mvstep mv fx n) (fun s => exists pre, p c = pre ++ prog s c /\ dep s c = total pre)).
  - exists []. split; reflexivity.
  - clear. intros s l s' (pre&P&D) E. destruct l as [d|d|e d|d e]; simpl in E.
    + destruct (_ && _); [|discriminate]. destruct (prog s d) as [|i r] eqn:Q; [discriminate|]. assert (X : prog s' = upd (prog s) d r /\ dep s' d = dep s d + eff i /\ (forall x, x <> d -> dep s' x = dep s x)).
      { destruct i; try (destruct (refs s d); [discriminate|]); injection E as <-; simpl; (split; [reflexivity|]); (split; [try rewrite upd_same; lia|]); intros x N; try rewrite upd_other by auto; reflexivity. }
      destruct X as (X1&X2&X3). rewrite X1. destruct (Nat.eq_dec c d) as [->|N].
      * exists (pre ++ [i]). rewrite upd_same, <- app_assoc. simpl. split; [now rewrite P, Q|]. rewrite X2, D, total_app. simpl. lia.
      * exists pre. rewrite upd_other by auto. rewrite X3 by auto. auto.
    + destruct (_ && _); [|discriminate]. injection E as <-. exists pre. auto.
    + destruct (cur s e); [discriminate|]. destruct (_ && _); [|discriminate]. injection E as <-. exists pre. auto.
    + destruct (_ && _); [|discriminate]. injection E as <-. exists pre. auto.
Qed.
(** Programs that call lock (with any number of waits each) and unlock of mutexes. *)
Inductive library : list instr -> Prop :=
| lib_nil : library []
| lib_lock : forall k r, library r -> library (lock_prog k ++ r)
| lib_unlock : forall r, library r -> library (unlock_prog ++ r).
(** Between [lo] and one more all the time, and at [lo] at every yield. *)
Definition level (lo : Z) (l : list instr) : Prop := forall pre post, l = pre ++ post -> lo <= total pre <= lo + 1 /\ (forall r, post = IYield :: r -> total pre = lo).
Lemma level_nil : forall lo, lo <= 0 <= lo + 1 -> level lo [].
Proof. intros lo B pre post E. symmetry in E. apply app_eq_nil in E as [-> ->]. split; [exact B|discriminate]. Qed.
Lemma rounds_level : forall k, total (rounds k) = 0 /\ level (-1) (rounds k).
Proof.
  induction k as [|k [T L]]; [split; [reflexivity|apply level_nil; lia]|].
  change (rounds (S k)) with (IEnable :: IYield :: IDisable :: rounds k). split; [cbn [total eff]; lia|]. intros pre post E.
  do 3 (destruct pre as [|? pre]; [cbn [app] in E; rewrite <- E; cbn [total eff]; split; [lia|intros r F; first [discriminate F|lia]]|]; injection E as <- E).
  cbn [total eff]. specialize (L pre post E). destruct L as [L1 L2]. split; [lia|]. intros r F. specialize (L2 r F). lia.
Qed.
Lemma level_app : forall a b, total a = 0 -> level 0 a -> level 0 b -> level 0 (a ++ b).
Proof.
  intros a b T A B pre post E. apply app_eq_app in E as (l&[[-> ->]|[-> ->]]).
  - destruct l as [|x l].
    + destruct (B [] b eq_refl) as [_ B2]. rewrite app_nil_r in T. rewrite T. split; [lia|]. intros r F. reflexivity.
    + destruct (A pre (x :: l) eq_refl) as [A1 A2]. split; [exact A1|]. intros r F. injection F as -> _. now apply (A2 l).
  - destruct (B l post eq_refl) as [B1 B2]. rewrite total_app, T. split; [lia|]. intros r F. rewrite (B2 r F). reflexivity.
Qed.
Lemma lock_level : forall k, total (lock_prog k) = 0 /\ level 0 (lock_prog k).
Proof.
  intros k. destruct (rounds_level k) as [T L]. unfold lock_prog. split; [rewrite !total_app; cbn [total eff]; lia|]. intros pre post E.
  do 2 (destruct pre as [|? pre]; [cbn [app] in E; rewrite <- E; cbn [total eff]; split; [lia|intros r F; discriminate F]|]; injection E as <- E). cbn [app] in E. cbn [total eff].
  destruct (rev post) as [|x q] eqn:R.
  - assert (P : post = []) by (rewrite <- (rev_involutive post), R; reflexivity). rewrite P, app_nil_r in E. rewrite <- E, total_app, P. cbn [total eff]. split; [lia|discriminate].
  - assert (P : post = rev q ++ [x]) by (rewrite <- (rev_involutive post), R; reflexivity). rewrite P, app_assoc in E. apply app_inj_tail in E as [E <-].
    destruct (L _ _ E) as [L1 L2]. split; [lia|]. intros r F. rewrite P in F. destruct (rev q) as [|y w]; [discriminate F|]. injection F as -> _. rewrite (L2 w eq_refl). reflexivity.
Qed.
Lemma library_level : forall l, library l -> total l = 0 /\ level 0 l.
Proof.
  induction 1 as [|k r _ [T L]|r _ [T L]].
  - split; [reflexivity|apply level_nil; lia].
  - destruct (lock_level k) as [T1 L1]. split; [rewrite total_app; lia|]. now apply level_app.
  - split; [rewrite total_app; simpl; lia|]. apply level_app; auto. intros pre post E.
    do 3 (destruct pre as [|? pre]; [cbn [app] in E; rewrite <- E; cbn [total eff]; split; [lia|intros ? F; discriminate F]|]; injection E as <- E).
    destruct pre; [cbn [app] in E; rewrite <- E; cbn [total eff]; split; [lia|discriminate]|discriminate E].
Qed.
Lemma library_dep : forall mv fx n a p ls s c, (forall c, library (p c)) -> run (mvstep mv fx n) (mvinit a p) ls = Some s ->
  (dep s c = 0 \/ dep s c = 1) /\ (forall r, prog s c = IYield :: r -> dep s c = 0) /\ (prog s c = [] -> dep s c = 0).
Proof.
  intros mv fx n a p ls s c L R. destruct (done_so_far _ _ _ _ _ _ _ c R) as (pre&P&D). destruct (library_level _ (L c)) as [T V]. destruct (V _ _ P) as [V1 V2].
  repeat split; [lia|intros r F; rewrite D; eauto|]. intros F. rewrite P, F, app_nil_r in T. lia.
Qed.
Lemma run_snoc_inv : forall {S L} (st : S -> L -> option S) (Q : S -> Prop) s0 (P : S -> Prop), (forall ls s, run st s0 ls = Some s -> P s) ->
  Q s0 -> (forall s l s', P s -> P s' -> Q s -> st s l = Some s' -> Q s') -> forall ls s, run st s0 ls = Some s -> Q s.
Proof.
  intros S0 L st Q s0 P HP Q0 HS ls. induction ls as [|l ls IH] using rev_ind; intros s R; [now injection R as <-|].
  rewrite run_app in R. destruct (run st s0 ls) as [s1|] eqn:R1; [|discriminate]. simpl in R. destruct (st s1 l) as [s2|] eqn:E; [|discriminate]. injection R as <-.
  apply (HS s1 l s2); eauto. apply (HP (ls ++ [l])). rewrite run_app, R1. simpl. now rewrite E.
Qed.
(** Without moves or with the correction, a coroutine inside a guard is the one that runs on its env. *)
Lemma library_runs : forall b n a p ls s, (forall c, library (p c)) -> run (mvstep b b n) (mvinit a p) ls = Some s ->
  forall c, (c < n)%nat -> dep s c <> 0 -> cur s (at_ s c) = Some c.
Proof.
  intros b n a p ls s L. apply (run_snoc_inv (mvstep b b n) (fun s => forall c, (c < n)%nat -> dep s c <> 0 -> cur s (at_ s c) = Some c) (mvinit a p)
    (fun s => right n s /\ forall c, (dep s c = 0 \/ dep s c = 1) /\ (forall r, prog s c = IYield :: r -> dep s c = 0))).
  - intros ls' s' R. split; [destruct b; [eapply move_corrected_all|eapply move_partial]; exact R|]. intros c. destruct (library_dep _ _ _ _ _ _ _ c L R) as (A&B&_). auto.
  - intros c _ F. simpl in F. congruence.
  - clear s ls. intros s l s' [K D] _ Q E c Lc N. destruct l as [d|d|e d|d e]; simpl in E.
    + destruct (cur s (at_ s d)) as [d'|] eqn:U; [|rewrite andb_false_r in E; discriminate]. destruct (d <? n)%nat eqn:Ld; [|discriminate]. cbn [andb] in E.
      destruct (Nat.eqb_spec d' d) as [->|]; [|discriminate]. destruct (prog s d) as [|i r] eqn:G; [discriminate|]. destruct (Nat.eq_dec c d) as [->|Nc].
      * destruct i; try (destruct (refs s d); [discriminate|]); injection E as <-; simpl in *; auto. destruct (D d) as (_&Y). specialize (Y _ G). congruence.
      * assert (N' : dep s c <> 0) by (destruct i; try (destruct (refs s d); [discriminate|]); injection E as <-; simpl in N; try rewrite upd_other in N by auto; exact N).
        assert (C := Q c Lc N'). assert (X : at_ s c <> at_ s d) by congruence.
        destruct i; try (destruct (refs s d); [discriminate|]); injection E as <-; simpl; auto. now rewrite upd_other by auto.
    + destruct (cur s (at_ s d)) as [d'|] eqn:U; [|rewrite andb_false_r in E; discriminate]. destruct (d <? n)%nat eqn:Ld; [|discriminate]. cbn [andb] in E.
      destruct (Nat.eqb_spec d' d) as [->|]; [|discriminate]. cbn [andb] in E. destruct (Z.eqb_spec (cnt s (at_ s d)) 0) as [Z0|]; [|discriminate]. injection E as <-. simpl in *.
      destruct (Nat.eq_dec (at_ s c) (at_ s d)) as [A|A]; [|rewrite upd_other by auto; auto].
      assert (X := inside_pos n (at_ s) (dep s) c ltac:(intros x; destruct (D x) as [[?|?] _]; lia) Lc). rewrite <- (K (at_ s c)), A, Z0 in X. destruct (D c) as [[?|?] _]; lia.
    + destruct (cur s e) eqn:U; [discriminate|]. destruct (_ && _) eqn:G; [|discriminate]. injection E as <-. simpl in *. assert (C := Q c Lc N).
      rewrite upd_other; [exact C|congruence].
    + destruct (_ && _) eqn:G in E; [|discriminate]. injection E as <-. simpl in *. destruct b; [|discriminate G].
      apply andb_true_iff in G as [_ G]. simpl in G. apply Z.eqb_eq in G. rewrite upd_other by congruence. auto.
Qed.
(** With coroutines that use mutexes in any way, without moves or with the correction: a coroutine is inside one guard or none; one that is inside a guard runs on
    its env and no signal takes it off, while one that runs outside guards is taken off by any signal (the guards of the others do not protect it); and when all
    have ended every counter is 0. *)
Theorem move_library : forall b n a p ls s, (forall c, library (p c)) -> run (mvstep b b n) (mvinit a p) ls = Some s ->
  (forall c, (c < n)%nat -> dep s c = 0 \/ dep s c = 1 /\ cur s (at_ s c) = Some c) /\
  (forall c, (c < n)%nat -> cur s (at_ s c) = Some c -> (mvstep b b n s (VPreempt c) <> None <-> dep s c = 0)) /\
  ((forall c, (c < n)%nat -> prog s c = []) -> forall e, cnt s e = 0).
Proof.
  intros b n a p ls s L R. assert (D := fun c => library_dep _ _ _ _ _ _ _ c L R). assert (V := library_runs _ _ _ _ _ _ L R).
  assert (K : right n s) by (destruct b; [eapply move_corrected_all|eapply move_partial]; exact R). split; [|split].
  - intros c Lc. destruct (D c) as [[Z0|O] _]; [auto|]. right. split; [exact O|]. apply V; [exact Lc|lia].
  - intros c Lc U. destruct (move_held _ _ _ _ _ _ _ R Lc U) as [H1 H2]. split.
    + intros M. destruct (D c) as [[Z0|O] _]; [exact Z0|]. exfalso. apply M, H1; [|lia]. intros d. destruct (D d) as [[?|?] _]; lia.
    + intros Z0. destruct H2 as (s'&E&_); [|rewrite E; discriminate]. intros d Ld A. destruct (Z.eq_dec (dep s d) 0) as [|N]; auto. assert (C := V d Ld N). congruence.
  - intros F e. rewrite (K e). clear R K V. induction n as [|m IH]; [reflexivity|]. cbn [inside]. rewrite IH by (intros c Lc; apply F; lia).
    destruct (D m) as (_&_&E). rewrite E by (apply F; lia). now destruct (at_ s m =? e)%nat.
Qed.
Print Assumptions move_library.
(** Two coroutines, each locking (one with a wait) and unlocking: inside the guard, between the guards, and at the end. *)
Example move_library_example :
  let p := fun c => if (c =? 0)%nat then lock_prog 1 ++ unlock_prog ++ [] else unlock_prog ++ lock_prog 0 ++ [] in
  let r := run (mvstep false false 2) (mvinit (fun _ => 0%nat) p) in
  (forall c, library (p c)) /\
  match r [VPick 0 0; VExec 0; VExec 0] with Some s => dep s 0%nat = 1 /\ mvstep false false 2 s (VPreempt 0) = @None mvst | None => False end /\
  match r [VPick 0 0; VExec 0; VExec 0; VExec 0; VExec 0; VPick 0 1] with Some s => dep s 0%nat = 0 /\ mvstep false false 2 s (VPreempt 1) <> @None mvst | None => False end /\
  match r ([VPick 0 0] ++ repeat (VExec 0) 4 ++ [VPick 0 1] ++ repeat (VExec 1) 6 ++ [VPreempt 1; VPick 0 0] ++ repeat (VExec 0) 5) with
  | Some s => prog s 0%nat = [] /\ prog s 1%nat = [] /\ cnt s 0%nat = 0 | None => False end.
Proof.
  cbn zeta. split; [intros c; destruct (c =? 0)%nat; repeat constructor|]. vm_compute. repeat split; discriminate.
Qed.
