(** Invariants of the timer model. *)
From Coq Require Import List Arith Bool Lia Sorting.Sorted.
From Verif Require Import Base TimerSpec TimerModel.
Import ListNotations.

Definition ltx (ex : nat -> nat) (a b : nat) : Prop := ex a < ex b.

Lemma in_insert : forall ex t l u, In u (insert ex t l) -> u = t \/ In u l.
Proof.
  induction l as [|x r IH]; simpl; intros u H; [destruct H; auto|]. destruct (ex t <? ex x); [simpl in H; intuition|].
  destruct (ex x <? ex t); [|simpl in H; intuition]. destruct H as [H|H]; auto. apply IH in H. tauto.
Qed.
Lemma insert_keeps : forall ex t l u, In u l -> In u (insert ex t l).
Proof. induction l as [|x r IH]; simpl; intros u H; [tauto|]. destruct (ex t <? ex x); [now right|]. destruct (ex x <? ex t); auto. destruct H; [left|right]; auto. Qed.
Lemma insert_new : forall ex t l, (forall u, In u l -> ex u <> ex t) -> In t (insert ex t l).
Proof.
  induction l as [|x r IH]; simpl; intros H; [auto|]. destruct (ex t <? ex x) eqn:A; [now left|]. destruct (ex x <? ex t) eqn:B; [right; auto|].
  apply Nat.ltb_ge in A, B. exfalso. apply (H x); auto. lia.
Qed.
Lemma insert_sorted : forall ex t l, StronglySorted (ltx ex) l -> StronglySorted (ltx ex) (insert ex t l).
Proof.
  induction l as [|x r IH]; simpl; intros S.
  - repeat constructor.
  - inversion S as [|? ? S1 S2]; subst. destruct (ex t <? ex x) eqn:A; [apply Nat.ltb_lt in A|destruct (ex x <? ex t) eqn:B; [apply Nat.ltb_lt in B|auto]].
    + constructor; auto. constructor; auto. eapply Forall_impl; [|exact S2]. unfold ltx. lia.
    + constructor; auto. apply Forall_forall. intros u H. apply in_insert in H as [-> |H]; auto. rewrite Forall_forall in S2. auto.
Qed.
Lemma in_erase : forall ex t l u, In u (erase ex t l) <-> In u l /\ ex u <> ex t.
Proof. intros. unfold erase. rewrite filter_In, negb_true_iff, Nat.eqb_neq. tauto. Qed.
Lemma erase_sorted : forall ex t l, StronglySorted (ltx ex) l -> StronglySorted (ltx ex) (erase ex t l).
Proof.
  intros ex t l S. unfold erase. induction S as [|x r S IH F]; simpl; [constructor|]. destruct (negb _); auto. constructor; auto.
  apply Forall_forall. intros u H. apply filter_In in H as [H _]. rewrite Forall_forall in F. auto.
Qed.
Lemma sorted_inj : forall ex l, StronglySorted (ltx ex) l -> forall u v, In u l -> In v l -> ex u = ex v -> u = v.
Proof.
  intros ex l S. induction S as [|x r S IH F]; simpl; [tauto|]. rewrite Forall_forall in F. unfold ltx in *.
  intros u v [->|A] [->|B] E; auto; [apply F in B|apply F in A]; lia.
Qed.
Lemma sorted_ext : forall ex ex' l, (forall u, In u l -> ex' u = ex u) -> StronglySorted (ltx ex) l -> StronglySorted (ltx ex') l.
Proof.
  intros ex ex' l E S. induction S as [|x r S IH F]; constructor.
  - apply IH. intros u H. apply E. now right.
  - rewrite Forall_forall in *. intros u H. unfold ltx. rewrite !E; [apply F; auto|now right|now left].
Qed.
Lemma erase_head : forall ex t r, StronglySorted (ltx ex) (t :: r) -> erase ex t (t :: r) = r.
Proof.
  intros ex t r S. unfold erase. simpl. rewrite Nat.eqb_refl. simpl. inversion S as [|? ? S1 F]; subst. clear S S1.
  induction r as [|x r IH]; simpl; auto. inversion F; subst. unfold ltx in *. destruct (Nat.eqb_spec (ex x) (ex t)); [lia|]. simpl. f_equal. auto.
Qed.

(** At the check the timer thread looks at the first element. *)
Definition first (s : tst) : Prop :=
  match rp s with
  | RChk t => exists r, q s = t :: r
  | RFire t | RPost t => (exists r, q s = t :: r) /\ exp s t <= now s
  | RAgain t => ~ In t (q s)
  | _ => True
  end.
Record TI (s : tst) : Prop := {
  i_ss : StronglySorted (ltx (exp s)) (q s);
  i_q : forall t, In t (q s) -> st s t = true \/ exists a o, pc s a = AEra t o;
  i_ins : forall a t o, pc s a = AIns t o -> st s t = true /\ ~ In t (q s) /\ mu s t = Some a;
  i_era : forall a t o, pc s a = AEra t o -> st s t = false /\ mu s t = Some a;
  i_rp : first s;
  i_pend : forall t, In t (q s) -> rp s <> RPost t -> pend t (th s) = Some (exp s t);
  i_cb : forall t, cb s t = launched t (th s);
  i_fire : forall t m, In (KFire t m) (th s) -> m <= now s;
  i_early : never_early (th s) }.

Lemma tsplit : forall (e : tev) H post x pre, e :: H = post ++ x :: pre -> (post = [] /\ e = x /\ H = pre) \/ (exists p, post = e :: p /\ H = p ++ x :: pre).
Proof. intros e H post x pre E. destruct post as [|y post]; simpl in E; injection E as E1 E2; subst; eauto. Qed.
Lemma ne_cons : forall e H, never_early H -> (forall t n, e = KFire t n -> exists d, pend t H = Some d /\ d <= n) ->
  (forall t n, e = KRun t n -> launched t H > 0 /\ forall m, In (KFire t m) H -> m <= n) -> never_early (e :: H).
Proof.
  intros e H [A B] C D. split; intros post t n pre E; destruct (tsplit _ _ _ _ _ E) as [(_&-> & <-)|(p&_&->)]; eauto.
Qed.
Lemma ti_init : forall k, TI (tinit k).
Proof.
  intros k. constructor; simpl; try tauto; try discriminate; try constructor; auto.
  - intros post t n pre E. destruct post; discriminate.
  - intros post t n pre E. destruct post; discriminate.
Qed.
Lemma mine_some : forall s a t o, mine s a t = Some o -> mu s t = None /\ o = true \/ mu s t = Some a /\ o = false.
Proof. intros s a t o E. unfold mine in E. destruct (mu s t); [destruct (Nat.eqb_spec a n); [subst|discriminate]|]; injection E as <-; auto. Qed.

(** Nobody else is in the middle of an operation on the timer whose mutex one can lock. *)
Lemma mine_out : forall s a t o, TI s -> pc s a = AIdle -> mine s a t = Some o -> (forall b o', pc s b <> AIns t o') /\ (forall b o', pc s b <> AEra t o').
Proof.
  intros s a t o I P M. apply mine_some in M. split; intros b o' E; [apply (i_ins _ I) in E as E'|apply (i_era _ I) in E as E'];
    destruct M as [[M _]|[M _]]; intuition congruence.
Qed.
Lemma free_out : forall s t, TI s -> mu s t = None -> (forall b o', pc s b <> AIns t o') /\ (forall b o', pc s b <> AEra t o').
Proof.
  intros s t I M. split; intros b o' E; [apply (i_ins _ I) in E|apply (i_era _ I) in E]; intuition congruence.
Qed.

Ltac up := unfold upd in *;
  repeat match goal with
  | |- context[?x =? ?y] => destruct (Nat.eqb_spec x y); subst
  | H : context[?x =? ?y] |- _ => destruct (Nat.eqb_spec x y); subst
  end.
Ltac noev := simpl; repeat match goal with |- _ \/ _ -> _ => let X := fresh in intros [X|X]; [try discriminate X|revert X] end.

Lemma ti_clock : forall s d, TI s -> TI (setnow s (now s + d)).
Proof.
  intros s d []. constructor; simpl; auto.
  - unfold first in *; simpl. destruct (rp s); auto; destruct i_rp0; split; auto; lia.
  - intros t m H. apply i_fire0 in H. lia.
Qed.
(** Events that change nothing about pending timers that are queued. *)
Lemma ti_again : forall s t e, TI s -> TI (tlog (KAgain t e) s).
Proof.
  intros s t e []. constructor; simpl; auto.
  - intros u m [H|H]; [discriminate|eauto].
  - apply ne_cons; auto; discriminate.
Qed.
Lemma ti_stop0 : forall s a t o, TI s -> pc s a = AIdle -> mine s a t = Some o -> st s t = false -> TI (tlog (KStop t) s).
Proof.
  intros s a t o I P M S. destruct (mine_out _ _ _ _ I P M) as [_ NE]. destruct I. constructor; simpl; auto.
  - intros u H N. destruct (Nat.eqb_spec u t) as [->|]; auto. exfalso. apply i_q0 in H as [H|(b&o'&H)]; [congruence|eapply NE; eauto].
  - intros u m [H|H]; [discriminate|eauto].
  - apply ne_cons; auto; discriminate.
Qed.
Lemma ti_start1 : forall s a t o e, TI s -> pc s a = AIdle -> mine s a t = Some o -> st s t = false ->
  TI (setpc (setmu (setst (setexp s t e) t true) t (Some a)) a (AIns t o)).
Proof.
  intros s a t o e I P M S. destruct (mine_out _ _ _ _ I P M) as [NI NE].
  assert (NQ : ~ In t (q s)) by (intros H; apply (i_q _ I) in H as [H|(b&o'&H)]; [congruence|eapply NE; eauto]).
  assert (X : forall u, In u (q s) -> upd (exp s) t e u = exp s u).
  { intros u H. unfold upd. destruct (Nat.eqb_spec u t) as [->|]; [contradiction|auto]. }
  destruct I. constructor; simpl; auto.
  - eapply sorted_ext; [|eauto]. auto.
  - intros u H. unfold upd at 1. destruct (Nat.eqb_spec u t) as [->|]; auto. apply i_q0 in H as [H|(b&o'&H)]; auto. right. exists b, o'. unfold upd.
    destruct (Nat.eqb_spec b a) as [->|]; auto. congruence.
  - intros b u o' H. unfold upd in H. destruct (Nat.eqb_spec b a) as [->|].
    + injection H as <- <-. unfold upd. rewrite Nat.eqb_refl. auto.
    + assert (u <> t) by (intros ->; eapply NI; eauto). unfold upd. apply Nat.eqb_neq in H0. rewrite H0. eauto.
  - intros b u o' H. unfold upd in H. destruct (Nat.eqb_spec b a) as [->|]; [discriminate|].
    assert (u <> t) by (intros ->; eapply NE; eauto). unfold upd. apply Nat.eqb_neq in H0. rewrite H0. eauto.
  - unfold first in *; simpl. destruct (rp s) as [| | | |u|u|u|u]; auto; destruct i_rp0 as [[r Q] L]; split; eauto;
      rewrite X; auto; rewrite Q; now left.
  - intros u H N. rewrite X; auto.
Qed.
Lemma ti_stop1 : forall s a t o, TI s -> pc s a = AIdle -> mine s a t = Some o -> st s t = true ->
  TI (setpc (setmu (setst s t false) t (Some a)) a (AEra t o)).
Proof.
  intros s a t o I P M S. destruct (mine_out _ _ _ _ I P M) as [NI NE]. destruct I. constructor; simpl; auto.
  - intros u H. unfold upd at 1. destruct (Nat.eqb_spec u t) as [->|].
    + right. exists a, o. unfold upd. now rewrite Nat.eqb_refl.
    + apply i_q0 in H as [H|(b&o'&H)]; auto. right. exists b, o'. unfold upd. destruct (Nat.eqb_spec b a) as [->|]; auto. congruence.
  - intros b u o' H. unfold upd in H. destruct (Nat.eqb_spec b a) as [->|]; [discriminate|].
    assert (u <> t) by (intros ->; eapply NI; eauto). unfold upd. apply Nat.eqb_neq in H0. rewrite H0. eauto.
  - intros b u o' H. unfold upd in H. destruct (Nat.eqb_spec b a) as [->|].
    + injection H as <- <-. unfold upd. rewrite Nat.eqb_refl. auto.
    + assert (u <> t) by (intros ->; eapply NE; eauto). unfold upd. apply Nat.eqb_neq in H0. rewrite H0. eauto.
Qed.
(** A mutex that no operation in progress holds does not matter. *)
Lemma ti_mu : forall s t o, TI s -> (forall a, mu s t = Some a -> pc s a = AIdle) -> TI (setmu s t o).
Proof.
  intros s t o I N. destruct I. constructor; simpl; auto.
  - intros a u o' H. destruct (i_ins0 _ _ _ H) as (A&B&C). split; auto. split; auto. unfold upd. destruct (Nat.eqb_spec u t) as [->|]; auto.
    apply N in C. congruence.
  - intros a u o' H. destruct (i_era0 _ _ _ H) as (A&C). split; auto. unfold upd. destruct (Nat.eqb_spec u t) as [->|]; auto.
    apply N in C. congruence.
Qed.
Lemma ti_ins : forall s a t o, TI s -> pc s a = AIns t o -> qfree s = true ->
  TI (tlog (KStart t (exp s t)) (do_insert (setpc s a AIdle) t)).
Proof.
  intros s a t o I P Q. destruct (i_ins _ I _ _ _ P) as (S&NQ&M). destruct I.
  assert (R : forall u, rp s <> RPost u) by (intros u E; unfold qfree in Q; rewrite E in Q; discriminate).
  constructor; simpl; auto.
  - now apply insert_sorted.
  - intros u H. apply in_insert in H as [->|H]; auto. apply i_q0 in H as [H|(b&o'&H)]; auto. right. exists b, o'. unfold upd.
    destruct (Nat.eqb_spec b a) as [->|]; auto. congruence.
  - intros b u o' H. unfold upd in H. destruct (Nat.eqb_spec b a) as [->|]; [discriminate|]. destruct (i_ins0 _ _ _ H) as (A&B&C).
    split; auto. split; auto. intros X. apply in_insert in X as [->|X]; auto. congruence.
  - intros b u o' H. unfold upd in H. destruct (Nat.eqb_spec b a) as [->|]; [discriminate|]. eauto.
  - unfold first, qfree in *; simpl. destruct (rp s); auto; discriminate.
  - intros u H _. destruct (Nat.eqb_spec u t) as [->|]; auto. apply in_insert in H as [->|H]; auto. congruence.
  - intros u m [H|H]; [discriminate|eauto].
  - apply ne_cons; auto; discriminate.
Qed.
Lemma ti_era : forall s a t o, TI s -> pc s a = AEra t o -> qfree s = true ->
  TI (tlog (KStop t) (do_erase (setpc s a AIdle) t)).
Proof.
  intros s a t o I P Q. destruct (i_era _ I _ _ _ P) as (S&M). destruct I.
  assert (R : forall u, rp s <> RPost u) by (intros u E; unfold qfree in Q; rewrite E in Q; discriminate).
  assert (NT : ~ In t (erase (exp s) t (q s))) by (rewrite in_erase; tauto).
  constructor; simpl; auto.
  - now apply erase_sorted.
  - intros u H. assert (u <> t) by congruence. apply in_erase in H as [H _]. apply i_q0 in H as [H|(b&o'&H)]; auto. right. exists b, o'. unfold upd.
    destruct (Nat.eqb_spec b a) as [->|]; auto. congruence.
  - intros b u o' H. unfold upd in H. destruct (Nat.eqb_spec b a) as [->|]; [discriminate|]. destruct (i_ins0 _ _ _ H) as (A&B&C).
    split; auto. split; auto. intros X. apply in_erase in X as [X _]; auto.
  - intros b u o' H. unfold upd in H. destruct (Nat.eqb_spec b a) as [->|]; [discriminate|]. eauto.
  - unfold first, qfree in *; simpl. destruct (rp s); auto; discriminate.
  - intros u H _. destruct (Nat.eqb_spec u t) as [->|]; [contradiction|]. apply in_erase in H as [H _]. auto.
  - intros u m [H|H]; [discriminate|eauto].
  - apply ne_cons; auto; discriminate.
Qed.
Lemma ti_run : forall s a t n, TI s -> pc s a = AIdle -> cb s t = S n -> TI (tlog (KRun t (now s)) (setcb s t n)).
Proof.
  intros s a t n I P C. destruct I. constructor; simpl; auto.
  - intros u. unfold upd. destruct (Nat.eqb_spec u t) as [->|]; auto. rewrite <- i_cb0, C. lia.
  - intros u m [H|H]; [discriminate|eauto].
  - apply ne_cons; auto; [discriminate|]. intros u m E. injection E as <- <-. split; eauto. rewrite <- i_cb0, C. lia.
Qed.
Lemma ti_rp : forall s p b, TI s -> (forall t, rp s <> RPost t) -> (forall t, p <> RPost t) -> (first s -> first (setrp s p)) ->
  TI (setntf (setrp s p) b).
Proof. intros s p b I N M F. destruct I. constructor; simpl; auto. Qed.
Lemma ti_sleep : forall s n, TI s -> TI (tlog (KSleep n) s).
Proof.
  intros s n []. constructor; simpl; auto.
  - intros u m [H|H]; [discriminate|eauto].
  - apply ne_cons; auto; discriminate.
Qed.
Lemma ti_fire : forall s t, TI s -> rp s = RFire t -> TI (tlog (KFire t (now s)) (setcb (setrp s (RPost t)) t (S (cb s t)))).
Proof.
  intros s t I R. destruct I. unfold first in i_rp0. rewrite R in i_rp0. destruct i_rp0 as [[r Q] L].
  assert (H : In t (q s)) by (rewrite Q; now left).
  constructor; simpl; auto.
  - unfold first; simpl; eauto.
  - intros u Hu N. assert (u <> t) by congruence. apply Nat.eqb_neq in H0. rewrite H0. apply i_pend0; auto. congruence.
  - intros u. unfold upd. destruct (Nat.eqb_spec u t) as [->|]; auto.
  - intros u m [X|X]; [injection X as <- <-; lia|eauto].
  - apply ne_cons; auto; [|discriminate]. intros u m E. injection E as <- <-. exists (exp s t). split; auto. apply i_pend0; auto. congruence.
Qed.
Lemma ti_post : forall s t p, TI s -> rp s = RPost t -> mu s t = None -> (p = RAgain t \/ p = RLoop) ->
  st s t = true /\ TI (do_erase (setst (setrp s p) t false) t).
Proof.
  intros s t p I R M P. destruct (free_out _ _ I M) as [NI NE]. pose proof (i_rp _ I) as F. unfold first in F. rewrite R in F. destruct F as [[r Q] L].
  assert (S : st s t = true) by (destruct (i_q _ I t) as [H|(b&o'&H)]; [rewrite Q; now left|auto|exfalso; eapply NE; eauto]).
  split; auto. destruct I. unfold do_erase; simpl. rewrite Q in *. rewrite erase_head by auto. inversion i_ss0 as [|? ? S1 F]; subst.
  assert (NR : ~ In t r) by (intros H; rewrite Forall_forall in F; apply F in H; unfold ltx in H; lia).
  constructor; simpl; auto.
  - intros u H. unfold upd. destruct (Nat.eqb_spec u t) as [->|]; [contradiction|]. apply i_q0. now right.
  - intros b u o' H. assert (u <> t) by (intros ->; eapply NI; eauto). unfold upd. apply Nat.eqb_neq in H0. rewrite H0.
    destruct (i_ins0 _ _ _ H) as (A&B&C). split; auto. split; auto. intros X. apply B. now right.
  - intros b u o' H. assert (u <> t) by (intros ->; eapply NE; eauto). unfold upd. apply Nat.eqb_neq in H0. rewrite H0. eauto.
  - unfold first; simpl. destruct P as [-> | ->]; auto.
  - intros u H _. apply i_pend0; [now right|]. intros E. congruence.
Qed.
Lemma ti_restart : forall s t e, TI s -> rp s = RAgain t -> mu s t = None -> st s t = false ->
  TI (tlog (KStart t e) (do_insert (setst (setexp (setrp s RLoop) t e) t true) t)).
Proof.
  intros s t e I R M S. destruct (free_out _ _ I M) as [NI NE]. pose proof (i_rp _ I) as F. unfold first in F. rewrite R in F.
  assert (X : forall u, In u (q s) -> upd (exp s) t e u = exp s u).
  { intros u H. unfold upd. destruct (Nat.eqb_spec u t) as [->|]; [contradiction|auto]. }
  destruct I. constructor; simpl; auto.
  - apply insert_sorted. eapply sorted_ext; [|eauto]. auto.
  - intros u H. unfold upd. destruct (Nat.eqb_spec u t) as [->|]; auto. apply in_insert in H as [->|H]; [contradiction|]. auto.
  - intros b u o' H. assert (u <> t) by (intros ->; eapply NI; eauto). pose proof H0 as H1. apply Nat.eqb_neq in H0.
    destruct (i_ins0 _ _ _ H) as (A&B&C). split; [unfold upd; now rewrite H0|]. split; auto. intros Y. apply in_insert in Y as [Y|Y]; auto.
  - intros b u o' H. assert (u <> t) by (intros ->; eapply NE; eauto). unfold upd. apply Nat.eqb_neq in H0. rewrite H0. eauto.
  - unfold first; simpl; auto.
  - intros u H _. unfold upd. destruct (Nat.eqb_spec u t) as [->|]; auto. apply in_insert in H as [->|H]; [contradiction|]. apply i_pend0; auto. congruence.
  - intros u m [H|H]; [discriminate|eauto].
  - apply ne_cons; auto; discriminate.
Qed.

(** A thread in a callback holds the mutex of the timer; it holds none otherwise. *)
Record MI (s : tst) : Prop := {
  m_in : forall a t o, incb s a = Some (t, o) -> mu s t = Some a /\ o = true;
  m_own : forall a t, pc s a = AIns t true \/ pc s a = AEra t true -> forall b o, incb s b <> Some (t, o);
  m_held : forall a t, mu s t = Some a -> (exists o, pc s a = AIns t o \/ pc s a = AEra t o) \/ (exists o, incb s a = Some (t, o));
  m_rec : forall a t, pc s a = AIns t false \/ pc s a = AEra t false -> exists o, incb s a = Some (t, o) }.

(** All successful steps, one case each. *)
Ltac dm E := repeat (match type of E with
  | context[match ?x with _ => _ end] => match x with context[match _ with _ => _ end] => fail 1 | _ => let M := fresh "M" in destruct x eqn:M; try discriminate E end
  end).
Ltac cases E := unfold step_ok, step, tstep in E; dm E; try injection E as <-.

(** Case distinction on the index of an update. *)
Ltac nq x y := let N := fresh "N" in let E := fresh "E" in
  destruct (Nat.eq_dec x y) as [E|N]; [subst x; rewrite ?Nat.eqb_refl in *|apply Nat.eqb_neq in N as E; rewrite ?E in *; clear E].
Lemma mi_init : forall k, MI (tinit k).
Proof. intros k. constructor; simpl; try discriminate; intuition discriminate. Qed.
Lemma mi_same : forall s s', MI s -> mu s' = mu s -> pc s' = pc s -> incb s' = incb s -> MI s'.
Proof. intros s s' [] A B C. constructor; rewrite ?A, ?B, ?C; auto. Qed.
Lemma mi_step : forall k s l s', TI s -> MI s -> step_ok k s l = Some s' -> MI s'.
Proof.
  intros k s l s' T I E. destruct l.
  - cases E. apply (mi_same s); auto.
  - cases E; [apply (mi_same s); auto|].
    pose proof (mine_some _ _ _ _ M0) as MS. destruct I. constructor; simpl.
    + intros z u o H. destruct (m_in0 _ _ _ H) as [A ->]. split; auto. unfold upd. nq u t; auto. destruct MS as [[X _]|[X _]]; congruence.
    + intros z u H z0 o X. unfold upd in H. nq z a; [|eapply m_own0; eauto].
      destruct H as [H|H]; [|discriminate]. injection H as <- ->. destruct (m_in0 _ _ _ X) as [A _]. destruct MS as [[Y _]|[Y ?]]; congruence.
    + intros z u H. unfold upd in *. nq u t.
      * injection H as <-. rewrite Nat.eqb_refl. left. eauto.
      * nq z a; [|auto]. destruct (m_held0 _ _ H) as [(o&[X|X])|X]; auto; congruence.
    + intros z u H. unfold upd in H. nq z a; [|auto]. destruct H as [H|H]; try discriminate. injection H as <- ->.
      destruct MS as [[_ Y]|[Y _]]; [discriminate|]. destruct (m_held0 _ _ Y) as [(o&[X|X])|X]; auto; congruence.
  - cases E; [|apply (mi_same s); auto].
    pose proof (mine_some _ _ _ _ M0) as MS. destruct I. constructor; simpl.
    + intros z u o H. destruct (m_in0 _ _ _ H) as [A ->]. split; auto. unfold upd. nq u t; auto. destruct MS as [[X _]|[X _]]; congruence.
    + intros z u H z0 o X. unfold upd in H. nq z a; [|eapply m_own0; eauto].
      destruct H as [H|H]; [discriminate|]. injection H as <- ->. destruct (m_in0 _ _ _ X) as [A _]. destruct MS as [[Y _]|[Y ?]]; congruence.
    + intros z u H. unfold upd in *. nq u t.
      * injection H as <-. rewrite Nat.eqb_refl. left. eauto.
      * nq z a; [|auto]. destruct (m_held0 _ _ H) as [(o&[X|X])|X]; auto; congruence.
    + intros z u H. unfold upd in H. nq z a; [|auto]. destruct H as [H|H]; try discriminate. injection H as <- ->.
      destruct MS as [[_ Y]|[Y _]]; [discriminate|]. destruct (m_held0 _ _ Y) as [(o&[X|X])|X]; auto; congruence.
  - assert (G : forall t o, pc s a = AIns t o \/ pc s a = AEra t o -> MI (release (setpc s a AIdle) t o)).
    { intros t o P. assert (MU : mu s t = Some a) by (destruct P as [P|P]; [apply (i_ins _ T) in P|apply (i_era _ T) in P]; tauto).
      destruct I. unfold release. destruct o; constructor; simpl.
      - intros z u o H. destruct (m_in0 _ _ _ H) as [A ->]. split; auto. unfold upd. nq u t; auto. exfalso. eapply m_own0; eauto.
      - intros z u H. unfold upd in H. nq z a; [intuition discriminate|eauto].
      - intros z u H. unfold upd in *. nq u t; [discriminate|].
        nq z a; [|auto]. destruct (m_held0 _ _ H) as [(o&X)|X]; auto. exfalso. destruct P, X; congruence.
      - intros z u H. unfold upd in H. nq z a; [intuition discriminate|eauto].
      - auto.
      - intros z u H. unfold upd in H. nq z a; [intuition discriminate|eauto].
      - intros z u H. unfold upd in *. nq z a; [|auto].
        destruct (m_held0 _ _ H) as [(o&X)|X]; auto. right. assert (u = t) as -> by (destruct P, X; congruence).
        apply m_rec0. auto.
      - intros z u H. unfold upd in H. nq z a; [intuition discriminate|eauto]. }
    cases E; (eapply mi_same; [apply G; auto; now (left + right)|..]; destruct own; reflexivity).
  - cases E. pose proof (mine_some _ _ _ _ M0) as MS. destruct I. assert (MN : mu s t = None).
    { destruct MS as [[X _]|[X _]]; auto. destruct (m_held0 _ _ X) as [(o&[Y|Y])|[o Y]]; congruence. }
    destruct MS as [[_ ->]|[X _]]; [|congruence]. constructor; simpl.
    + intros z u o H. unfold upd in *. nq z a.
      * injection H as <- <-. now rewrite Nat.eqb_refl.
      * destruct (m_in0 _ _ _ H) as [A ->]. split; auto. nq u t; auto. congruence.
    + intros z u H z0 o X. unfold upd in X. nq z0 a; [|eapply m_own0; eauto]. injection X as <- <-.
      destruct H as [H|H]; [apply (i_ins _ T) in H|apply (i_era _ T) in H]; intuition congruence.
    + intros z u H. unfold upd in *. nq u t.
      * injection H as <-. rewrite Nat.eqb_refl. right. eauto.
      * nq z a; [|auto]. destruct (m_held0 _ _ H) as [X|[o X]]; auto. congruence.
    + intros z u H. unfold upd. nq z a; [|auto]. destruct H; congruence.
  - cases E. destruct I. destruct (m_in0 _ _ _ M0) as [A ->]. unfold release. constructor; simpl.
    + intros z u o H. unfold upd in *. nq z a; [discriminate|]. destruct (m_in0 _ _ _ H) as [B ->]. split; auto.
      nq u n; auto. congruence.
    + intros z u H z0 o X. unfold upd in X. nq z0 a; [discriminate|eapply m_own0; eauto].
    + intros z u H. unfold upd in *. nq u n; [discriminate|]. nq z a; [|auto].
      destruct (m_held0 _ _ H) as [X|[o X]]; auto. congruence.
    + intros z u H. unfold upd. nq z a; [|auto]. destruct H; congruence.
  - cases E; apply (mi_same s); auto.
  - cases E; apply (mi_same s); auto.
Qed.

Lemma ti_in : forall s a o, TI s -> TI (setin s a o).
Proof. intros s a o []. constructor; simpl; auto. Qed.
Lemma rp_first : forall s t, TI s -> rp s = RPost t -> mu s t = None -> st s t = true.
Proof. intros s t I R M. destruct (ti_post s t RLoop I R M) as [A _]; auto. Qed.
Lemma ti_step : forall k s l s', TI s -> MI s -> step_ok k s l = Some s' -> TI s'.
Proof.
  intros k s l s' I MM E. destruct l.
  - cases E. now apply ti_clock.
  - cases E; [now apply ti_again|]. eapply ti_start1; eauto.
  - cases E; [eapply ti_stop1; eauto|eapply ti_stop0; eauto].
  - cases E.
    + pose proof (ti_ins _ _ _ _ I M M0) as X. destruct own; auto.
      apply (ti_mu (tlog (KStart t (exp s t)) (do_insert (setpc s a AIdle) t)) t None); auto. simpl. intros b B. destruct (i_ins _ I _ _ _ M) as (_&_&C).
      assert (b = a) as -> by congruence. unfold upd. now rewrite Nat.eqb_refl.
    + pose proof (ti_era _ _ _ _ I M M0) as X. destruct own; auto.
      apply (ti_mu (tlog (KStop t) (do_erase (setpc s a AIdle) t)) t None); auto. simpl. intros b B. destruct (i_era _ I _ _ _ M) as (_&C).
      assert (b = a) as -> by congruence. unfold upd. now rewrite Nat.eqb_refl.
  - cases E. apply (ti_in (tlog (KRun t (now s)) (setmu (setcb s t n) t (Some a)))).
    apply (ti_mu (tlog (KRun t (now s)) (setcb s t n))); [eapply ti_run; eauto|]. simpl. intros c C.
    apply mine_some in M0. destruct M0 as [[X _]|[X _]]; congruence.
  - cases E. destruct (m_in _ MM _ _ _ M0) as [A ->]. simpl. apply (ti_mu (setin s a None)); [now apply ti_in|]. simpl. intros c C. congruence.
  - cases E.
    + apply (ti_sleep (setntf (setrp s RWaitE) false)). apply ti_rp; try congruence; auto; unfold first; simpl; auto.
    + apply (ti_rp s RFront (ntf s)); try congruence; auto; unfold first; simpl; auto.
    + apply (ti_rp s RFront (ntf s)); try congruence; auto; unfold first; simpl; auto.
    + apply (ti_rp s RLoop (ntf s)); try congruence; auto; unfold first; simpl; auto.
    + apply (ti_rp s (RChk n) (ntf s)); auto; try congruence. unfold first. simpl. eauto.
    + apply Nat.leb_le in M1. apply (ti_rp s (RFire t) (ntf s)); auto; try congruence. unfold first. rewrite M. simpl. auto.
    + apply (ti_sleep (setntf (setrp s (RWaitU (exp s t))) false)). apply ti_rp; try congruence; auto; unfold first; simpl; auto.
    + now apply ti_fire.
    + apply ti_post; auto.
    + apply ti_post; auto.
    + apply ti_post; auto.
    + exfalso. apply rp_first in M; auto. congruence.
    + exfalso. apply rp_first in M; auto. congruence.
    + exfalso. apply rp_first in M; auto. congruence.
    + apply (ti_rp s RLoop (ntf s)); try congruence; auto; unfold first; simpl; auto.
    + now apply ti_restart.
  - cases E.
    + apply (ti_rp s RFront (ntf s)); try congruence; auto; unfold first; simpl; auto.
    + apply (ti_rp s RLoop (ntf s)); try congruence; auto; unfold first; simpl; auto.
Qed.

(** Sleeping without being notified means that nothing is due before the time slept for. *)
Definition WI (s : tst) : Prop :=
  match rp s with
  | RWaitE => ntf s = true \/ q s = []
  | RWaitU e => ntf s = true \/ forall t, In t (q s) -> e <= exp s t
  | _ => True
  end.
Lemma wi_step : forall k s l s', TI s -> MI s -> WI s -> step_ok k s l = Some s' -> WI s'.
Proof.
  intros k s l s' I MM W E. unfold WI in *. destruct l; cases E; simpl; auto; rewrite ?M, ?M0, ?M1 in *; auto.
  all: try (unfold release; match goal with |- context[if ?o then _ else _] => destruct o end; simpl; destruct (rp s); auto; fail).
  - pose proof (mine_out _ _ _ _ I M M0) as [NI NE]. destruct (rp s); auto. destruct W as [W|W]; auto. right. intros u H.
    unfold upd. destruct (Nat.eqb_spec u t) as [->|]; auto. exfalso. apply (i_q _ I) in H as [H|(z&o'&H)]; [congruence|eapply NE; eauto].
  - right. intros u H. pose proof (i_rp _ I) as F. unfold first in F. rewrite M in F. destruct F as [r Q]. pose proof (i_ss _ I) as SS. rewrite Q in *.
    destruct H as [->|H]; auto. inversion SS as [|? ? _ F]; subst. rewrite Forall_forall in F. apply F in H. unfold ltx in H. lia.
Qed.

(** If no two pending timers are due at the same time, the queue has all pending timers. *)
Record DI (s : tst) : Prop := {
  d_st : forall t, st s t = true -> (exists a o, pc s a = AIns t o) \/ In t (q s);
  d_era : forall a t o, pc s a = AEra t o -> In t (q s);
  d_pend : forall t e, pend t (th s) = Some e -> In t (q s) /\ exp s t = e;
  d_post : forall t, rp s = RPost t -> pend t (th s) = None }.
Lemma distinct_cons : forall e H, distinct (e :: H) -> distinct H /\ forall t d, e = KStart t d -> forall u, u <> t -> pend u H <> Some d.
Proof.
  intros e H D. split.
  - intros post t d pre E. apply (D (e :: post)). now rewrite E.
  - intros t d E. subst e. now apply (D []).
Qed.

Lemma di_init : forall k, DI (tinit k).
Proof. intros k. constructor; simpl; discriminate. Qed.
Lemma di_same : forall s s', DI s -> st s' = st s -> pc s' = pc s -> q s' = q s -> exp s' = exp s -> (forall t, pend t (th s') = pend t (th s)) ->
  (forall t, rp s' = RPost t -> rp s = RPost t) -> DI s'.
Proof. intros s s' [] A B C D E F. constructor; intros *; rewrite ?A, ?B, ?C, ?D, ?E; eauto. Qed.
Lemma di_ins : forall s t, DI s -> TI s -> (forall u, rp s <> RPost u) -> (forall u, u <> t -> pend u (th s) <> Some (exp s t)) -> ~ In t (q s) ->
  In t (insert (exp s) t (q s)).
Proof.
  intros s t D I R P NQ. apply insert_new. intros u H X. assert (u <> t) by congruence. apply (P u); auto. rewrite <- X. now apply (i_pend _ I).
Qed.
Lemma di_erase : forall s t, TI s -> In t (q s) -> forall u, In u (erase (exp s) t (q s)) <-> In u (q s) /\ u <> t.
Proof.
  intros s t I H u. rewrite in_erase. split; intros [A B]; split; auto; try congruence. intros X. apply B. eapply sorted_inj; eauto. apply I.
Qed.
Lemma di_post : forall s t p, DI s -> TI s -> rp s = RPost t -> mu s t = None -> (forall u, p <> RPost u) -> DI (do_erase (setst (setrp s p) t false) t).
Proof.
  intros s t p D I R M P. destruct (free_out _ _ I M) as [NI NE]. pose proof (i_rp _ I) as F. unfold first in F. rewrite R in F. destruct F as [[r Q] L].
  assert (TQ : In t (q s)) by (rewrite Q; now left). pose proof (di_erase s t I TQ) as TE. pose proof (d_post _ D _ R) as PN. destruct D. constructor; simpl.
  - intros u H. unfold upd in H. nq u t; [discriminate|]. destruct (d_st0 _ H) as [X|X]; auto. right. now apply TE.
  - intros z u o H. apply TE. split; eauto. intros ->. eapply NE; eauto.
  - intros u e H. destruct (d_pend0 _ _ H). rewrite TE. split; auto. split; auto. congruence.
  - intros u H. exfalso. eapply P; eauto.
Qed.
Lemma di_step : forall k s l s', TI s -> MI s -> (distinct (th s) -> DI s) -> step_ok k s l = Some s' -> distinct (th s') -> DI s'.
Proof.
  intros k s l s' I MM D E DT. destruct l.
  - cases E. apply (di_same s); auto.
  - cases E.
    + simpl in DT. apply distinct_cons in DT as [DT _]. apply (di_same s); auto.
    + specialize (D DT). destruct (mine_out _ _ _ _ I M M0) as [NI NE].
      assert (NQ : ~ In t (q s)) by (intros H; apply (i_q _ I) in H as [H|(z&o'&H)]; [congruence|eapply NE; eauto]).
      destruct D. constructor; simpl.
      * intros u H. unfold upd in H. nq u t; [left; exists a, b; unfold upd; now rewrite Nat.eqb_refl|]. destruct (d_st0 _ H) as [(z&o&X)|X]; auto.
        left. exists z, o. unfold upd. nq z a; auto. congruence.
      * intros z u o H. unfold upd in H. nq z a; [discriminate|eauto].
      * intros u e H. destruct (d_pend0 _ _ H) as [A B]. split; auto. unfold upd. nq u t; [contradiction|auto].
      * auto.
  - cases E.
    + specialize (D DT). destruct (mine_out _ _ _ _ I M M0) as [NI NE].
      assert (NQ : In t (q s)) by (destruct (d_st _ D _ M1) as [(z&o&X)|X]; auto; exfalso; eapply NI; eauto).
      destruct D. constructor; simpl.
      * intros u H. unfold upd in H. nq u t; [discriminate|]. destruct (d_st0 _ H) as [(z&o&X)|X]; auto.
        left. exists z, o. unfold upd. nq z a; auto. congruence.
      * intros z u o H. unfold upd in H. nq z a; [injection H as <- <-; auto|eauto].
      * auto.
      * auto.
    + simpl in DT. apply distinct_cons in DT as [DT _]. destruct (D DT). constructor; simpl; auto.
      * intros u e H. destruct (u =? t); [discriminate|auto].
      * intros u H. destruct (u =? t); auto.
  - cases E.
    + simpl in DT. assert (DT' : distinct (KStart t (exp s t) :: th s)) by (destruct own; exact DT). clear DT.
      apply distinct_cons in DT' as [DT DN]. specialize (D DT). specialize (DN _ _ eq_refl).
      assert (R : forall u, rp s <> RPost u) by (intros u Y; unfold qfree in M0; rewrite Y in M0; discriminate).
      destruct (i_ins _ I _ _ _ M) as (S&NQ&MU).
      pose proof (di_ins s t D I R DN NQ) as TN. 
      enough (G : DI (tlog (KStart t (exp s t)) (do_insert (setpc s a AIdle) t))) by (destruct own; [apply (di_same _ _ G); auto|exact G]).
      destruct D. constructor; simpl.
      * intros u H. destruct (d_st0 _ H) as [(z&o&X)|X]; [|right; now apply insert_keeps]. nq z a.
        -- right. assert (u = t) as -> by congruence. auto.
        -- left. exists z, o. unfold upd. now rewrite (proj2 (Nat.eqb_neq _ _) N).
      * intros z u o H. unfold upd in H. nq z a; [discriminate|]. apply insert_keeps. eauto.
      * intros u e H. nq u t; [split; congruence|]. destruct (d_pend0 _ _ H). split; auto. now apply insert_keeps.
      * intros u H. exfalso. eapply R; eauto.
    + simpl in DT. assert (DT' : distinct (KStop t :: th s)) by (destruct own; exact DT). clear DT.
      apply distinct_cons in DT' as [DT _]. specialize (D DT).
      assert (R : forall u, rp s <> RPost u) by (intros u Y; unfold qfree in M0; rewrite Y in M0; discriminate).
      destruct (i_era _ I _ _ _ M) as (S&MU). pose proof (d_era _ D _ _ _ M) as TQ. pose proof (di_erase s t I TQ) as TE.
      enough (G : DI (tlog (KStop t) (do_erase (setpc s a AIdle) t))) by (destruct own; [apply (di_same _ _ G); auto|exact G]).
      destruct D. constructor; simpl.
      * intros u H. destruct (d_st0 _ H) as [(z&o&X)|X]; [|right; apply TE; split; congruence]. left. exists z, o. unfold upd. nq z a; congruence.
      * intros z u o H. unfold upd in H. nq z a; [discriminate|]. apply TE. split; eauto. intros ->. apply (i_era _ I) in H. destruct H as [_ H]. congruence.
      * intros u e H. nq u t; [discriminate|]. destruct (d_pend0 _ _ H). rewrite TE. auto.
      * intros u H. exfalso. eapply R; eauto.
  - cases E. simpl in DT. apply distinct_cons in DT as [DT _]. apply (di_same s); auto.
  - cases E. apply (di_same s); auto; destruct b; auto.
  - cases E.
    + simpl in DT. apply distinct_cons in DT as [DT _]. apply (di_same s); auto; simpl; discriminate.
    + apply (di_same s); auto; simpl; discriminate.
    + apply (di_same s); auto; simpl; discriminate.
    + apply (di_same s); auto; simpl; discriminate.
    + apply (di_same s); auto; simpl; discriminate.
    + apply (di_same s); auto; simpl; discriminate.
    + simpl in DT. apply distinct_cons in DT as [DT _]. apply (di_same s); auto; simpl; discriminate.
    + simpl in DT. apply distinct_cons in DT as [DT _]. destruct (D DT). constructor; simpl; auto.
      * intros u e H. destruct (u =? t); [discriminate|auto].
      * intros u H. injection H as <-. now rewrite Nat.eqb_refl.
    + apply di_post; auto; discriminate.
    + apply di_post; auto; discriminate.
    + apply di_post; auto; discriminate.
    + exfalso. apply rp_first in M; auto. congruence.
    + exfalso. apply rp_first in M; auto. congruence.
    + exfalso. apply rp_first in M; auto. congruence.
    + apply (di_same s); auto; simpl; discriminate.
    + simpl in DT. apply distinct_cons in DT as [DT DN]. specialize (D DT). specialize (DN _ _ eq_refl).
      destruct (free_out _ _ I M0) as [NI NE]. pose proof (i_rp _ I) as F. unfold first in F. rewrite M in F. set (e := due k s t) in *. clearbody e.
      assert (X : forall u, In u (q s) -> upd (exp s) t e u = exp s u) by (intros u H; unfold upd; nq u t; [contradiction|auto]).
      assert (TN : In t (insert (upd (exp s) t e) t (q s))).
      { apply insert_new. intros u H Y. rewrite X in Y by auto. unfold upd in Y. rewrite Nat.eqb_refl in Y. assert (u <> t) by congruence.
        apply (DN u); auto. rewrite <- Y. apply (i_pend _ I); auto. congruence. }
      destruct D. constructor; simpl.
      * intros u H. nq u t; [auto|]. unfold upd in H. rewrite (proj2 (Nat.eqb_neq _ _) N) in H.
        destruct (d_st0 _ H) as [Y|Y]; auto. right. now apply insert_keeps.
      * intros z u o H. apply insert_keeps. eauto.
      * intros u d H. nq u t.
        -- injection H as <-. split; auto. unfold upd. now rewrite Nat.eqb_refl.
        -- destruct (d_pend0 _ _ H). split; [now apply insert_keeps|]. unfold upd. now rewrite (proj2 (Nat.eqb_neq _ _) N).
      * discriminate.
  - cases E; apply (di_same s); auto; simpl; discriminate.
Qed.

(** All invariants together. *)
Definition INV (s : tst) : Prop := TI s /\ MI s /\ WI s /\ (distinct (th s) -> DI s).
Lemma inv_step : forall k s l s', INV s -> step_ok k s l = Some s' -> INV s'.
Proof.
  intros k s l s' (A&B&C&D) E. split; [eapply ti_step; eauto|]. split; [eapply mi_step; eauto|]. split; [eapply wi_step; eauto|]. intros; eapply di_step; eauto.
Qed.
Lemma inv_init : forall k, INV (tinit k).
Proof. intros k. split; [apply ti_init|]. split; [apply mi_init|]. split; [exact I|]. intros _. apply di_init. Qed.
Lemma inv_run : forall k ls s, run (step_ok k) (tinit k) ls = Some s -> INV s.
Proof. intros k ls s R. eapply run_inv with (I := INV); eauto using inv_init, inv_step. Qed.
