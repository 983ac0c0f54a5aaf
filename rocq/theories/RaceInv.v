(** Who keeps to the rule does not race. *)
From Coq Require Import List Arith Bool Lia.
From Verif Require Import Base RaceSpec RaceLemmas RaceModel RaceRule.
Import ListNotations.

(** How often activity k of thread t has locked a lock. *)
Definition cnt (v : option (nat * list nat)) (t k : nat) : nat :=
  match v with Some (u, ks) => if u =? t then count_occ Nat.eq_dec ks k else 0 | None => 0 end.
Definition owners := lock -> option (nat * list nat).

Lemma set_ow_same : forall (f : owners) l v, set_ow f l v l = v.
Proof. intros. unfold set_ow. destruct (lock_eq l l); congruence. Qed.
Lemma set_ow_other : forall (f : owners) l v m, m <> l -> set_ow f l v m = f m.
Proof. intros. unfold set_ow. destruct (lock_eq m l); congruence. Qed.
Lemma set_pr_same : forall f t k p, set_pr f t k p t k = p.
Proof. intros. unfold set_pr. now rewrite !Nat.eqb_refl. Qed.
Lemma set_pr_other : forall f t k p u j, (u, j) <> (t, k) -> set_pr f t k p u j = f u j.
Proof. intros f t k p u j N. unfold set_pr. destruct (Nat.eqb_spec u t), (Nat.eqb_spec j k); simpl; auto. congruence. Qed.
Lemma pair_dec : forall (u j t k : nat), {(u, j) = (t, k)} + {(u, j) <> (t, k)}.
Proof. intros. decide equality; apply Nat.eq_dec. Qed.

Lemma without_same : forall k ks, In k ks -> S (count_occ Nat.eq_dec (without k ks) k) = count_occ Nat.eq_dec ks k.
Proof.
  induction ks as [|j r IH]; simpl; [easy|]. intros [-> |I].
  - rewrite Nat.eqb_refl. destruct (Nat.eq_dec k k); congruence.
  - destruct (Nat.eqb_spec j k) as [-> |N]; [destruct (Nat.eq_dec k k); congruence|]. simpl. destruct (Nat.eq_dec j k); [congruence|auto].
Qed.
Lemma without_other : forall k j ks, j <> k -> count_occ Nat.eq_dec (without k ks) j = count_occ Nat.eq_dec ks j.
Proof.
  induction ks as [|i r IH]; simpl; auto. intros N. destruct (Nat.eqb_spec i k) as [-> |M]; simpl.
  - destruct (Nat.eq_dec k j); congruence.
  - rewrite IH by auto. reflexivity.
Qed.

(** The locks agree with the programs. *)
Definition full (f : owners) : Prop := forall l u ks, f l = Some (u, ks) -> ks <> [].

Lemma acquire_cnt : forall f t k l g, acquire f t k l = Some g ->
  (forall m, cnt (g m) t k = cnt (f m) t k + count_occ lock_eq [l] m) /\ (forall m u j, (u, j) <> (t, k) -> cnt (g m) u j = cnt (f m) u j) /\ (full f -> full g).
Proof.
  intros f t k l g A. unfold acquire in A. destruct (f l) as [[u ks]|] eqn:E; [destruct (Nat.eqb_spec u t) as [-> |]; [|discriminate]|]; injection A as <-; repeat split.
  - intros m. simpl. destruct (lock_eq l m) as [<-|N]; [rewrite set_ow_same, E|rewrite set_ow_other by auto; lia]. simpl. rewrite Nat.eqb_refl. destruct (Nat.eq_dec k k); [lia|congruence].
  - intros m u j N. destruct (lock_eq m l) as [-> |M]; [rewrite set_ow_same, E|now rewrite set_ow_other]. simpl.
    destruct (Nat.eqb_spec t u) as [<-|]; auto. destruct (Nat.eq_dec k j); auto. subst. congruence.
  - intros F m u js. destruct (lock_eq m l) as [-> |M]; [rewrite set_ow_same|rewrite set_ow_other; auto]; [|apply F]. intros X. injection X as <- <-. discriminate.
  - intros m. simpl. destruct (lock_eq l m) as [<-|N]; [rewrite set_ow_same, E|rewrite set_ow_other by auto; lia]. simpl. rewrite Nat.eqb_refl. destruct (Nat.eq_dec k k); [lia|congruence].
  - intros m u j N. destruct (lock_eq m l) as [-> |M]; [rewrite set_ow_same, E|now rewrite set_ow_other]. simpl.
    destruct (Nat.eqb_spec t u) as [<-|]; auto. destruct (Nat.eq_dec k j); auto. subst. congruence.
  - intros F m u js. destruct (lock_eq m l) as [-> |M]; [rewrite set_ow_same|rewrite set_ow_other; auto]; [|apply F]. intros X. injection X as <- <-. discriminate.
Qed.
Lemma acquire_all_cnt : forall ls f t k g, acquire_all f t k ls = Some g ->
  (forall m, cnt (g m) t k = cnt (f m) t k + count_occ lock_eq ls m) /\ (forall m u j, (u, j) <> (t, k) -> cnt (g m) u j = cnt (f m) u j) /\ (full f -> full g).
Proof.
  induction ls as [|l r IH]; intros f t k g A; simpl in A.
  - injection A as <-. simpl. repeat split; auto.
  - destruct (acquire f t k l) as [h|] eqn:E; [|discriminate]. apply acquire_cnt in E as (A1&A2&A3). apply IH in A as (B1&B2&B3). repeat split; auto.
    + intros m. rewrite B1, A1. simpl. destruct (lock_eq l m); lia.
    + intros. rewrite B2, A2; auto.
Qed.
Lemma release_cnt : forall f t k l g, release f t k l = Some g -> cnt (f l) t k > 0 ->
  (forall m, cnt (f m) t k = cnt (g m) t k + count_occ lock_eq [l] m) /\ (forall m u j, (u, j) <> (t, k) -> cnt (g m) u j = cnt (f m) u j) /\ (full f -> full g).
Proof.
  intros f t k l g A C. unfold release in A. destruct (f l) as [[u ks]|] eqn:E; [|discriminate]. destruct (Nat.eqb_spec u t) as [-> |]; [|discriminate]. injection A as <-.
  simpl in C. rewrite Nat.eqb_refl in C. pose proof C as I. apply (count_occ_In Nat.eq_dec) in I.
  assert (W : forall j u, cnt (match without k ks with [] => None | r => Some (t, r) end) u j = if t =? u then count_occ Nat.eq_dec (without k ks) j else 0).
  { intros j u. destruct (without k ks); auto. simpl. now destruct (t =? u). }
  repeat split.
  - intros m. simpl. destruct (lock_eq l m) as [<-|N]; [rewrite set_ow_same, W, E|rewrite set_ow_other by auto; lia].
    simpl. rewrite Nat.eqb_refl. rewrite <- (without_same k ks I). lia.
  - intros m u j N. destruct (lock_eq m l) as [-> |M]; [rewrite set_ow_same, W, E|now rewrite set_ow_other]. simpl.
    destruct (Nat.eqb_spec t u) as [<-|]; auto. apply without_other. congruence.
  - intros F m u js. destruct (lock_eq m l) as [-> |M]; [rewrite set_ow_same|rewrite set_ow_other; auto]; [|apply F].
    destruct (without k ks) eqn:Q; [discriminate|]. intros X. injection X as <- <-. discriminate.
Qed.

Section Rule.
  Variable d : cause -> bool.
  Notation ev := (RaceSpec.ev sync loc).

  (** What the holder of the lock of x knows, or the lock carries. *)
  Definition K (f : owners) (tr : list ev) : Prop :=
    forall x l i a, rule_of d x = ByLock l -> nth_error tr i = Some a -> touches a x ->
    match f l with Some (u, _) => knows tr u i | None => carried tr (SL l) i end.
  Definition T (tr : list ev) : Prop := forall x e i a, rule_of d x = ByThread e -> nth_error tr i = Some a -> touches a x -> thr a = e.
  Definition W (tr : list ev) : Prop := forall x i a, rule_of d x = Frozen -> nth_error tr i = Some a -> act a <> KWr x.
  Definition O (tr : list ev) : Prop := forall x, rule_of d x <> NoRule -> ordered tr x.
  Definition R (f : owners) (tr : list ev) : Prop := K f tr /\ (T tr /\ W tr) /\ O tr.

  (** Events that are no accesses. *)
  Definition quiet (e : ev) : Prop := forall x, ~ touches e x.
  Lemma T_quiet : forall tr e, quiet e -> T tr /\ W tr -> T (tr ++ [e]) /\ W (tr ++ [e]).
  Proof.
    intros tr e Q [H G]. split.
    - intros x u i a X N A. apply nth_snoc in N as [(_&N)|(_&->)]; [eauto|now apply Q in A].
    - intros x i a X N A. apply nth_snoc in N as [(_&N)|(_&->)]; [eapply G; eauto|]. apply (Q x). now right.
  Qed.
  Lemma O_quiet : forall tr e, quiet e -> O tr -> O (tr ++ [e]).
  Proof. intros tr e Q H x X. apply ordered_snoc; auto. intros i a N (_&_&C&_). now apply Q in C. Qed.
  Lemma K_quiet : forall f tr e, quiet e -> (forall l, ~ releases e (SL l)) -> K f tr -> K f (tr ++ [e]).
  Proof.
    intros f tr e Q N H x l i a X M A. apply nth_snoc in M as [(_&M)|(_&->)]; [|now apply Q in A].
    specialize (H x l i a X M A). destruct (f l) as [[u ks]|]; [now apply knows_more|now apply carried_more].
  Qed.
  Lemma K_acquire : forall f tr t k l g, acquire f t k l = Some g -> K f tr -> K g (tr ++ [mkEv t (KAcq (SL l))]).
  Proof.
    intros f tr t k l g A H x m i a X M C.
    apply nth_snoc in M as [(_&M)|(_&->)]; [|destruct C; discriminate]. specialize (H x m i a X M C).
    unfold acquire in A. destruct (lock_eq m l) as [-> |N].
    - destruct (f l) as [[u ks]|]; [destruct (Nat.eqb_spec u t) as [-> |]; [|discriminate]|]; injection A as <-; rewrite set_ow_same; [now apply knows_more|].
      eapply (acquire_knows tr (mkEv t (KAcq (SL l)))); [left; reflexivity|exact H].
    - assert (g m = f m) as ->. { destruct (f l) as [[u ks]|]; [destruct (u =? t); [|discriminate]|]; injection A as <-; now apply set_ow_other. }
      destruct (f m) as [[u ks]|]; [now apply knows_more|]. apply carried_more; auto. intros [Y|Y]; discriminate.
  Qed.
  Lemma R_acquire : forall f tr t k l g, acquire f t k l = Some g -> R f tr -> R g (tr ++ [mkEv t (KAcq (SL l))]).
  Proof.
    intros f tr t k l g A (HK&HT&HO). assert (quiet (mkEv t (KAcq (SL l)))) by (intros x [X|X]; discriminate).
    split; [eapply K_acquire; eauto|]. split; [now apply T_quiet|now apply O_quiet].
  Qed.
  Lemma R_all : forall ls f tr t k g, acquire_all f t k ls = Some g -> R f tr -> R g (tr ++ map (mkEv t) (map (fun l => KAcq (SL l)) ls)).
  Proof.
    induction ls as [|l r IH]; intros f tr t k g A H; simpl in *.
    - injection A as <-. now rewrite app_nil_r.
    - destruct (acquire f t k l) as [h|] eqn:E; [|discriminate]. change (?a :: ?b) with ([a] ++ b). rewrite app_assoc. eapply IH; eauto. eapply R_acquire; eauto.
  Qed.
  Lemma R_release : forall f tr t k l g, release f t k l = Some g -> R f tr -> R g (tr ++ [mkEv t (KRel (SL l))]).
  Proof.
    intros f tr t k l g A (HK&HT&HO). assert (Q : quiet (mkEv t (KRel (SL l)))) by (intros x [X|X]; discriminate).
    split; [|split; [now apply T_quiet|now apply O_quiet]].
    intros x m i a X M C. apply nth_snoc in M as [(_&M)|(_&->)]; [|now apply Q in C]. specialize (HK x m i a X M C).
    unfold release in A. destruct (f l) as [[u ks]|] eqn:E; [|discriminate]. destruct (Nat.eqb_spec u t) as [-> |]; [|discriminate]. injection A as <-.
    destruct (lock_eq m l) as [-> |N].
    - rewrite set_ow_same. rewrite E in HK. destruct (without k ks); [|now apply knows_more].
      apply (release_carried tr (mkEv t (KRel (SL l)))); [left; reflexivity|exact HK].
    - rewrite set_ow_other by auto. destruct (f m) as [[u js]|]; [now apply knows_more|]. apply carried_more; auto. intros [Y|Y]; [|discriminate]. injection Y as Y. congruence.
  Qed.
  Lemma R_quiet : forall f tr e, quiet e -> (forall l, ~ releases e (SL l)) -> R f tr -> R f (tr ++ [e]).
  Proof. intros f tr e Q N (A&B&C). split; [now apply K_quiet|]. split; [now apply T_quiet|now apply O_quiet]. Qed.
  (** An access that keeps to the rule. *)
  Lemma R_access : forall f tr t (w : bool) x,
    match rule_of d x with ByLock l => exists ks, f l = Some (t, ks) | ByThread e => e = t | Frozen => w = false | NoRule => True end ->
    R f tr -> R f (tr ++ [mkEv t (if w then KWr x else KRd x)]).
  Proof.
    intros f tr t w x G (HK&(HT&HW)&HO). set (a := if w then KWr x else KRd x). assert (A : a = KRd x \/ a = KWr x) by (destruct w; auto).
    assert (B : a = KWr x -> w = true) by (unfold a; destruct w; auto; discriminate). clearbody a.
    assert (U : forall y, touches (mkEv t a) y -> y = x) by (intros y [Y|Y]; simpl in Y; destruct A; congruence).
    assert (Q : forall l, ~ releases (mkEv t a) (SL l)) by (intros l [Y|Y]; simpl in Y; destruct A; congruence).
    split; [|split; [split|]].
    - intros y l i b Y N C. apply nth_snoc in N as [(_&N)|(->&->)].
      + specialize (HK y l i b Y N C). destruct (f l) as [[u ks]|]; [now apply knows_more|now apply carried_more].
      + apply U in C as ->. rewrite Y in G. destruct G as (ks&->). apply (knows_self tr (mkEv t a)).
    - intros y e i b Y N C. apply nth_snoc in N as [(_&N)|(->&->)]; [eauto|]. apply U in C as ->. rewrite Y in G. simpl. auto.
    - intros y i b Y N C. apply nth_snoc in N as [(_&N)|(->&->)]; [eapply HW; eauto|]. simpl in C. assert (y = x) as -> by (apply U; now right). rewrite Y in G. rewrite B in G; auto. discriminate.
    - intros y Y. apply ordered_snoc; auto. intros i b N (D&C1&C2&C3). apply U in C2 as ->. simpl in *.
      destruct (rule_of d x) as [l|e| |] eqn:Z; [| | |congruence].
      + destruct G as (ks&G). specialize (HK x l i b Z N C1). now rewrite G in HK.
      + exfalso. apply D. rewrite (HT x e i b Z N C1). auto.
      + exfalso. destruct C3 as [C3|C3]; [exact (HW x i b Z N C3)|]. apply B in C3. congruence.
  Qed.

  (** The invariant. *)
  Record Inv (s : st) : Prop := {
    i_good : forall t k, good d t (pr s t k);
    i_held : forall l t k, cnt (ow s l) t k = need l (pr s t k);
    i_full : full (ow s);
    i_race : R (ow s) (tr s) }.

  (** The calls of an execution do not ask for the dump unless it is allowed for. *)
  Definition calls_ok (ls : list lbl) : Prop := forall t k c, In (Begin t k c) ls -> permits d c = true.

  Lemma init_Inv : Inv init.
  Proof.
    split; simpl; auto.
    - intros l u ks H. discriminate.
    - split; [|split].
      + intros x l i a _ N. destruct i; discriminate.
      + split; [intros x l i a _ N|intros x i a _ N]; destruct i; discriminate.
      + intros x _. apply ordered_nil.
  Qed.
  Lemma code_good : forall t c, permits d c = true -> good d t (code t c) /\ forall l, need l (code t c) = 0.
  Proof.
    intros t c D. destruct (code_ok d t c D []) as [A B]; [easy|]. rewrite app_nil_r in *. split; [apply B; exact I|]. intros l. now rewrite A.
  Qed.
  Lemma holds : forall s l t k, Inv s -> need l (pr s t k) > 0 -> exists ks, ow s l = Some (t, ks).
  Proof.
    intros s l t k J N. rewrite <- (i_held s J) in N. destruct (ow s l) as [[u ks]|]; simpl in N; [|lia].
    destruct (Nat.eqb_spec u t) as [-> |]; [eauto|lia].
  Qed.

  Lemma step_Inv : forall s l s', Inv s -> (forall t k c, l = Begin t k c -> permits d c = true) -> step s l = Some s' -> Inv s'.
  Proof.
    intros s l s' J D E. destruct l as [t k c|t k]; simpl in E.
    - destruct (pr s t k) eqn:P; [|discriminate]. injection E as <-. destruct (code_good t c (D _ _ _ eq_refl)) as [G N]. split; simpl.
      + intros u j. destruct (pair_dec u j t k) as [X|X]; [injection X as -> ->; now rewrite set_pr_same|rewrite set_pr_other by auto; apply (i_good s J)].
      + intros l u j. destruct (pair_dec u j t k) as [X|X]; [injection X as -> ->; rewrite set_pr_same, N, (i_held s J), P; reflexivity|rewrite set_pr_other by auto; apply (i_held s J)].
      + exact (i_full s J).
      + exact (i_race s J).
    - destruct (pr s t k) as [|o r] eqn:P; [discriminate|]. destruct (locks (ow s) t k o) as [f|] eqn:F; [|discriminate]. injection E as <-.
      pose proof (i_good s J t k) as G. rewrite P in G.
      assert (Hh : forall l, cnt (ow s l) t k = need l (o :: r)) by (intros l; rewrite (i_held s J), P; reflexivity).
      assert (X : (forall l, cnt (f l) t k = need l r) /\ (forall l u j, (u, j) <> (t, k) -> cnt (f l) u j = cnt (ow s l) u j) /\ full f /\ good d t r /\ R f (tr s ++ map (mkEv t) (kinds o))).
      { pose proof (i_full s J) as Hf. pose proof (i_race s J) as Hr. destruct o as [l|ls|l|e|e|e|e|x|x]; simpl in F.
        - destruct G as [G1 G2]. pose proof F as F0. apply acquire_cnt in F0 as (A&B&C). repeat split; auto; [|eapply R_acquire; eauto..].
          intros m. rewrite A, Hh. simpl. destruct (lock_eq m l), (lock_eq l m); subst; try congruence; try lia.
        - destruct G as [G1 G2]. pose proof F as F0. apply acquire_all_cnt in F0 as (A&B&C). repeat split; auto; [|eapply R_all; eauto..].
          intros m. rewrite A, Hh. simpl. specialize (G1 m). lia.
        - pose proof F as F0. apply release_cnt in F0 as (A&B&C).
          + repeat split; auto; [|eapply R_release; eauto..]. intros m. specialize (A m). rewrite Hh in A. simpl in A. destruct (lock_eq m l), (lock_eq l m); subst; try congruence; lia.
          + rewrite Hh. simpl. destruct (lock_eq l l); [lia|congruence].
        - injection F as <-. split; [exact Hh|]. split; [auto|]. split; [auto|]. split; [exact G|]. apply R_quiet; auto; [intros y [Y|Y]|intros y [Y|Y]]; discriminate.
        - injection F as <-. split; [exact Hh|]. split; [auto|]. split; [auto|]. split; [exact G|]. apply R_quiet; auto; [intros y [Y|Y]|intros y [Y|Y]]; discriminate.
        - injection F as <-. split; [exact Hh|]. split; [auto|]. split; [auto|]. split; [exact G|]. apply R_quiet; auto; [intros y [Y|Y]|intros y [Y|Y]]; discriminate.
        - injection F as <-. split; [exact Hh|]. split; [auto|]. split; [auto|]. split; [exact G|]. apply R_quiet; auto; [intros y [Y|Y]|intros y [Y|Y]]; discriminate.
        - injection F as <-. destruct G as [G1 G2]. split; [exact Hh|]. split; [auto|]. split; [auto|]. split; [exact G2|].
          apply (R_access _ _ _ false x); auto. unfold allowed in G1. destruct (rule_of d x) as [l|e| |]; auto. apply holds with k; auto. rewrite P. simpl. lia.
        - injection F as <-. destruct G as [G1 G2]. split; [exact Hh|]. split; [auto|]. split; [auto|]. split; [exact G2|].
          apply (R_access _ _ _ true x); auto. unfold allowed in G1. destruct (rule_of d x) as [l|e| |]; auto. apply holds with k; auto. rewrite P. simpl. lia. }
      destruct X as (X1&X2&X3&X4&X5). split; simpl; auto.
      + intros u j. destruct (pair_dec u j t k) as [X|X]; [injection X as -> ->; now rewrite set_pr_same|rewrite set_pr_other by auto; apply (i_good s J)].
      + intros l u j. destruct (pair_dec u j t k) as [X|X]; [injection X as -> ->; now rewrite set_pr_same|rewrite set_pr_other by auto; rewrite X2 by auto; apply (i_held s J)].
  Qed.
  Lemma run_Inv : forall ls s s', Inv s -> calls_ok ls -> run step s ls = Some s' -> Inv s'.
  Proof.
    induction ls as [|l r IH]; intros s s' J D E; simpl in E.
    - injection E as <-. exact J.
    - destruct (step s l) as [s1|] eqn:E1; [|discriminate]. apply IH with s1; auto.
      + eapply step_Inv; eauto. intros t k c ->. apply (D t k c). now left.
      + intros t k c I. apply (D t k c). now right.
  Qed.
  Lemma reach_Inv : forall ls s, calls_ok ls -> run step init ls = Some s -> Inv s.
  Proof. intros ls s D E. eapply run_Inv; eauto using init_Inv. Qed.
End Rule.
