(** Proofs about the moving of coroutines between threads (MgrModel.v: steal_own, redistribute_own). *)
From Coq Require Import List Arith Bool Lia Permutation.
From Verif Require Import Base MgrSpec MgrModel MgrProofs.
Import ListNotations.

Definition with_ctx (t : thr) (q : list (nat * bool)) : thr :=
  mkT (tid t) (tst t) (texcl t) (tself t) (tconv t) (tkeep t) (tswd t) q.

Lemma same_refl : forall t, same_thr t t.
Proof. intros t. repeat split. Qed.

Lemma take_first_ok : forall q c q', take_first q = (Some c, q') ->
  Permutation q ((c, true) :: q') /\ filter (fun c => negb (snd c)) q' = filter (fun c => negb (snd c)) q /\ incl q' q.
Proof.
  induction q as [|[d []] q IH]; intros c q' E; simpl in E; [discriminate| |].
  - injection E as <- <-. split; [reflexivity|]. split; [reflexivity|]. intros x; simpl; auto.
  - destruct (take_first q) as [o r] eqn:T. injection E as -> <-. destruct (IH c r eq_refl) as (A&B&C).
    split; [rewrite A at 1; apply perm_swap|]. split; [simpl; now rewrite B|]. intros x [<-|X]; simpl; auto.
Qed.

(** *** Adding one coroutine to a thread *)
Definition given (u : thr) (c : nat) : thr := set_st (with_ctx u (tctx u ++ [(c, true)])) MBusy.
Lemma move_to_eq : forall l i c, move_to l i c = map (fun u => if tid u =? i then given u c else u) l.
Proof. reflexivity. Qed.
Lemma given_same : forall u c, same_thr u (given u c).
Proof. intros u c. unfold given, set_st, with_ctx. simpl. destruct (tst u); repeat split. Qed.
Lemma given_ctx : forall u c, tctx (given u c) = tctx u ++ [(c, true)].
Proof. intros u c. unfold given. now rewrite setst_ctx. Qed.
Lemma given_pinned : forall u c, pinned (given u c) = pinned u.
Proof. intros u c. unfold pinned. rewrite given_ctx, filter_app. simpl. apply app_nil_r. Qed.
Lemma given_st : forall u c, tst u <> MDestroying -> tst (given u c) = MBusy.
Proof. intros u c H. unfold given, set_st. simpl. destruct (tst u); auto. now destruct H. Qed.

Lemma move_to_tids : forall l i c, map tid (move_to l i c) = map tid l.
Proof.
  intros l i c. rewrite move_to_eq, map_map. apply map_ext. intros u. destruct (tid u =? i); auto. apply (given_same u c).
Qed.
Lemma move_to_app : forall a b i c, move_to (a ++ b) i c = move_to a i c ++ move_to b i c.
Proof. intros. apply map_app. Qed.
Lemma move_to_out : forall l i c, ~ In i (map tid l) -> move_to l i c = l.
Proof.
  induction l as [|u l IH]; intros i c N; auto. simpl. rewrite IH by (intros H; apply N; now right).
  destruct (Nat.eqb_spec (tid u) i) as [E|E]; auto. destruct N. now left.
Qed.
Lemma move_to_perm : forall l i c, NoDup (map tid l) -> In i (map tid l) ->
  Permutation (all_ctx (move_to l i c)) ((c, true) :: all_ctx l).
Proof.
  induction l as [|u l IH]; intros i c D I; [destruct I|]. simpl in D. inversion D as [|x xs N D']; subst.
  unfold all_ctx in *. simpl. destruct (Nat.eqb_spec (tid u) i) as [E|E].
  - fold (move_to l i c). rewrite move_to_out by (rewrite <- E; exact N).
    change (set_st _ MBusy) with (given u c). rewrite given_ctx, <- app_assoc. simpl. symmetry. apply Permutation_middle.
  - destruct I as [I|I]; [congruence|]. fold (move_to l i c). rewrite (IH i c D' I). symmetry. apply Permutation_middle.
Qed.

Lemma forall2_tids : forall (R : thr -> thr -> Prop), (forall t u, R t u -> tid u = tid t) ->
  forall l l', Forall2 R l l' -> map tid l' = map tid l.
Proof. intros R H l l' F. induction F as [|t u l l' X F IH]; simpl; auto. rewrite IH. f_equal. auto. Qed.
Lemma forall2_refl : forall (R : thr -> thr -> Prop), (forall t, R t t) -> forall l, Forall2 R l l.
Proof. intros R H l. induction l; constructor; auto. Qed.
Lemma forall2_map : forall (R : thr -> thr -> Prop) f l l', Forall2 R l l' ->
  (forall t u, In t l -> In u l' -> R t u -> R t (f u)) -> Forall2 R l (map f l').
Proof.
  intros R f l l' F. induction F as [|t u l l' X F IH]; intros H; simpl; constructor.
  - apply H; auto; now left.
  - apply IH. intros t' u' A B. apply H; now right.
Qed.
Lemma nodup_tid : forall l t u, NoDup (map tid l) -> In t l -> In u l -> tid t = tid u -> t = u.
Proof.
  induction l as [|x l IH]; intros t u D T U E; [destruct T|]. simpl in D. inversion D as [|y ys N D']; subst.
  destruct T as [<-|T], U as [<-|U]; auto.
  - destruct N. rewrite E. now apply in_map.
  - destruct N. rewrite <- E. now apply in_map.
Qed.

Section Move.
  Variables (own : nat) (lk : nat -> bool) (oth : nat -> nat).
  (** Its lock was obtained, and the routine finds that nobody holds it. *)
  Definition touchable (i : nat) : Prop := lk i = true /\ own + oth i = 0.
  Lemma force_iff : forall i, can_force own (oth i) = true <-> own + oth i = 0.
  Proof. intros i. unfold can_force. apply Nat.eqb_eq. Qed.

  (** *** Stealing *)
  Lemma steal_ok_refl : forall t, stealing_ok touchable t t.
  Proof. intros t. split; [apply same_refl|]. split; auto. split; auto. split; auto. left. intros x; auto. Qed.

  Lemma steal_from_ok : forall r b b' r' o, steal_from own lk oth b r = (b', r', o) ->
    match o with
    | None => b' ++ r' = b ++ r
    | Some c => exists x t y q, b ++ r = x ++ t :: y /\ b' ++ r' = x ++ with_ctx t q :: y /\
        touchable (tid t) /\ tst t <> MIdle /\ take_first (tctx t) = (Some c, q)
    end.
  Proof.
    induction r as [|t r IH]; intros b b' r' o E; simpl in E; [injection E as <- <- <-; auto|].
    destruct (is_idle t) eqn:I; [injection E as <- <- <-; auto|].
    assert (G : steal_from own lk oth (b ++ [t]) r = (b', r', o) -> match o with
      | None => b' ++ r' = b ++ t :: r
      | Some c => exists x t' y q, b ++ t :: r = x ++ t' :: y /\ b' ++ r' = x ++ with_ctx t' q :: y /\
          touchable (tid t') /\ tst t' <> MIdle /\ take_first (tctx t') = (Some c, q)
      end).
    { intros H. apply IH in H. rewrite <- app_assoc in H. exact H. }
    destruct (lk (tid t)) eqn:K; simpl in E; [|exact (G E)].
    destruct (can_force own (oth (tid t))) eqn:F; simpl in E; [|exact (G E)].
    destruct (take_first (tctx t)) as [[c|] q] eqn:T; [|exact (G E)]. injection E as <- <- <-.
    exists b, t, r, q. repeat split; auto; [now apply force_iff|]. intros H. apply is_idle_iff in H. congruence.
  Qed.

  (** One coroutine is taken from one thread. *)
  Lemma taken_ok : forall l x t y c q, Forall2 (stealing_ok touchable) l (x ++ t :: y) -> touchable (tid t) ->
    take_first (tctx t) = (Some c, q) -> Forall2 (stealing_ok touchable) l (x ++ with_ctx t q :: y).
  Proof.
    intros l x t y c q F K T. apply Forall2_app_inv_r in F as (l1&l2&F1&F2&->). apply Forall2_app; auto.
    inversion F2 as [|t0 u l2' y' X F3]; subst. constructor; auto. destruct (take_first_ok _ _ _ T) as (_&P&I).
    destruct X as ((S1&S2&S3&S4&S5)&A&B&C&D).
    split; [repeat split; auto|]. split; [unfold pinned in *; simpl; congruence|]. split; [right; now rewrite <- S1|].
    split; [|exact D]. destruct C as [C|C]; auto. left. simpl. intros z Z. auto.
  Qed.
  (** One coroutine is given to one idle thread. *)
  Lemma given_ok : forall l l' e c, Forall2 (stealing_ok touchable) l l' -> touchable e ->
    (forall t, In t l -> tid t = e -> tst t = MIdle /\ texcl t = false) -> Forall2 (stealing_ok touchable) l (move_to l' e c).
  Proof.
    intros l l' e c F K H. rewrite move_to_eq. apply forall2_map; auto. intros t u T U X.
    destruct (Nat.eqb_spec (tid u) e) as [E|E]; auto. destruct X as ((S1&S2&S3&S4&S5)&A&B&C&D).
    destruct (given_same u c) as (G1&G2&G3&G4&G5). destruct (H t T) as [H1 H2]; [congruence|].
    split; [repeat split; congruence|]. split; [now rewrite given_pinned|]. split; [right; congruence|]. split; [auto|].
    right. split; auto. split; auto. apply given_st. destruct D as [D|(_&_&D)]; congruence.
  Qed.

  Lemma stealing_tid : forall t u, stealing_ok touchable t u -> tid u = tid t.
  Proof. intros t u H. apply H. Qed.

  Lemma all_ctx_app : forall a b, all_ctx (a ++ b) = all_ctx a ++ all_ctx b.
  Proof. intros. apply flat_map_app. Qed.

  Lemma steal_loop_ok : forall l idle b r, NoDup (map tid l) -> Forall2 (stealing_ok touchable) l (b ++ r) ->
    Permutation (all_ctx (b ++ r)) (all_ctx l) ->
    (forall e, In e idle -> In e (map tid l) /\ forall t, In t l -> tid t = e -> tst t = MIdle /\ texcl t = false) ->
    let l' := steal_loop own lk oth idle b r in
    Forall2 (stealing_ok touchable) l l' /\ Permutation (all_ctx l') (all_ctx l).
  Proof.
    intros l idle. induction idle as [|e q IH]; intros b r D F P H; simpl; auto.
    assert (Hq : forall e', In e' q -> In e' (map tid l) /\ forall t, In t l -> tid t = e' -> tst t = MIdle /\ texcl t = false)
      by (intros e' He; apply H; now right).
    destruct (lk e) eqn:K; simpl; auto. destruct (can_force own (oth e)) eqn:C; simpl; auto.
    destruct (steal_from own lk oth b r) as [[b' r'] o] eqn:S. apply steal_from_ok in S. destruct o as [c|].
    - destruct S as (x&t&y&q'&S1&S2&S3&S4&S5). rewrite S1 in F, P. pose proof (taken_ok _ _ _ _ _ _ F S3 S5) as F'.
      rewrite <- S2 in F'. destruct (H e (or_introl eq_refl)) as [H1 H2].
      pose proof (forall2_tids _ stealing_tid _ _ F') as T'.
      apply IH; auto.
      + rewrite <- move_to_app. apply given_ok; auto. split; auto. now apply force_iff.
      + rewrite <- move_to_app. rewrite move_to_perm by (rewrite T'; auto). rewrite <- P, S2, !all_ctx_app. simpl.
        destruct (take_first_ok _ _ _ S5) as (Q&_). rewrite Q. simpl. apply Permutation_middle.
    - rewrite <- S in F, P. auto.
  Qed.

  Lemma steal_own_ok : forall l, NoDup (map tid l) ->
    Forall2 (stealing_ok touchable) l (steal_own own lk oth l) /\ Permutation (all_ctx (steal_own own lk oth l)) (all_ctx l).
  Proof.
    intros l D. unfold steal_own. apply (steal_loop_ok l _ [] l); auto.
    - apply forall2_refl, steal_ok_refl.
    - intros e He. apply in_map_iff in He as (t&<-&I). apply filter_In in I as [I J]. split; [now apply in_map|].
      intros u U E. rewrite (nodup_tid l u t D U I E). apply andb_true_iff in J as [J1 J2]. split; [now apply is_idle_iff|now apply negb_true_iff].
  Qed.

  (** *** Redistribution *)
  Lemma sharing_tid : forall t u, sharing_ok touchable t u -> tid u = tid t.
  Proof. intros t u H. apply H. Qed.
  Lemma blocked_hung : forall t, is_blocked t = true -> hung t.
  Proof. intros t H. unfold is_blocked in H. unfold hung. destruct (tst t), (tswd t); try discriminate; auto. Qed.

  Lemma split_perm : forall q : list (nat * bool),
    Permutation (filter (fun c => negb (snd c)) q ++ map (fun c => (c, true)) (map fst (filter snd q))) q.
  Proof.
    induction q as [|[c []] q IH]; simpl; auto. symmetry. apply Permutation_cons_app. now symmetry.
  Qed.

  Lemma filter_idem : forall q : list (nat * bool),
    filter (fun c => negb (snd c)) (filter (fun c => negb (snd c)) q) = filter (fun c => negb (snd c)) q.
  Proof. induction q as [|[c []] q IH]; simpl; auto. now rewrite IH. Qed.

  Lemma redist_loop_ok : forall l l' mv, redist_loop own lk oth l = (l', mv) ->
    Forall2 (sharing_ok touchable) l l' /\ Permutation (all_ctx l' ++ map (fun c => (c, true)) mv) (all_ctx l).
  Proof.
    induction l as [|t l IH]; intros l' mv E; simpl in E; [injection E as <- <-; split; constructor|].
    destruct (redist_loop own lk oth l) as [r' mv0] eqn:R. destruct (IH r' mv0 eq_refl) as [F P]. clear IH R.
    assert (N : forall u, same_thr t u -> tctx u = tctx t -> tst u = tst t ->
      Forall2 (sharing_ok touchable) (t :: l) (u :: r') /\
      Permutation (all_ctx (u :: r') ++ map (fun c => (c, true)) mv0) (all_ctx (t :: l))).
    { intros u S C T. split.
      - constructor; auto. split; auto. split; [unfold pinned; now rewrite C|]. rewrite C.
        split; [left; intros x; auto|]. split; [left; intros x; auto|auto].
      - unfold all_ctx in *. simpl. rewrite C, <- app_assoc. now apply Permutation_app_head. }
    destruct (lk (tid t)) eqn:K; simpl in E; [|injection E as <- <-; apply N; auto using same_refl].
    destruct (can_force own (oth (tid t))) eqn:C; simpl in E; [|injection E as <- <-; apply N; auto using same_refl].
    assert (TC : touchable (tid t)) by (split; auto; now apply force_iff).
    destruct (is_blocked t) eqn:B; injection E as <- <-; [|apply N; auto; repeat split].
    pose proof (blocked_hung t B) as Hh.
    assert (EB : tst (set_st t MBlocked) = MBlocked).
    { unfold set_st. destruct Hh as [[-> | ->] _]; reflexivity. }
    assert (ES : same_thr t (set_st t MBlocked)) by (unfold set_st; destruct (tst t); repeat split).
    destruct ES as (E1&E2&E3&E4&E5). split.
    - constructor; auto. split; [repeat split; simpl; congruence|].
      unfold pinned. simpl. rewrite setst_ctx, filter_idem. split; auto. split; [right; auto|]. split; [|right; left; auto].
      left. intros x X. now apply filter_In in X.
    - unfold all_ctx in *. simpl. rewrite setst_ctx, map_app, <- app_assoc.
      rewrite (Permutation_app_comm (flat_map tctx r') _), <- app_assoc, (Permutation_app_comm _ (flat_map tctx r')), P.
      rewrite app_assoc. apply Permutation_app_tail. apply split_perm.
  Qed.

  (** One coroutine is given to a thread that get_best__ returned. *)
  Lemma shared_ok : forall l l' i c, Forall2 (sharing_ok touchable) l l' ->
    (forall u, In u l' -> tid u = i -> tst u = MIdle \/ eligible u) -> Forall2 (sharing_ok touchable) l (move_to l' i c).
  Proof.
    intros l l' i c F H. rewrite move_to_eq. apply forall2_map; auto. intros t u T U X.
    destruct (Nat.eqb_spec (tid u) i) as [E|E]; auto. destruct X as ((S1&S2&S3&S4&S5)&A&B&C&D).
    destruct (given_same u c) as (G1&G2&G3&G4&G5). pose proof (H u U E) as Hu.
    assert (NB : tst u <> MBlocked) by (destruct Hu as [Hu|((Hu&_)&_)]; congruence).
    assert (Ht : tst t = MIdle \/ eligible t).
    { destruct D as [D|[(D&_)|(_&D)]]; auto; [|congruence]. rewrite D in *. destruct Hu as [Hu|((U1&U2&U3)&U4)]; auto.
      right. split; [split; [congruence|split; congruence]|congruence]. }
    split; [repeat split; congruence|]. split; [now rewrite given_pinned|]. rewrite given_ctx.
    split; [destruct B as [B|(_&_&_&B)]; [left; intros x X; apply in_or_app; left; auto|congruence]|]. split; [auto|].
    right; right. split; auto. apply given_st. destruct Hu as [Hu|((_&Hu&_)&_)]; congruence.
  Qed.
  Lemma made_given : forall n u c, made_ok n u -> made_ok n (given u c).
  Proof.
    intros n u c (A&B&C&D&E&F&G&I). destruct (given_same u c) as (G1&G2&G3&G4&G5).
    repeat split; try congruence; [now apply given_st; congruence|rewrite given_ctx; now destruct (tctx u)|now rewrite given_pinned].
  Qed.

  Lemma place_all_ok : forall base n0 mv l nid a b, NoDup (map tid (a ++ b)) -> (forall i, In i (map tid (a ++ b)) -> i < nid) ->
    n0 <= nid -> Forall2 (sharing_ok touchable) l a -> Forall (made_ok n0) b ->
    exists a' b', place_all base nid mv (a ++ b) = a' ++ b' /\ Forall2 (sharing_ok touchable) l a' /\ Forall (made_ok n0) b' /\
      NoDup (map tid (a' ++ b')) /\
      Permutation (all_ctx (a' ++ b')) (all_ctx (a ++ b) ++ map (fun c => (c, true)) mv).
  Proof.
    intros base n0 mv. induction mv as [|c mv IH]; intros l nid a b D L N0 F M; simpl.
    - exists a, b. rewrite app_nil_r. auto.
    - assert (MG : forall i, Forall (made_ok n0) (move_to b i c)).
      { intros i. rewrite move_to_eq. apply Forall_map. eapply Forall_impl; [|exact M]. intros u Hu. simpl.
        destruct (tid u =? i); auto. now apply made_given. }
      destruct (get_best (a ++ b) base) as [t|] eqn:G.
      + assert (Ht : In t (a ++ b) /\ (tst t = MIdle \/ eligible t)).
        { destruct (get_best_cases (a ++ b) base) as [(t'&G'&I&T)|(_&[(G'&_)|(t'&G'&I&T&_)])]; rewrite G in G'; try discriminate;
          injection G' as <-; split; auto. right. now apply elig_iff. }
        destruct Ht as [I T]. rewrite move_to_app.
        destruct (IH l nid (move_to a (tid t) c) (move_to b (tid t) c)) as (a'&b'&E&F'&M'&D'&P').
        * rewrite <- move_to_app, move_to_tids. auto.
        * rewrite <- move_to_app, move_to_tids. auto.
        * auto.
        * apply shared_ok; auto. intros u U X. assert (u = t) as ->; auto.
          apply (nodup_tid (a ++ b)); auto. apply in_or_app. now left.
        * auto.
        * exists a', b'. repeat split; auto. rewrite P', <- move_to_app, move_to_perm; auto using in_map. simpl. apply Permutation_middle.
      + assert (NI : ~ In nid (map tid (a ++ b))) by (intros X; apply L in X; lia).
        assert (NA : ~ In nid (map tid a)) by (intros X; apply NI; rewrite map_app; apply in_or_app; now left).
        assert (NB : ~ In nid (map tid b)) by (intros X; apply NI; rewrite map_app; apply in_or_app; now right).
        rewrite <- app_assoc, move_to_app, move_to_app.
        rewrite (move_to_out a) by auto. rewrite (move_to_out b) by auto.
        destruct (IH l (S nid) a (b ++ move_to [new_env nid] nid c)) as (a'&b'&E&F'&M'&D'&P').
        * rewrite app_assoc, map_app, move_to_tids. simpl. apply NoDup_Add with (a := nid) (l := map tid (a ++ b)).
          { rewrite <- (app_nil_r (map tid (a ++ b))) at 1. apply Add_app. }
          split; auto.
        * intros i. rewrite app_assoc, map_app, move_to_tids, in_app_iff. simpl. intros [X|[<-|[]]]; auto. apply L in X. lia.
        * lia.
        * auto.
        * apply Forall_app. split; auto. simpl. rewrite Nat.eqb_refl. constructor; [|constructor]. repeat split; auto; discriminate.
        * exists a', b'. repeat split; auto. rewrite P'. rewrite !all_ctx_app. simpl. rewrite Nat.eqb_refl. simpl.
          rewrite <- !app_assoc. simpl. apply Permutation_refl.
  Qed.

  Lemma redistribute_own_ok : forall base nid l, NoDup (map tid l) -> (forall t, In t l -> tid t < nid) ->
    exists a b, redistribute_own own lk oth base nid l = a ++ b /\ Forall2 (sharing_ok touchable) l a /\ Forall (made_ok nid) b /\
      NoDup (map tid (a ++ b)) /\ Permutation (all_ctx (a ++ b)) (all_ctx l).
  Proof.
    intros base nid l D L. unfold redistribute_own. destruct (redist_loop own lk oth l) as [l' mv] eqn:R.
    apply redist_loop_ok in R as [F P]. pose proof (forall2_tids _ sharing_tid _ _ F) as T.
    destruct (place_all_ok base nid mv l nid l' []) as (a&b&E&F'&M&D'&P'); rewrite ?app_nil_r in *; auto.
    - now rewrite T.
    - intros i I. rewrite T in I. apply in_map_iff in I as (t&<-&I). auto.
    - exists a, b. repeat split; auto. now rewrite P', <- P.
  Qed.
End Move.
