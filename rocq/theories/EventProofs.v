(** Proofs about the event model. *)
From Coq Require Import List Arith Bool ZArith Lia Sorted.
From Verif Require Import Base EventSpec EventModel.
Import ListNotations.
Open Scope Z_scope.

Definition lim : Z := 2147483648.
Definition hlt (x y : Z * nat) : Prop := fst x < fst y.
(** unsub is called with handles that sub has returned. *)
Definition lbl_ok (a : elbl) : Prop := match a with Unsub h => 0 <= h < lim | _ => True end.

Lemma sorted_snoc : forall l x, StronglySorted hlt l -> (forall y, In y l -> hlt y x) -> StronglySorted hlt (l ++ [x]).
Proof.
  induction l as [|a l IH]; intros x H F; simpl; [repeat constructor|]. inversion H; subst. constructor.
  - apply IH; auto. intros. apply F. now right.
  - apply Forall_app. split; auto. constructor; auto. apply F. now left.
Qed.
Lemma sorted_filter : forall f l, StronglySorted hlt l -> StronglySorted hlt (filter f l).
Proof.
  induction l as [|a l IH]; intros H; simpl; auto. inversion H; subst. destruct (f a); auto. constructor; auto.
  apply Forall_forall. intros x Hx. apply filter_In in Hx as [Hx _]. rewrite Forall_forall in H3. auto.
Qed.
Lemma sorted_uniq : forall l x y, StronglySorted hlt l -> In x l -> In y l -> fst x = fst y -> x = y.
Proof.
  induction l as [|a l IH]; intros x y H Hx Hy E; [contradiction|]. inversion H; subst. rewrite Forall_forall in H3.
  unfold hlt in H3. destruct Hx as [->|Hx], Hy as [->|Hy]; auto.
  - specialize (H3 y Hy). lia.
  - specialize (H3 x Hx). lia.
Qed.
Lemma sorted_ext : forall l m, StronglySorted hlt l -> StronglySorted hlt m -> (forall x, In x l <-> In x m) -> l = m.
Proof.
  induction l as [|a l IH]; intros [|b m] Hl Hm E; auto.
  - destruct (proj2 (E b)). now left.
  - destruct (proj1 (E a)). now left.
  - inversion Hl; subst. inversion Hm; subst. rewrite Forall_forall in H2, H4. unfold hlt in *.
    assert (a = b).
    { destruct (proj1 (E a) (or_introl eq_refl)) as [->|X]; auto. destruct (proj2 (E b) (or_introl eq_refl)) as [->|Y]; auto.
      specialize (H2 b Y). specialize (H4 a X). lia. }
    subst b. f_equal. apply IH; auto. intros x. split; intros X.
    + destruct (proj1 (E x) (or_intror X)) as [<-|]; auto. specialize (H2 a X). lia.
    + destruct (proj2 (E x) (or_intror X)) as [<-|]; auto. specialize (H4 a X). lia.
Qed.

Lemma to_int_small : forall h, 0 <= h < lim -> to_int h = h.
Proof.
  intros h H. unfold to_int, lim in *. rewrite Z.mod_small by lia. destruct (Z.ltb_spec h 2147483648); lia.
Qed.
Lemma m_set_last : forall m k c, (forall x, In x m -> fst x < k) -> m_set k c m = m ++ [(k, c)].
Proof.
  induction m as [|[a b] m IH]; intros k c H; simpl; auto. pose proof (H _ (or_introl eq_refl)) as A. simpl in A.
  destruct (Z.ltb_spec k a); [lia|]. destruct (Z.eqb_spec k a); [lia|]. f_equal. apply IH. intros. apply H. now right.
Qed.
Lemma m_next_spec : forall m k x, StronglySorted hlt m -> m_next k m = Some x ->
  In x m /\ (match k with Some k' => k' < fst x | None => True end) /\
  (forall y, In y m -> (match k with Some k' => k' < fst y | None => True end) -> fst x <= fst y).
Proof.
  induction m as [|a m IH]; intros k x H E; simpl in E; [discriminate|]. inversion H; subst. rewrite Forall_forall in H3.
  assert (HH : forall y, In y (a :: m) -> fst a <= fst y).
  { intros y [->|Hy]; [lia|]. specialize (H3 y Hy). unfold hlt in H3. lia. }
  destruct k as [k|].
  - destruct (Z.ltb_spec k (fst a)).
    + injection E as <-. split; [now left|]. split; auto.
    + destruct (IH _ _ H2 E) as (A&B&C). split; [now right|]. split; auto. intros y [<-|Hy] Hk; [lia|auto].
  - injection E as <-. split; [now left|]. split; auto.
Qed.
Lemma m_next_none : forall m k y, m_next k m = None -> In y m -> match k with Some k' => fst y <= k' | None => False end.
Proof.
  induction m as [|a m IH]; intros k y E Hy; [contradiction|]. simpl in E. destruct k as [k|]; [|discriminate].
  destruct (Z.ltb_spec k (fst a)); [discriminate|]. destruct Hy as [<-|Hy]; [lia|]. exact (IH _ _ E Hy).
Qed.

Definition at_it (p : nat) (k : option Z) (H : ehist) : Prop :=
  match k with
  | None => calls p H = []
  | Some k' => (forall x, In x (calls p H) -> fst x <= k') /\
               (forall x, thru p x H -> fst x <= k' -> In x (calls p H)) /\
               (exists c mid pre, H = mid ++ ECall p k' c :: pre /\ (In (k', c) (live H) \/ In (EUnsub k') mid))
  end.

Record EInv (s : est) : Prop := {
  e_cur : cur s = nsubs (ehi s) /\ 0 <= cur s;
  e_map : cbs s = live (ehi s);
  e_srt : StronglySorted hlt (live (ehi s));
  e_lt : forall x, In x (live (ehi s)) -> 0 <= fst x < cur s;
  e_its : forall p k, In (p, k) (its s) -> (p < pid s)%nat /\ at_it p k (ehi s);
  e_nd : NoDup (map fst (its s));
  e_new : forall p, (pid s <= p)%nat -> calls p (ehi s) = [] /\ forall x, ~ thru p x (ehi s);
  e_cs : forall p, StronglySorted hlt (calls p (ehi s));
  e_live : forall post p h c pre, ehi s = post ++ ECall p h c :: pre -> In (h, c) (live pre);
  e_end : forall post p pre x, ehi s = post ++ EPubE p :: pre -> thru p x pre -> In x (calls p pre);
  e_hnd : forall post h c pre, ehi s = post ++ ESub h c :: pre -> h = nsubs pre;
  e_und : forall p pre x, undisturbed p (ehi s) pre -> In x (calls p (ehi s)) -> In x (live pre)
}.

Lemma thru_live : forall p x H, thru p x H -> In x (live H).
Proof.
  induction H as [|e H IH]; simpl; [tauto|]. destruct e; intros T; auto.
  - apply in_or_app. left. auto.
  - destruct T as [T1 T2]. apply filter_In. split; auto. destruct (Z.eqb_spec (fst x) h); simpl; congruence.
  - destruct (p0 =? p)%nat; auto.
Qed.

Lemma cons_split : forall A (e : A) H post f pre, e :: H = post ++ f :: pre ->
  (post = [] /\ e = f /\ H = pre) \/ (exists post', post = e :: post' /\ H = post' ++ f :: pre).
Proof. intros A e H [|a post] f pre E; injection E as -> ->; eauto. Qed.

Lemma nsubs_mono : forall s a s', estep_ok s a = Some s' -> nsubs (ehi s) <= nsubs (ehi s').
Proof.
  intros s a s' E. unfold estep_ok, estep in E. destruct a; try (injection E as <-; simpl; lia).
  destruct (its s) as [|[p k] r]; [discriminate|]. destruct (match k with Some k' => _ | None => true end); [|discriminate].
  destruct (m_next k (cbs s)) as [[k' c]|]; injection E as <-; simpl; lia.
Qed.

Lemma und_live : forall p H pre, undisturbed p H pre -> live H = live pre /\ forall x, In x (live pre) -> thru p x H.
Proof.
  induction H as [|e H IH]; intros pre U; simpl in *; [contradiction|]. destruct e; try contradiction; auto.
  destruct (p0 =? p)%nat; auto. subst. auto.
Qed.

Lemma einv_init : EInv einit.
Proof.
  split; simpl; try (intros; contradiction); try (intros; now destruct post); try constructor; auto; lia.
Qed.

Lemma einv_step : forall s a s', EInv s -> lbl_ok a -> estep_ok s a = Some s' -> nsubs (ehi s') <= lim -> EInv s'.
Proof.
  intros s a s' [V1 V2 V3 V4 V5 V6 V7 V8 V9 V10 V11 V12] La E HL. unfold estep_ok, estep in E. destruct a as [c|h| |].
  - injection E as <-. simpl in HL. destruct V1 as [V1 V1'].
    assert (SI : to_int (cur s) = cur s) by (apply to_int_small; unfold lim in *; lia).
    assert (SS : succ64 (cur s) = cur s + 1) by (unfold succ64; apply Z.mod_small; unfold lim in *; lia).
    split; cbn [cbs cur its pid ehi live nsubs calls thru undisturbed]; try rewrite SS; try rewrite SI; auto.
    + split; lia.
    + rewrite V2. apply m_set_last. intros x Hx. apply V4 in Hx. lia.
    + apply sorted_snoc; auto. intros y Hy. apply V4 in Hy. unfold hlt. simpl. lia.
    + intros x Hx. apply in_app_or in Hx as [Hx|[<-|[]]]; [apply V4 in Hx; lia|simpl; lia].
    + intros p k Hp. destruct (V5 p k Hp) as [A B]. split; auto. destruct k as [k|]; auto. destruct B as (B1&B2&c'&mid&pre&B3&B4).
      split; [auto|]. split; [auto|]. exists c', (ESub (cur s) c :: mid), pre. split; [simpl; now rewrite B3|].
      destruct B4 as [B4|B4]; [left; simpl; apply in_or_app; auto|right; now right].
    + intros post p h c0 pre X. apply cons_split in X as [(_&X&_)|(post'&_&X)]; [discriminate|eauto].
    + intros post p pre x X. apply cons_split in X as [(_&X&_)|(post'&_&X)]; [discriminate|eauto].
    + intros post h c0 pre X. apply cons_split in X as [(_&X&<-)|(post'&_&X)]; [injection X as <- <-; auto|eauto].
    + intros p pre x [].
  - injection E as <-. simpl in La. rewrite to_int_small by auto. split; cbn [cbs cur its pid ehi live nsubs calls thru undisturbed]; auto.
    + unfold m_erase. now rewrite V2.
    + now apply sorted_filter.
    + intros x Hx. apply filter_In in Hx as [Hx _]. auto.
    + intros p k Hp. destruct (V5 p k Hp) as [A B]. split; auto. destruct k as [k|]; auto. destruct B as (B1&B2&c'&mid&pre&B3&B4).
      split; [auto|]. split; [intros x [_ T]; apply B2; auto|]. exists c', (EUnsub h :: mid), pre. split; [simpl; now rewrite B3|].
      destruct B4 as [B4|B4]; [|right; now right]. destruct (Z.eq_dec h k) as [->|N]; [right; now left|].
      left. simpl. apply filter_In. split; auto. simpl. destruct (Z.eqb_spec k h); simpl; congruence.
    + intros p Hp. destruct (V7 p Hp) as [A B]. split; auto. intros x [_ T]. apply (B x T).
    + intros post p h0 c0 pre X. apply cons_split in X as [(_&X&_)|(post'&_&X)]; [discriminate|eauto].
    + intros post p pre x X. apply cons_split in X as [(_&X&_)|(post'&_&X)]; [discriminate|eauto].
    + intros post h0 c0 pre X. apply cons_split in X as [(_&X&_)|(post'&_&X)]; [discriminate|eauto].
    + intros p pre x [].
  - injection E as <-. split; cbn [cbs cur its pid ehi live nsubs calls thru undisturbed]; auto.
    + intros p k [X|Hp].
      { injection X as <- <-. split; [lia|]. simpl. apply V7. lia. }
      destruct (V5 p k Hp) as [A B]. split; [lia|]. destruct k as [k|]; auto. destruct B as (B1&B2&c'&mid&pre&B3&B4).
      split; [auto|]. split.
      { intros x T. apply B2. simpl in T. destruct (Nat.eqb_spec (pid s) p); [lia|auto]. }
      exists c', (EPubB (pid s) :: mid), pre. split; [simpl; now rewrite B3|]. destruct B4; [auto|right; now right].
    + constructor; auto. intros X. apply in_map_iff in X as ([p k]&X&Y). simpl in X. subst p. destruct (V5 _ _ Y). lia.
    + intros p Hp. destruct (V7 p) as [A B]; [lia|]. split; auto. intros x. destruct (Nat.eqb_spec (pid s) p); [lia|auto].
    + intros post p h0 c0 pre X. apply cons_split in X as [(_&X&_)|(post'&_&X)]; [discriminate|eauto].
    + intros post p pre x X. apply cons_split in X as [(_&X&_)|(post'&_&X)]; [discriminate|eauto].
    + intros post h0 c0 pre X. apply cons_split in X as [(_&X&_)|(post'&_&X)]; [discriminate|eauto].
    + intros p pre x U C. destruct (Nat.eqb_spec (pid s) p) as [<-|]; [|eauto]. destruct (V7 (pid s)) as [A _]; [lia|]. now rewrite A in C.
  - destruct (its s) as [|[p k] r] eqn:EI; [discriminate|].
    destruct (match k with Some k' => m_has k' (cbs s) | None => true end) eqn:EH; [|discriminate].
    destruct (V5 p k (or_introl eq_refl)) as [Hp Ak]. rewrite V2 in *.
    destruct (m_next k (live (ehi s))) as [[k' c]|] eqn:EN; injection E as <-.
    + destruct (m_next_spec _ _ _ V3 EN) as (N1&N2&N3). cbn [fst] in N2, N3.
      assert (CL : forall x, In x (calls p (ehi s)) -> fst x < k').
      { destruct k as [k|]; [destruct Ak as (A1&_); intros x Hx; apply A1 in Hx; lia|simpl in Ak; rewrite Ak; intros x []]. }
      split; cbn [cbs cur its pid ehi live nsubs calls thru undisturbed]; auto.
      * intros q k0 [X|Hq].
        { injection X as <- <-. split; auto. cbn [at_it calls thru live]. rewrite Nat.eqb_refl. split; [|split].
          - intros x Hx. apply in_app_or in Hx as [Hx|[<-|[]]]; [apply CL in Hx; lia|simpl; lia].
          - intros x T Hx. apply in_or_app. pose proof (thru_live _ _ _ T) as TL.
            destruct k as [k|].
            + destruct (Z_le_gt_dec (fst x) k) as [L|L]; [left; apply Ak; auto|]. right. left.
              apply (sorted_uniq _ _ _ V3); auto. simpl. specialize (N3 x TL). lia.
            + right. left. apply (sorted_uniq _ _ _ V3); auto. simpl. specialize (N3 x TL). simpl in N3. lia.
          - exists c, [], (ehi s). split; auto. }
        { inversion V6; subst. assert (q <> p). { intros ->. apply H1. apply in_map_iff. exists (p, k0). auto. }
          destruct (V5 q k0 (or_intror Hq)) as [A B]. split; auto.
          destruct k0 as [k0|]; cbn [at_it calls thru live]; destruct (Nat.eqb_spec p q); try congruence; auto.
          destruct B as (B1&B2&c'&mid&pre&B3&B4).
          split; [auto|]. split; [auto|]. exists c', (ECall p k' c :: mid), pre. split; [simpl; now rewrite B3|].
          destruct B4; [auto|right; now right]. }
      * intros q Hq. destruct (V7 q Hq) as [A B]. destruct (Nat.eqb_spec p q); [lia|auto].
      * intros q. destruct (Nat.eqb_spec p q) as [<-|]; auto. apply sorted_snoc; auto.
      * intros post p0 h0 c0 pre X. apply cons_split in X as [(_&X&<-)|(post'&_&X)]; [injection X as <- <- <-; auto|eauto].
      * intros post p0 pre x X. apply cons_split in X as [(_&X&_)|(post'&_&X)]; [discriminate|eauto].
      * intros post h0 c0 pre X. apply cons_split in X as [(_&X&_)|(post'&_&X)]; [discriminate|eauto].
      * intros q pre x U C. destruct (und_live _ _ _ U) as [W _]. destruct (Nat.eqb_spec p q) as [<-|]; [|eauto].
        apply in_app_or in C as [C|[<-|[]]]; [eauto|]. now rewrite <- W.
    + assert (ND := fun y => m_next_none _ _ y EN).
      split; cbn [cbs cur its pid ehi live nsubs calls thru undisturbed]; auto.
      * intros q k0 Hq. destruct (V5 q k0 (or_intror Hq)) as [A B]. split; auto. destruct k0 as [k0|]; auto.
        destruct B as (B1&B2&c'&mid&pre&B3&B4). split; [auto|]. split; [auto|]. exists c', (EPubE p :: mid), pre.
        split; [simpl; now rewrite B3|]. destruct B4; [auto|right; now right].
      * now inversion V6.
      * intros post p0 h0 c0 pre X. apply cons_split in X as [(_&X&_)|(post'&_&X)]; [discriminate|eauto].
      * intros post p0 pre x X T. apply cons_split in X as [(_&X&<-)|(post'&_&X)]; [injection X as <-|eauto].
        specialize (ND x (thru_live _ _ _ T)). destruct k as [k|]; [|contradiction]. apply Ak; auto.
      * intros post h0 c0 pre X. apply cons_split in X as [(_&X&_)|(post'&_&X)]; [discriminate|eauto].
Qed.

Lemma einv_run : forall ls s, Forall lbl_ok ls -> run estep_ok einit ls = Some s -> nsubs (ehi s) <= lim -> EInv s.
Proof.
  induction ls as [|a ls IH] using rev_ind; intros s F R L.
  - injection R as <-. apply einv_init.
  - rewrite run_app in R. destruct (run estep_ok einit ls) as [s0|] eqn:E; [|discriminate]. simpl in R.
    destruct (estep_ok s0 a) as [s1|] eqn:E1; [|discriminate]. injection R as <-.
    apply Forall_app in F as [F1 F2]. inversion F2; subst.
    eapply einv_step; eauto. apply IH; auto. pose proof (nsubs_mono _ _ _ E1). lia.
Qed.

Lemma ub_self : forall s a, EInv s -> estep s a = Some EvUB ->
  exists p h c mid pre, ehi s = mid ++ ECall p h c :: pre /\ In (EUnsub h) mid.
Proof.
  intros s a HI E. unfold estep in E. destruct a; try discriminate. destruct (its s) as [|[p k] r] eqn:EI; [discriminate|].
  destruct k as [k|]; [|destruct (m_next None (cbs s)) as [[? ?]|]; discriminate].
  destruct (m_has k (cbs s)) eqn:EH; [destruct (m_next (Some k) (cbs s)) as [[? ?]|]; discriminate|].
  destruct (e_its _ HI p (Some k)) as [_ (_&_&c&mid&pre&A&B)]; [rewrite EI; now left|].
  exists p, k, c, mid, pre. split; auto. destruct B as [B|B]; auto. exfalso. rewrite (e_map _ HI) in EH.
  assert (X : m_has k (live (ehi s)) = true) by (apply existsb_exists; exists (k, c); split; [auto|apply Z.eqb_refl]). congruence.
Qed.

Lemma calls_split : forall p H x, In x (calls p H) -> exists post pre, H = post ++ ECall p (fst x) (snd x) :: pre.
Proof.
  induction H as [|e H IH]; intros x Hx; simpl in Hx; [contradiction|].
  destruct e as [h c|h|q|q h c|q]; try (destruct (IH x Hx) as (post&pre&->); eexists (_ :: post), pre; reflexivity).
  destruct (Nat.eqb_spec q p) as [->|].
  - apply in_app_or in Hx as [Hx|[<-|[]]]; [|exists [], H; reflexivity].
    destruct (IH x Hx) as (post&pre&->). eexists (_ :: post), pre. reflexivity.
  - destruct (IH x Hx) as (post&pre&->). eexists (_ :: post), pre. reflexivity.
Qed.

Lemma nsubs_nonneg : forall H, 0 <= nsubs H.
Proof. induction H as [|e H IH]; simpl; [lia|]. destruct e; lia. Qed.
Lemma nsubs_app : forall post pre, nsubs pre <= nsubs (post ++ pre).
Proof. induction post as [|e post IH]; intros pre; simpl; [lia|]. specialize (IH pre). destruct e; lia. Qed.

(** Sub/unsub pairs leave the map as it is. *)
Definition pairs (k : nat) (i : Z) : list elbl := flat_map (fun j => [Sub 7; Unsub (i + Z.of_nat j)]) (seq 0 k).
Lemma pairs_S : forall k i, pairs (S k) i = pairs k i ++ [Sub 7; Unsub (i + Z.of_nat k)].
Proof. intros. unfold pairs. rewrite seq_S, flat_map_app. simpl. reflexivity. Qed.

Lemma erase_set : forall m k c, (forall x, In x m -> fst x <> k) -> m_erase k (m_set k c m) = m.
Proof.
  induction m as [|[a b] m IH]; intros k c H; simpl; [now rewrite Z.eqb_refl|].
  assert (A : a <> k) by (apply (H (a, b)); now left).
  assert (ID : m_erase k m = m).
  { clear IH. assert (G : forall x, In x m -> fst x <> k) by (intros; apply H; now right). clear H.
    induction m as [|[x y] m IHm]; simpl; auto. assert (x <> k) by (apply (G (x, y)); now left).
    destruct (Z.eqb_spec x k); [congruence|]. simpl. f_equal. apply IHm. intros. apply G. now right. }
  destruct (Z.ltb_spec k a); [|destruct (Z.eqb_spec k a); [congruence|]].
  - simpl. rewrite Z.eqb_refl. simpl. destruct (Z.eqb_spec a k); [congruence|]. simpl. f_equal. exact ID.
  - simpl. destruct (Z.eqb_spec a k); [congruence|]. simpl. f_equal. apply IH. intros. apply H. now right.
Qed.

Lemma pairs_run : forall k s i, cur s = i -> 0 <= i -> i + Z.of_nat k < 18446744073709551616 ->
  (forall j x, i <= j < i + Z.of_nat k -> In x (cbs s) -> fst x <> to_int j) ->
  (forall x, In x (live (ehi s)) -> fst x < i) ->
  exists s', run estep_ok s (pairs k i) = Some s' /\ cbs s' = cbs s /\ cur s' = i + Z.of_nat k /\ its s' = its s /\
    pid s' = pid s /\ live (ehi s') = live (ehi s) /\ calls (pid s) (ehi s') = calls (pid s) (ehi s).
Proof.
  induction k as [|k IH]; intros s i Hc H0 Hb HX HL.
  - exists s. simpl. split; [auto|]. split; [auto|]. split; [lia|auto].
  - destruct (IH s i Hc H0) as (s1&R&A&B&C&D&E&F); [lia|intros; apply HX; auto; lia|auto|].
    rewrite pairs_S, run_app, R. cbn [run estep_ok estep cbs cur its]. eexists. split; [reflexivity|].
    cbn [cbs cur its pid ehi live calls]. split; [|split; [|split; [auto|split; [auto|split; [|auto]]]]].
    + rewrite B, A. apply erase_set. intros x Hx. apply HX; auto. lia.
    + unfold succ64. rewrite B, Z.mod_small by lia. lia.
    + rewrite E, B. rewrite filter_app. simpl. rewrite Z.eqb_refl. simpl. rewrite app_nil_r.
      assert (G : forall l : list (Z * nat), (forall x, In x l -> fst x < i) ->
        filter (fun x => negb (fst x =? i + Z.of_nat k)) l = l).
      { induction l as [|x l IHl]; intros HH; simpl; auto. specialize (HH x (or_introl eq_refl)) as X.
        destruct (Z.eqb_spec (fst x) (i + Z.of_nat k)); [lia|]. simpl. f_equal. apply IHl. intros. apply HH. now right. }
      now apply G.
Qed.
