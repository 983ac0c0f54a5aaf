(** Pipelines: nothing gets stuck, and a finite source gives finitely many steps. *)
From Coq Require Import List Arith Bool Lia Permutation.
From Verif Require Import Base PipeSpec PipeModel PipeProofs.
Import ListNotations.

Section L.
  Variable V : Type.
  Variables (gen : nat -> option V) (sz : size) (sts : list (stage V)).
  Hypothesis Hok : Forall stage_ok sts.
  Notation Inv := (Inv V gen sz sts).
  Notation pstep := (pstep V gen sz sts).
  Notation pinit := (pinit V sts).
  Notation n := (length sts).

  (** A channel of fixed size 0 does not exist: co_chan treats size 0 as unbuffered (co_chan.h 98-113). *)
  Definition sz_ok : Prop := match sz with Fixed m => 1 <= m | _ => True end.

  Definition can (s : pst V) (a : lbl) : Prop := pstep s a <> None.
  (** No coroutine of the pipeline can move (the reader may). *)
  Definition quiet (s : pst V) : Prop := pstep s Src = None /\ forall k j, pstep s (Run k j) = None.

  Lemma cts_act : forall s k st j, nth_error sts k = Some st -> pstep s (Run k j) = None ->
    match cts V (stg V s (S k)) j with
    | CPop => buf V (chs V s k) = [] /\ clo V (chs V s k) = false
    | CPush _ | CCloseOut | CCloseIn => False
    | CJoin => joined V st (stg V s (S k)) = false
    | _ => True
    end.
  Proof.
    intros s k st j E H. simpl in H. unfold step_stage in H. rewrite E in H.
    destruct (cts V (stg V s (S k)) j); auto; try discriminate.
    - destruct (buf V (chs V s k)); try discriminate. destruct (clo V (chs V s k)); try discriminate. auto.
    - destruct (clo V (chs V s (S k))); discriminate.
    - destruct (joined V st (stg V s (S k))); try discriminate. auto.
  Qed.

  (** If nobody upstream can move, a channel cannot be open and empty. *)
  Lemma not_open : forall s, Inv s -> sz_ok -> quiet s -> forall k, k <= n ->
    buf V (chs V s k) = [] -> clo V (chs V s k) = false -> False.
  Proof.
    intros s HI Hz [Q1 Q2] k. induction k as [|k IH]; intros Hk B C.
    - pose proof (v_src _ _ _ _ s HI) as (_&_&_&_&A). simpl in Q1. unfold step_src in Q1. rewrite B, C in Q1.
      destruct (cts V (stg V s 0) 0); try contradiction; try discriminate.
      + destruct (gen (cnt V (stg V s 0))); discriminate.
      + unfold room in Q1. rewrite B in Q1. unfold sz_ok in Hz. destruct sz as [| |m]; try discriminate.
        destruct (Nat.ltb_spec (@length V []) m); [discriminate|simpl in *; lia].
      + destruct A; congruence.
    - destruct (nth_error sts k) as [st|] eqn:E; [|apply nth_error_None in E; lia].
      pose proof (v_st _ _ _ _ s HI k st E) as HS.
      assert (KI : SIn V st (stg V s (S k)) (chs V s k) (chs V s (S k)) -> False).
      { intros [_ H]. pose proof (cts_act s k st 0 E (Q2 k 0)) as A.
        destruct (cts V (stg V s (S k)) 0); try contradiction.
        - destruct A. apply IH; auto. lia.
        - destruct H. congruence. }
      destruct st as [f|p|m|m|m f|f i|w f]; try exact (KI HS). cbn [SI] in HS.
      destruct HS as (A1&A2&A3&A4&A5&A6&A7). pose proof (cts_act s k _ 0 E (Q2 k 0)) as A.
      destruct (cts V (stg V s (S k)) 0); try contradiction.
      + unfold joined in A. assert (X : exists j, 1 <= j <= w /\ cts V (stg V s (S k)) j <> CHalt).
        { clear -A. assert (G : forall l, forallb (fun j => match cts V (stg V s (S k)) j with CHalt => true | _ => false end) l = false ->
            exists j, In j l /\ cts V (stg V s (S k)) j <> CHalt).
          { induction l as [|a l IH]; simpl; [discriminate|]. destruct (cts V (stg V s (S k)) a) eqn:E; intros H;
            try (exists a; split; [auto|congruence]). destruct (IH H) as (j&?&?). eauto. }
          destruct (G _ A) as (j&Hj&Hc). apply in_seq in Hj. exists j. split; [lia|auto]. }
        destruct X as (j&Hj&Hc). pose proof (A3 j Hj) as B3. pose proof (cts_act s k _ j E (Q2 k j)) as B4.
        destruct (cts V (stg V s (S k)) j); try contradiction; try congruence. destruct B4. apply IH; auto. lia.
      + destruct A7. congruence.
  Qed.

  (** When nothing moves, every stage has ended. *)
  Lemma quiet_halt : forall s, Inv s -> sz_ok -> quiet s -> forall k j, k < n -> cts V (stg V s (S k)) j = CHalt.
  Proof.
    intros s HI Hz HQ k j Hk. pose proof HQ as [Q1 Q2].
    destruct (nth_error sts k) as [st|] eqn:E; [|apply nth_error_None in E; lia].
    pose proof (v_st _ _ _ _ s HI k st E) as HS.
    assert (NO := fun i Hi => not_open s HI Hz HQ i Hi).
    assert (KI : SIn V st (stg V s (S k)) (chs V s k) (chs V s (S k)) -> cts V (stg V s (S k)) j = CHalt).
    { intros [H0 H]. destruct (Nat.eq_dec j 0) as [->|Hj]; [|auto]. pose proof (cts_act s k st 0 E (Q2 k 0)) as A.
      destruct (cts V (stg V s (S k)) 0); try contradiction; auto. destruct A. exfalso. apply (NO k); auto. lia. }
    destruct st as [f|p|m|m|m f|f i|w f]; try exact (KI HS). cbn [SI] in HS. clear KI.
    destruct HS as (A1&A2&A3&A4&A5&A6&A7).
    assert (W : forall i, 1 <= i <= w -> cts V (stg V s (S k)) i = CHalt).
    { intros i Hi. pose proof (A3 i Hi) as B3. pose proof (cts_act s k _ i E (Q2 k i)) as B4.
      destruct (cts V (stg V s (S k)) i); try contradiction; auto. destruct B4. exfalso. apply (NO k); auto. lia. }
    destruct (Nat.eq_dec j 0) as [->|Hj].
    - pose proof (cts_act s k _ 0 E (Q2 k 0)) as A. destruct (cts V (stg V s (S k)) 0); try contradiction; auto.
      unfold joined in A. exfalso. assert (T : forallb (fun j => match cts V (stg V s (S k)) j with CHalt => true | _ => false end) (seq 1 w) = true).
      { apply forallb_forall. intros x Hx. apply in_seq in Hx. rewrite W by lia. reflexivity. }
      congruence.
    - destruct (le_lt_dec j w); [apply W; lia|apply A2; lia].
  Qed.

  (** ... and so has the source, unless it waits for room in a channel that nobody will close. *)
  Lemma quiet_src : forall s, Inv s -> sz_ok -> quiet s ->
    (sz = Unlimited \/ clo V (chs V s 0) = true) -> cts V (stg V s 0) 0 = CHalt.
  Proof.
    intros s HI Hz [Q1 Q2] Hc. pose proof (v_src _ _ _ _ s HI) as (_&_&_&_&A). simpl in Q1. unfold step_src in Q1.
    destruct (cts V (stg V s 0) 0); try contradiction; try discriminate; auto.
    - destruct (gen (cnt V (stg V s 0))); discriminate.
    - destruct (clo V (chs V s 0)); try discriminate. destruct Hc as [->|]; discriminate.
    - destruct (clo V (chs V s 0)); try discriminate. destruct Hc as [|]; [destruct A; congruence|discriminate].
  Qed.

  Lemma quiet_first : forall s st r, Inv s -> sz_ok -> quiet s -> sts = st :: r ->
    match st with STake _ | SGroup _ _ => clo V (chs V s 0) = true | _ => True end.
  Proof.
    intros s st r HI Hz HQ E. assert (E0 : nth_error sts 0 = Some st) by now rewrite E.
    assert (L : 0 < n) by (rewrite E; simpl; lia).
    pose proof (quiet_halt s HI Hz HQ 0 0 L) as H. pose proof (v_st _ _ _ _ s HI 0 st E0) as HS.
    destruct st; auto; cbn [SI] in HS; destruct HS as [_ HS]; rewrite H in HS; tauto.
  Qed.

  (** The end channel is then closed or holds items, so the reader can go on until it sees the end. *)
  Lemma progress : forall s, Inv s -> sz_ok -> rend V s = false -> quiet s -> pstep s RPop <> None.
  Proof.
    intros s HI Hz HR HQ. simpl. rewrite HR. unfold last_ch. destruct (buf V (chs V s n)) eqn:B; [|discriminate].
    destruct (clo V (chs V s n)) eqn:C; [discriminate|]. exfalso. apply (not_open s HI Hz HQ n); auto.
  Qed.

  (** ** The measure *)
  Fixpoint sumn (f : nat -> nat) (m : nat) : nat := match m with 0 => 0 | S m => sumn f m + f m end.
  Lemma sumn_upd : forall f g m i, i < m -> (forall j, j <> i -> g j = f j) -> sumn g m + f i = sumn f m + g i.
  Proof.
    induction m as [|m IH]; intros i Hi H; [lia|]. simpl. destruct (Nat.eq_dec i m) as [->|Hn].
    - assert (E : forall q, q <= m -> sumn g q = sumn f q).
      { induction q as [|q IQ]; intros Hq; simpl; auto. rewrite IQ, H by lia. auto. }
      rewrite E by lia. lia.
    - specialize (IH i). rewrite (H m) by lia. assert (i < m) by lia. specialize (IH H0 H). lia.
  Qed.

  (** Weight of an item in channel i. *)
  Definition wt (i : nat) : nat := 4 * (n - i) + 1.
  Definition width (st : stage V) : nat := match st with SFork k _ => S k | _ => 1 end.
  Definition cpot (st : stage V) (w : nat) (c : ctl V) : nat :=
    match c with
    | CPop => w + 10
    | CPush _ => match st with SReduce _ _ => w + 8 | _ => w + 10 + w + 2 end
    | CJoin => 5
    | CCloseOut => 3
    | CCloseIn => 2
    | _ => 0
    end.
  Definition extra (st : stage V) (l : loc V) : nat := match st with SSkip m => m - cnt V l | _ => 0 end.
  Definition spot (k : nat) (l : loc V) : nat :=
    match nth_error sts k with
    | Some st => sumn (fun j => cpot st (wt (S k)) (cts V l j)) (width st) + extra st l
    | None => 0
    end.
  Definition cw (i : nat) (c : chan V) : nat := wt i * length (buf V c).
  Definition srcpot (N : nat) (l : loc V) : nat :=
    (N - cnt V l) * (wt 0 + 5) +
    match cts V l 0 with CSrc => 6 | CPush _ => 5 | CWait => 7 | CCloseOut => 3 | _ => 0 end.
  Definition flag (b : bool) : nat := if b then 0 else 1.
  Definition mu (N : nat) (s : pst V) : nat :=
    srcpot N (stg V s 0) + sumn (fun i => cw i (chs V s i)) (S n) + sumn (fun k => spot k (stg V s (S k))) n
    + flag (rend V s) + flag (rcl V s).

  Lemma ch_upd : forall (f : nat -> chan V) i c, i <= n ->
    sumn (fun x => cw x (upd f i c x)) (S n) + cw i (f i) = sumn (fun x => cw x (f x)) (S n) + cw i c.
  Proof.
    intros f i c Hi. pose proof (sumn_upd (fun x => cw x (f x)) (fun x => cw x (upd f i c x)) (S n) i) as H.
    cbv beta in H. rewrite upd_same in H. apply H; [lia|]. intros j Hj. now rewrite upd_other.
  Qed.
  Lemma st_upd : forall (f : nat -> loc V) k l, k < n ->
    sumn (fun x => spot x (upd f (S k) l (S x))) n + spot k (f (S k)) = sumn (fun x => spot x (f (S x))) n + spot k l.
  Proof.
    intros f k l Hk. pose proof (sumn_upd (fun x => spot x (f (S x))) (fun x => spot x (upd f (S k) l (S x))) n k) as H.
    cbv beta in H. rewrite upd_same in H. apply H; [lia|]. intros j Hj. rewrite upd_other; auto.
  Qed.
  Lemma st_upd0 : forall (f : nat -> loc V) l,
    sumn (fun x => spot x (upd f 0 l (S x))) n = sumn (fun x => spot x (f (S x))) n.
  Proof. intros f l. induction n as [|m IH]; simpl; auto. Qed.

  Lemma ct_upd : forall st w (l : loc V) j c, j < width st ->
    sumn (fun x => cpot st w (upd (cts V l) j c x)) (width st) + cpot st w (cts V l j)
    = sumn (fun x => cpot st w (cts V l x)) (width st) + cpot st w c.
  Proof.
    intros st w l j c Hj.
    pose proof (sumn_upd (fun x => cpot st w (cts V l x)) (fun x => cpot st w (upd (cts V l) j c x)) (width st) j Hj) as H.
    cbv beta in H. rewrite upd_same in H. apply H. intros i Hi. now rewrite upd_other.
  Qed.
  Lemma wt_S : forall k, k < n -> wt k = wt (S k) + 4.
  Proof. intros. unfold wt. lia. Qed.

  Lemma active : forall s k st j, Inv s -> nth_error sts k = Some st -> cts V (stg V s (S k)) j <> CHalt -> j < width st.
  Proof.
    intros s k st j HI E H. pose proof (v_st _ _ _ _ s HI k st E) as HS.
    destruct st; cbn [SI width] in *; try (destruct HS as [HS _]; destruct (Nat.eq_dec j 0); [lia|now rewrite HS in H]).
    destruct HS as (_&HS&_). destruct (le_lt_dec j k0); [lia|]. now rewrite HS in H.
  Qed.

  Ltac pp := cbn [chs stg got rend rcl set_ch set_st buf clo cts cnt part res set_ct put drop1 close_p close_c].

  Lemma mu_src : forall N s s', Inv s -> gen N = None -> step_src V gen sz s = Some s' -> mu N s' < mu N s.
  Proof.
    intros N s s' HI HN Hs. unfold step_src in Hs. pose proof (v_src _ _ _ _ s HI) as (_&_&_&A4&A5).
    assert (L : cnt V (stg V s 0) <= N). { destruct (le_lt_dec (cnt V (stg V s 0)) N); auto. exfalso. apply (A4 N); auto. }
    unfold mu. destruct (cts V (stg V s 0) 0) eqn:E; try discriminate.
    - destruct (gen (cnt V (stg V s 0))) eqn:G; injection Hs as <-; pp; rewrite st_upd0, upd_same; unfold srcpot; pp;
      rewrite upd_same, E; lia.
    - destruct (clo V (chs V s 0)) eqn:C; [|destruct (room V sz (chs V s 0)); try discriminate]; injection Hs as <-; pp;
      rewrite st_upd0, upd_same; unfold srcpot; pp; rewrite upd_same, E; [lia|].
      pose proof (ch_upd (chs V s) 0 (put V (chs V s 0) v) ltac:(lia)) as H. unfold cw at 2 4 in H. cbn [buf put] in H.
      rewrite app_length in H. cbn [length] in H.
      destruct A5 as [_ A5]. assert (cnt V (stg V s 0) <> N) by congruence.
      assert (M : N - cnt V (stg V s 0) = S (N - (cnt V (stg V s 0) + 1))) by lia. rewrite M.
      destruct sz; simpl (S _ * _); lia.
    - destruct (clo V (chs V s 0)) eqn:C; [|destruct (buf V (chs V s 0)); try discriminate]; injection Hs as <-; pp;
      rewrite st_upd0, upd_same; unfold srcpot; pp; rewrite upd_same, E; lia.
    - injection Hs as <-; pp. rewrite st_upd0, upd_same; unfold srcpot; pp; rewrite upd_same, E.
      pose proof (ch_upd (chs V s) 0 (close_p V (chs V s 0)) ltac:(lia)) as H. unfold cw at 2 4 in H. cbn [buf close_p] in H. lia.
  Qed.

  Lemma mu_stage : forall N s k j s', Inv s -> step_stage V sts s k j = Some s' -> mu N s' < mu N s.
  Proof.
    intros N s k j s' HI Hs. unfold step_stage in Hs. destruct (nth_error sts k) as [st|] eqn:E; try discriminate.
    assert (Hk : k < n) by (apply nth_error_Some; congruence).
    pose proof (proj1 (Forall_forall _ _) Hok st (nth_error_In _ _ E)) as Ok.
    assert (AC := active s k st j HI E). pose proof (wt_S k Hk) as W.
    assert (CT := ct_upd st (wt (S k)) (stg V s (S k)) j).
    assert (SU := st_upd (stg V s) k). assert (CU := ch_upd (chs V s)).
    assert (HR : forall f i, st = SReduce f i -> cts V (stg V s (S k)) j = CPop -> res V (stg V s (S k)) <> None).
    { intros f i -> Hp. pose proof (v_st _ _ _ _ s HI k _ E) as [H0 H1]. cbn [width] in AC.
      assert (j = 0) by (assert (j < 1) by (apply AC; congruence); lia). subst j. rewrite Hp in H1.
      destruct H1 as (_&_&_&H1). cbn in H1. congruence. }
    unfold mu.
    destruct (cts V (stg V s (S k)) j) eqn:Ej; try discriminate.
    - assert (AC' : j < width st) by (apply AC; congruence).
      destruct (buf V (chs V s k)) as [|v r] eqn:B.
      + destruct (clo V (chs V s k)) eqn:Cl; try discriminate. injection Hs as <-. pp. rewrite upd_other by lia.
        specialize (SU (on_eof V st (stg V s (S k)) j) Hk). unfold spot at 2 4 in SU. rewrite E in SU.
        assert (HRR := fun f i Hx => HR f i Hx eq_refl).
        destruct st as [f|p|m|m|m f|f i|w f]; cbn [on_eof set_ct extra] in *;
          try (pp; pose proof (CT CCloseOut AC') as CT1; cbn [cts cnt set_ct cpot] in *; lia).
        * destruct (Nat.ltb_spec (cnt V (stg V s (S k))) m); cbn [cts cnt set_ct] in SU; [lia|].
          pose proof (CT CCloseOut AC') as CT1. cbn [cpot] in *. lia.
        * destruct (res V (stg V s (S k))) as [rr|] eqn:RR; [|now destruct (HRR f i eq_refl)].
          pose proof (CT (CPush rr) AC') as CT1. cbn [cts cnt set_ct cpot] in *. lia.
        * pose proof (CT CHalt AC') as CT1. cbn [cts cnt set_ct cpot] in *. lia.
      + injection Hs as <-. pp. rewrite upd_other by lia.
        specialize (SU (on_item V st (stg V s (S k)) j v) Hk). unfold spot at 2 4 in SU. rewrite E in SU.
        specialize (CU k (drop1 V (chs V s k) v r) ltac:(lia)). unfold cw at 2 4 in CU. cbn [buf drop1] in CU. rewrite B in CU. cbn [length] in CU.
        rewrite Nat.mul_succ_r in CU.
        destruct st as [f|p|m|m|m f|f i|w f]; cbn [on_item extra] in *.
        * pose proof (CT (CPush (f v)) AC') as CT1. cbn [cts cnt set_ct cpot] in *. lia.
        * destruct (p v); [|lia]. pose proof (CT (CPush v) AC') as CT1. cbn [cts cnt set_ct cpot] in *. lia.
        * pose proof (CT (CPush v) AC') as CT1. cbn [cts cnt set_ct cpot] in *. lia.
        * destruct (Nat.ltb_spec (cnt V (stg V s (S k))) m); cbn [cts cnt set_ct] in SU; [lia|].
          pose proof (CT (CPush v) AC') as CT1. cbn [cpot] in *. lia.
        * destruct (_ =? m); cbn [cts cnt] in SU; [|lia].
          pose proof (CT (CPush (f (part V (stg V s (S k)) ++ [v]))) AC') as CT1. cbn [cts cnt set_ct cpot] in *. lia.
        * cbn [cts cnt] in SU. lia.
        * pose proof (CT (CPush (f v)) AC') as CT1. cbn [cts cnt set_ct cpot] in *. lia.
    - assert (AC' : j < width st) by (apply AC; congruence).
      destruct (clo V (chs V s (S k))) eqn:Cl; injection Hs as <-; pp; rewrite upd_other by lia.
      + specialize (SU (on_fail V st (stg V s (S k)) j) Hk). unfold spot at 2 4 in SU. rewrite E in SU.
        pose proof (CT CCloseOut AC') as CT1. pose proof (CT CCloseIn AC') as CT2. pose proof (CT CHalt AC') as CT3.
        destruct st as [f|p|m|m|m f|f i|w f]; cbn [on_fail set_ct cts cnt extra cpot] in *; lia.
      + specialize (SU (on_pushed V st (stg V s (S k)) j) Hk). unfold spot at 2 4 in SU. rewrite E in SU.
        specialize (CU (S k) (put V (chs V s (S k)) v) ltac:(lia)). unfold cw at 2 4 in CU. cbn [buf put] in CU.
        rewrite app_length in CU. cbn [length] in CU. rewrite Nat.mul_add_distr_l, Nat.mul_1_r in CU.
        pose proof (CT CCloseOut AC') as CT1. pose proof (CT CPop AC') as CT2.
        destruct st as [f|p|m|m|m f|f i|w f]; cbn [on_pushed set_ct cts cnt extra cpot] in *; try lia.
        * destruct (_ <? m); cbn [cpot] in *; lia.
        * destruct m as [|m]; [simpl in Ok; lia|]. cbn [set_ct cts cnt] in *. lia.
    - assert (AC' : j < width st) by (apply AC; congruence).
      destruct (joined V st (stg V s (S k))) eqn:J; try discriminate. injection Hs as <-. pp. rewrite upd_other by lia.
      specialize (SU (set_ct V (stg V s (S k)) j CCloseOut) Hk). unfold spot at 2 4 in SU. rewrite E in SU.
      pose proof (CT CCloseOut AC') as CT1. unfold extra in SU. cbn [set_ct cts cnt cpot] in *. lia.
    - assert (AC' : j < width st) by (apply AC; congruence). injection Hs as <-. pp. rewrite upd_other by lia.
      specialize (SU (set_ct V (stg V s (S k)) j (after_close V st)) Hk). unfold spot at 2 4 in SU. rewrite E in SU.
      specialize (CU (S k) (close_p V (chs V s (S k))) ltac:(lia)). unfold cw at 2 4 in CU. cbn [buf close_p] in CU.
      pose proof (CT (after_close V st) AC') as CT1. unfold extra in SU.
      assert (cpot st (wt (S k)) (after_close V st) <= 2) by (destruct st; simpl; lia). cbn [set_ct cts cnt] in *.
      replace (cpot st (wt (S k)) CCloseOut) with 3 in * by reflexivity. lia.
    - assert (AC' : j < width st) by (apply AC; congruence). injection Hs as <-. pp. rewrite upd_other by lia.
      specialize (SU (set_ct V (stg V s (S k)) j CHalt) Hk). unfold spot at 2 4 in SU. rewrite E in SU.
      specialize (CU k (close_c V (chs V s k)) ltac:(lia)). unfold cw at 2 4 in CU. cbn [buf close_c] in CU.
      pose proof (CT CHalt AC') as CT1. unfold extra in SU. cbn [set_ct cts cnt cpot] in *. lia.
  Qed.

  Lemma mu_step : forall N s a s', Inv s -> gen N = None -> pstep s a = Some s' -> mu N s' < mu N s.
  Proof.
    intros N s a s' HI HN Hs. destruct a as [|k j| |]; simpl in Hs.
    - eapply mu_src; eauto.
    - eapply mu_stage; eauto.
    - destruct (rend V s) eqn:R; try discriminate. unfold last_ch in Hs.
      destruct (buf V (chs V s n)) as [|v r] eqn:B.
      + destruct (clo V (chs V s n)); try discriminate. injection Hs as <-. unfold mu. cbn [chs stg rend rcl]. rewrite R. simpl flag. lia.
      + injection Hs as <-. unfold mu. cbn [chs stg rend rcl]. rewrite R.
        pose proof (ch_upd (chs V s) n (drop1 V (chs V s n) v r) ltac:(lia)) as CU. unfold cw at 2 4 in CU. cbn [buf drop1] in CU.
        rewrite B in CU. cbn [length] in CU. unfold wt at 1 2 in CU. lia.
    - destruct (rcl V s) eqn:R; try discriminate. injection Hs as <-. unfold mu. cbn [chs stg rend rcl]. rewrite R. unfold last_ch.
      pose proof (ch_upd (chs V s) n (close_c V (chs V s n)) ltac:(lia)) as CU. unfold cw at 2 4 in CU. cbn [buf close_c] in CU.
      simpl flag. lia.
  Qed.

  Lemma mu_run : forall N ls s, gen N = None -> run pstep pinit ls = Some s -> length ls + mu N s <= mu N pinit.
  Proof.
    intros N ls s HN. revert s. induction ls as [|a ls IH] using rev_ind; intros s H.
    - injection H as <-. simpl. lia.
    - rewrite run_app in H. destruct (run pstep pinit ls) as [s0|] eqn:E; try discriminate. simpl in H.
      destruct (pstep s0 a) as [s1|] eqn:P; try discriminate. injection H as <-.
      specialize (IH s0 eq_refl). pose proof (mu_step N s0 a s1 (pipe_inv _ _ _ _ Hok _ _ E) HN P).
      rewrite app_length. simpl. lia.
  Qed.
End L.
