(** A pipeline of maps over a source that does not end, in fair executions. *)
From Coq Require Import List Arith Bool Lia.
From Verif Require Import Base FairSpec PipeSpec PipeModel.
Import ListNotations.

Section PF.
  Variables (V : Type) (gen : nat -> option V) (sz : size) (fs : list (V -> V)).
  Notation sts := (map (@SMap V) fs).
  Notation len := (length fs).
  Notation step := (pstep V gen sz sts).
  Hypothesis GEN : forall i, gen i <> None.
  Hypothesis SZ : forall n, sz = Fixed n -> 0 < n.

  (** Who makes a step: the source coroutine is 0 (co_pipeline.h 124-141), the one of stage k is k + 1, the reader comes last. *)
  Definition pwho (l : lbl) : option nat := match l with Src => Some 0 | Run k _ => Some (S k) | RPop => Some (S len) | RClose => None end.

  Notation src s := (cts V (stg V s 0) 0).
  Notation at_stage s k := (cts V (stg V s (S k)) 0).
  Notation B s i := (buf V (chs V s i)).
  Notation O s i := (length (outs V (chs V s i))).
  Notation N s i := (length (ins V (chs V s i))).
  (** Items a stage has taken and not yet pushed (used in the proof only). *)
  Definition owed (c : ctl V) : nat := match c with CPush _ => 1 | _ => 0 end.
  (** Holds as long as nobody closes the pipeline (used in the proof only). *)
  Record PInv (s : pst V) : Prop := mkPI {
    p_clo : forall i, clo V (chs V s i) = false;
    p_rend : rend V s = false;
    p_src : match src s with CSrc | CPush _ => True | CWait => sz = Unbuffered | _ => False end;
    p_stage : forall k, k < len -> match at_stage s k with CPop | CPush _ => True | _ => False end;
    p_other : forall k j, j <> 0 -> cts V (stg V s k) j = CHalt;
    p_len : forall i, N s i = O s i + length (B s i);
    p_owed : forall k, k < len -> O s k = N s (S k) + owed (at_stage s k);
    p_got : O s len = length (got V s)
  }.
  Lemma st_at : forall k, nth_error sts k = option_map (@SMap V) (nth_error fs k).
  Proof. intros k. apply nth_error_map. Qed.
  Lemma pinv_init : PInv (pinit V sts).
  Proof.
    split; simpl; auto.
    - intros k L. rewrite st_at. destruct (nth_error fs k) eqn:E; [exact I|]. apply nth_error_None in E. lia.
    - intros [|k] j J; simpl; [now rewrite upd_other|]. rewrite st_at. destruct (nth_error fs k); simpl; [now rewrite upd_other|reflexivity].
    - intros k L. rewrite st_at. destruct (nth_error fs k); reflexivity.
  Qed.

  (** The steps there are. *)
  Inductive act (s : pst V) : lbl -> pst V -> Prop :=
  | a_gen : forall v, src s = CSrc -> act s Src (set_st V s 0 (set_ct V (stg V s 0) 0 (CPush v)))
  | a_push : forall v c, src s = CPush v -> PipeModel.room V sz (chs V s 0) = true -> c = CSrc \/ (c = CWait /\ sz = Unbuffered) ->
      act s Src (set_st V (set_ch V s 0 (put V (chs V s 0) v)) 0 (mkL V (upd (cts V (stg V s 0)) 0 c) (cnt V (stg V s 0) + 1) (part V (stg V s 0)) (res V (stg V s 0))))
  | a_wait : src s = CWait -> B s 0 = [] -> act s Src (set_st V s 0 (set_ct V (stg V s 0) 0 CSrc))
  | a_pop : forall k v r w, k < len -> at_stage s k = CPop -> B s k = v :: r -> act s (Run k 0) (set_st V (set_ch V s k (drop1 V (chs V s k) v r)) (S k) (set_ct V (stg V s (S k)) 0 (CPush w)))
  | a_put : forall k v, k < len -> at_stage s k = CPush v -> act s (Run k 0) (set_st V (set_ch V s (S k) (put V (chs V s (S k)) v)) (S k) (set_ct V (stg V s (S k)) 0 CPop))
  | a_read : forall v r, B s len = v :: r -> act s RPop (mkP V (upd (chs V s) len (drop1 V (chs V s len) v r)) (stg V s) (got V s ++ [v]) false (rcl V s)).
  Lemma step_act : forall s l s', PInv s -> l <> RClose -> step s l = Some s' -> act s l s'.
  Proof.
    intros s l s' I NC E. destruct l as [|k j| |]; [| | |congruence]; simpl in E.
    - unfold step_src in E. rewrite (p_clo _ I 0) in E. assert (P := p_src _ I). destruct (src s) eqn:C; try contradiction.
      + specialize (GEN (cnt V (stg V s 0))). destruct (gen _); [|congruence]. injection E as <-. now apply a_gen.
      + destruct (PipeModel.room V sz (chs V s 0)) eqn:R; [|discriminate]. injection E as <-. apply a_push; auto. destruct sz; auto.
      + destruct (B s 0) eqn:BE; [|discriminate]. injection E as <-. now apply a_wait.
    - unfold step_stage in E. rewrite st_at in E. destruct (nth_error fs k) as [f|] eqn:F; [|discriminate]. cbn [option_map] in E.
      assert (L : k < len) by (apply nth_error_Some; congruence). destruct (Nat.eq_dec j 0) as [->|J]; [|rewrite (p_other _ I (S k) j J) in E; discriminate].
      assert (P := p_stage _ I k L). destruct (at_stage s k) eqn:C; try contradiction.
      + destruct (B s k) as [|v r] eqn:BE; [rewrite (p_clo _ I k) in E; discriminate|]. injection E as <-. cbn [on_item]. now apply a_pop.
      + rewrite (p_clo _ I (S k)) in E. injection E as <-. cbn [on_pushed]. now apply a_put.
    - rewrite (p_rend _ I) in E. unfold last_ch in E. rewrite map_length in E. destruct (B s len) as [|v r] eqn:BE; [rewrite (p_clo _ I len) in E; discriminate|]. injection E as <-. now apply a_read.
  Qed.
  Ltac up := repeat (unfold set_ct, set_st, set_ch, put, drop1, upd, owed in *; cbn [chs stg got rend rcl buf clo ins outs cts cnt part res] in *;
    try match goal with |- context[S ?a =? S ?b] => change (S a =? S b) with (a =? b) | |- context[?a =? ?b] => destruct (Nat.eqb_spec a b); subst; try lia; try congruence end).
  Ltac fin := up; rewrite ?app_length in *; cbn [length] in *;
    repeat match goal with H : ?a = _ |- _ => match a with buf _ _ => rewrite H in * | cts _ _ _ => rewrite H in * end end; cbn [length] in *; auto; try lia; try congruence.
  Lemma pinv_step : forall s l s', PInv s -> l <> RClose -> step s l = Some s' -> PInv s'.
  Proof.
    intros s l s' I NC E. apply step_act in E; auto. destruct I as [Ic Ir Is It Io Il Iw Ig].
    destruct E as [v C|v c C R D|C Q|k v r w L C Q|k v L C|v r Q]; split; set (M := length fs) in *; clearbody M; auto.
    all: try (intros i; specialize (Ic i); fin; fail).
    all: try (destruct D as [->|[-> D]]; fin; fail).
    all: try (intros i; specialize (Il i); fin; fail).
    all: try (intros k0 j J; specialize (Io k0 j J); fin; fail).
    all: try (intros k0 L0; specialize (It k0 L0); fin; fail).
    all: try (intros k0 L0; specialize (Iw k0 L0); fin; fail).
    all: fin.
  Qed.

  Section Exec.
  Variables (st : nat -> pst V) (lb : nat -> option lbl).
  Hypothesis EX : execution (pst V) lbl step (pinit V sts) st lb.
  Hypothesis NC : forall n, lb n <> Some RClose.
  Hypothesis WF : weakly_fair (pst V) lbl step pwho st lb.
  Lemma inv_at : forall n, PInv (st n).
  Proof.
    induction n as [|n IH]; [destruct EX as [-> _]; apply pinv_init|]. destruct EX as [_ E]. specialize (E n). destruct (lb n) as [l|] eqn:L; [|now rewrite E].
    eapply pinv_step; eauto. intros ->. now apply (NC n).
  Qed.
  Lemma nxt : forall n, (exists l, lb n = Some l /\ act (st n) l (st (S n))) \/ (lb n = None /\ st (S n) = st n).
  Proof.
    intros n. destruct EX as [_ E]. specialize (E n). destruct (lb n) as [l|] eqn:L; [left|now right]. exists l. split; auto. apply step_act; auto; [apply inv_at|].
    intros ->. now apply (NC n).
  Qed.
  Lemma until : forall t (P : pst V -> Prop), (forall s, PInv s -> P s -> able (pst V) lbl step pwho s t) ->
    (forall s l s', PInv s -> P s -> act s l s' -> pwho l <> Some t -> P s') ->
    forall n, P (st n) -> exists m l, n <= m /\ P (st m) /\ lb m = Some l /\ pwho l = Some t /\ act (st m) l (st (S m)).
  Proof.
    intros t P A K n Pn. destruct (WF t n) as (m&L&D). remember (m - n) as d eqn:Hd. revert n Pn L Hd. induction d as [|d IH]; intros n Pn L Hd.
    - assert (m = n) as -> by lia. destruct D as [(l&E&W)|D]; [|now destruct (D (A _ (inv_at n) Pn))].
      destruct (nxt n) as [(l'&E'&C)|[E' _]]; [|congruence]. assert (l' = l) as -> by congruence. exists n, l. auto.
    - destruct (nxt n) as [(l&E&C)|[E C]].
      + destruct (pwho l) as [w|] eqn:W; [destruct (Nat.eq_dec w t) as [->|NE]; [exists n, l; auto|]|].
        all: destruct (IH (S n)) as (m'&l'&L'&R); [eapply K; eauto using inv_at; congruence|lia|lia|exists m', l'; split; [lia|exact R]].
      + destruct (IH (S n)) as (m'&l'&L'&R); [now rewrite C|lia|lia|exists m', l'; split; [lia|exact R]].
  Qed.
  Lemma O_act : forall s l s' i, act s l s' -> O s i <= O s' i.
  Proof. intros s l s' i A. destruct A; set (M := length fs) in *; clearbody M; fin. Qed.
  Lemma O_mono : forall i n m, n <= m -> O (st n) i <= O (st m) i.
  Proof.
    intros i n m L. induction L as [|m L IH]; [lia|]. destruct (nxt m) as [(l&_&A)|[_ E]]; [apply (O_act _ _ _ i) in A; lia|now rewrite E].
  Qed.

  Lemma able_stage : forall s k, PInv s -> k < len -> B s k <> [] \/ at_stage s k <> CPop -> able (pst V) lbl step pwho s (S k).
  Proof.
    intros s k I L D. exists (Run k 0). cbn [pwho pstep]. unfold step_stage. rewrite st_at. destruct (nth_error fs k) as [f|] eqn:F; [|apply nth_error_None in F; lia]. cbn [option_map].
    assert (P := p_stage _ I k L). destruct (at_stage s k) eqn:C; try contradiction.
    - destruct D as [D|D]; [|congruence]. destruct (B s k); [congruence|]. eauto.
    - rewrite (p_clo _ I (S k)). eauto.
  Qed.
  Lemma able_reader : forall s, PInv s -> B s len <> [] -> able (pst V) lbl step pwho s (S len).
  Proof.
    intros s I D. exists RPop. cbn [pwho pstep]. rewrite (p_rend _ I). unfold last_ch. rewrite map_length. destruct (B s len); [congruence|]. eauto.
  Qed.
  Lemma able_src : forall s, PInv s -> B s 0 = [] -> able (pst V) lbl step pwho s 0.
  Proof.
    intros s I D. exists Src. cbn [pwho pstep]. unfold step_src, PipeModel.room. rewrite (p_clo _ I 0), D. assert (P := p_src _ I).
    destruct (src s) eqn:C; try contradiction.
    - destruct (gen _); eauto.
    - destruct sz as [| |[|n]]; cbn [length Nat.ltb Nat.leb]; eauto. specialize (SZ 0 eq_refl). lia.
    - eauto.
  Qed.
  Lemma app_ne : forall (l : list V) v, l ++ [v] <> [].
  Proof. now destruct l. Qed.

  (** What is in a channel is taken out. *)
  Lemma pops : forall k n, k <= len -> B (st n) k <> [] -> exists m, n <= m /\ O (st n) k < O (st m) k.
  Proof.
    intros k n L NE. destruct (Nat.eq_dec k len) as [->|K].
    - destruct (until (S len) (fun s => B s len <> []) able_reader) with (n := n) as (m&l&Lm&P&E&W&A); auto.
      + intros s l s' I Q A W. destruct A as [| | | | |v r Q']; cbn [pwho] in W; try congruence; set (M := length fs) in *; clearbody M; up; auto using app_ne.
      + exists (S m). split; [lia|]. pose proof (O_mono len n m Lm). destruct A; cbn [pwho] in W; try (injection W as W); try lia. fin.
    - assert (KL : k < len) by lia.
      assert (G : forall n', n <= n' -> at_stage (st n') k = CPop -> B (st n') k <> [] -> exists m, n <= m /\ O (st n) k < O (st m) k).
      { intros n' Ln C NE'. destruct (until (S k) (fun s => at_stage s k = CPop /\ B s k <> [])) with (n := n') as (m&l&Lm&[P1 P2]&E&W&A); auto.
        + intros s I [_ Q]. apply able_stage; auto.
        + intros s l s' I [Q1 Q2] A W. destruct A; cbn [pwho] in W; set (M := length fs) in *; clearbody M; split; up; auto using app_ne.
        + exists (S m). split; [lia|]. pose proof (O_mono k n m ltac:(lia)). destruct A as [| | |k' v r w L' C' Q'|k' v L' C'|]; cbn [pwho] in W; try (injection W as W); try lia; subst; [fin|congruence]. }
      assert (P := p_stage _ (inv_at n) k KL). destruct (at_stage (st n) k) eqn:C; try contradiction; [now apply (G n)|].
      destruct (until (S k) (fun s => (exists v, at_stage s k = CPush v) /\ B s k <> [])) with (n := n) as (m&l&Lm&[[v' P1] P2]&E&W&A); eauto.
      + intros s I [[v' Q] _]. apply able_stage; auto. right. congruence.
      + intros s l s' I [[v' Q1] Q2] A W. destruct A; cbn [pwho] in W; set (M := length fs) in *; clearbody M; (split; [exists v'|]); up; auto using app_ne.
      + apply (G (S m)); [lia| |]; destruct A as [| | |k' v0 r w L' C' Q'|k' v0 L' C'|]; cbn [pwho] in W; try (injection W as W); try lia; subst; try congruence; up; auto.
  Qed.
  (** The source puts something into its channel when that is empty. *)
  Lemma fills : forall n, B (st n) 0 = [] -> exists m, n <= m /\ B (st m) 0 <> [].
  Proof.
    intros n E0.
    assert (KEEP : forall (Q : ctl V -> Prop) s l s', PInv s -> Q (src s) /\ B s 0 = [] -> act s l s' -> pwho l <> Some 0 -> Q (src s') /\ B s' 0 = []).
    { intros Q s l s' I [Q1 Q2] A W. destruct A; cbn [pwho] in W; try congruence; set (M := length fs) in *; clearbody M; split; up; auto. }
    assert (GO : forall (Q : ctl V -> Prop) n', B (st n') 0 = [] -> Q (src (st n')) -> exists m l, n' <= m /\ (Q (src (st m)) /\ B (st m) 0 = []) /\ lb m = Some l /\ pwho l = Some 0 /\ act (st m) l (st (S m))).
    { intros Q n' E1 C. apply (until 0 (fun s => Q (src s) /\ B s 0 = [])); auto. - intros s I [_ D]. now apply able_src. - apply KEEP. }
    assert (G1 : forall n' v, n <= n' -> B (st n') 0 = [] -> src (st n') = CPush v -> exists m, n <= m /\ B (st m) 0 <> []).
    { intros n' v L E1 C. destruct (GO (fun c => c = CPush v) n' E1 C) as (m&l&Lm&[P1 P2]&_&W&A). exists (S m). split; [lia|].
      destruct A; cbn [pwho] in W; try discriminate; try congruence; up; auto using app_ne. }
    assert (G2 : forall n', n <= n' -> B (st n') 0 = [] -> src (st n') = CSrc -> exists m, n <= m /\ B (st m) 0 <> []).
    { intros n' L E1 C. destruct (GO (fun c => c = CSrc) n' E1 C) as (m&l&Lm&[P1 P2]&_&W&A).
      assert (H : exists v, src (st (S m)) = CPush v /\ B (st (S m)) 0 = []).
      { destruct A as [v C'|v c C' R D|C' Q|k v r w L' C' Q|k v L' C'|v r Q]; cbn [pwho] in W; try discriminate; try congruence. exists v. split; up; auto. }
      destruct H as (v&H1&H2). apply (G1 (S m) v); auto. lia. }
    assert (P := p_src _ (inv_at n)). destruct (src (st n)) eqn:C; try contradiction; eauto.
    destruct (GO (fun c => c = CWait) n E0 C) as (m&l&Lm&[P1 P2]&_&W&A).
    assert (H : src (st (S m)) = CSrc /\ B (st (S m)) 0 = []).
    { destruct A as [v C'|v c C' R D|C' Q|k v r w L' C' Q|k v L' C'|v r Q]; cbn [pwho] in W; try discriminate; try congruence. split; up; auto. }
    destruct H. apply (G2 (S m)); auto.
  Qed.
  (** Every channel hands over as many items as one likes. *)
  Lemma flows : forall k, k <= len -> forall x, exists m, x <= O (st m) k.
  Proof.
    induction k as [|k IH]; intros L x.
    - induction x as [|x (n&H)]; [exists 0; lia|]. destruct (B (st n) 0) as [|b r] eqn:E.
      + destruct (fills n E) as (m&Lm&NE). destruct (pops 0 m L NE) as (m'&Lm'&G). pose proof (O_mono 0 n m Lm). exists m'. lia.
      + destruct (pops 0 n L) as (m&Lm&G); [congruence|]. exists m. lia.
    - destruct (IH ltac:(lia) (S x)) as (n0&H0).
      assert (NX : forall m, n0 <= m -> x <= N (st m) (S k)).
      { intros m Lm. pose proof (O_mono k n0 m Lm). pose proof (p_owed _ (inv_at m) k ltac:(lia)) as W. unfold owed in W. destruct (at_stage (st m) k); lia. }
      assert (G : forall y, y <= x -> exists m, n0 <= m /\ y <= O (st m) (S k)).
      { induction y as [|y IHy]; intros Ly; [exists n0; lia|]. destruct IHy as (m&Lm&Hm); [lia|]. destruct (le_lt_dec (S y) (O (st m) (S k))); [exists m; auto|].
        pose proof (NX m Lm). pose proof (p_len _ (inv_at m) (S k)). destruct (pops (S k) m L) as (m'&Lm'&G').
        - destruct (B (st m) (S k)); [simpl in *; lia|congruence].
        - exists m'. lia. }
      destruct (G x (le_n _)) as (m&_&Hm). now exists m.
  Qed.
  Lemma reader_gets : forall x, exists m, x <= length (got V (st m)).
  Proof. intros x. destruct (flows len (le_n _) x) as (m&H). exists m. now rewrite (p_got _ (inv_at m)) in H. Qed.
  End Exec.
End PF.
