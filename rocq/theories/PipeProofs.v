(** Proofs about the pipeline model. *)
From Coq Require Import List Arith Bool Lia Permutation.
From Verif Require Import Base PipeSpec PipeModel.
Import ListNotations.

(** ** Chunks *)
Section Chunks.
  Variable V : Type.
  Definition all_n (n : nat) (cs : list (list V)) : Prop := Forall (fun c => length c = n) cs.

  Lemma concat_len : forall n cs, all_n n cs -> length (concat cs) = length cs * n.
  Proof. induction cs as [|c cs IH]; intros H; simpl; auto. inversion H; subst. rewrite app_length, IH; auto. Qed.

  Lemma chunks_decomp : forall n (cs : list (list V)) part, 1 <= n -> all_n n cs -> length part < n ->
    chunks n (concat cs ++ part) = cs.
  Proof.
    intros n cs part Hn Ha Hp. unfold chunks. rewrite app_length, (concat_len n) by auto.
    replace ((length cs * n + length part) / n) with (length cs).
    2: { rewrite Nat.add_comm, Nat.div_add by lia. rewrite (Nat.div_small _ _ Hp). lia. }
    induction cs as [|c cs IH]; simpl; auto. inversion Ha as [|? ? Hc Ha']; subst.
    f_equal.
    - rewrite <- app_assoc, firstn_app, Nat.sub_diag, firstn_all. simpl. now rewrite app_nil_r.
    - rewrite <- seq_shift, map_map. rewrite <- (IH Ha') at 2. apply map_ext. intros i.
      rewrite <- app_assoc. simpl. f_equal. rewrite skipn_app.
      rewrite (skipn_all2 c) by lia. simpl. f_equal. lia.
  Qed.

  Lemma decomp : forall n (l : list V), 1 <= n -> exists cs part, all_n n cs /\ length part < n /\ l = concat cs ++ part.
  Proof.
    intros n l Hn. induction l as [l IH] using (well_founded_induction (Wf_nat.well_founded_ltof _ (@length V))).
    destruct (Nat.lt_ge_cases (length l) n) as [H|H].
    - exists [], l. repeat split; auto. constructor.
    - destruct (IH (skipn n l)) as (cs&part&A&B&C).
      + unfold Wf_nat.ltof. rewrite skipn_length. lia.
      + exists (firstn n l :: cs), part. repeat split; auto.
        * constructor; auto. now apply firstn_length_le.
        * simpl. rewrite <- app_assoc, <- C. symmetry. apply firstn_skipn.
  Qed.

  Lemma chunks_app : forall n (x y : list V), 1 <= n -> exists r, chunks n (x ++ y) = chunks n x ++ r.
  Proof.
    intros n x y Hn. destruct (decomp n x Hn) as (cs&p&A&B&->). destruct (decomp n (p ++ y) Hn) as (cs'&p'&A'&B'&E).
    exists cs'. rewrite chunks_decomp by auto. rewrite <- app_assoc, E, app_assoc, <- concat_app.
    apply chunks_decomp; auto. now apply Forall_app.
  Qed.
  Lemma chunks_full : forall n (cs : list (list V)), 1 <= n -> all_n n cs -> chunks n (concat cs) = cs.
  Proof. intros n cs Hn Ha. rewrite <- (app_nil_r (concat cs)). apply chunks_decomp; simpl; auto. Qed.
End Chunks.
Arguments all_n {V}.

Section P.
  Variable V : Type.
  Notation stage := (stage V).
  Notation chan := (chan V).
  Notation loc := (loc V).
  Notation pst := (pst V).
  Notation ctl := (ctl V).
  Notation ins := (ins V). Notation outs := (outs V). Notation buf := (buf V). Notation clo := (clo V).
  Notation byc := (byc V). Notation fin := (fin V).
  Notation cts := (cts V). Notation cnt := (cnt V). Notation part := (part V). Notation res := (res V).
  Notation chs := (chs V). Notation stg := (stg V). Notation got := (got V). Notation rend := (rend V). Notation rcl := (rcl V).

  (** What a stage has to output after consuming [xs], when more may come. *)
  Definition inc (st : stage) (xs : list V) : list V :=
    match st with
    | SReduce _ _ | SFork _ _ => []
    | _ => stage_fun st xs
    end.

  Definition drained (c : chan) : Prop := fin c = true /\ buf c = [].
  Definition take_sat (st : stage) (xs : list V) : Prop := match st with STake n => length xs = n | _ => False end.
  Definition comp (st : stage) (cin cout : chan) : Prop :=
    (drained cin \/ take_sat st (outs cin) \/ exists f, st = SFork 0 f) /\ stage_rel st (outs cin) (ins cout).
  Definition pre (st : stage) (xs ys : list V) : Prop := exists r, inc st xs = ys ++ r.
  Definition ended (st : stage) (cin cout : chan) : Prop :=
    (byc cout = true /\ fin cout = false /\ pre st (outs cin) (ins cout)) \/ comp st cin cout.

  Definition cntok (st : stage) (l : loc) (cin : chan) : Prop :=
    match st with
    | STake n => cnt l = length (outs cin) /\ cnt l < n
    | SSkip n => (cnt l = length (outs cin) /\ cnt l <= n) \/ (cnt l = n /\ (n <= length (outs cin) \/ drained cin))
    | SGroup n _ => exists cs, all_n n cs /\ outs cin = concat cs ++ part l /\ length (part l) < n
    | SReduce f i => res l = Some (fold_left f (outs cin) i)
    | _ => True
    end.
  Definition pushok (st : stage) (l : loc) (v : V) (cin cout : chan) : Prop :=
    match st with
    | SReduce f i => ins cout = [] /\ v = fold_left f (outs cin) i /\ drained cin
    | _ => ins cout ++ [v] = inc st (outs cin)
    end /\
    match st with
    | STake n => length (outs cin) = cnt l + 1 /\ cnt l + 1 <= n
    | SSkip n => cnt l = n /\ n <= length (outs cin)
    | SGroup n _ => exists cs, all_n n cs /\ outs cin = concat cs
    | _ => True
    end.

  Definition pend (l : loc) (k : nat) : list V :=
    flat_map (fun j => match cts l j with CPush v => [v] | _ => [] end) (seq 1 k).

  Definition SIn (st : stage) (l : loc) (cin cout : chan) : Prop :=
    (forall j, j <> 0 -> cts l j = CHalt) /\
    match cts l 0 with
    | CPop => byc cin = false /\ fin cout = false /\ ins cout = inc st (outs cin) /\ cntok st l cin
    | CPush v => byc cin = false /\ fin cout = false /\ pushok st l v cin cout
    | CCloseOut => byc cin = false /\ fin cout = false /\ ended st cin cout /\ (match st with SGroup _ _ => drained cin | _ => True end)
    | CCloseIn => byc cin = false /\ clo cout = true /\ ended st cin cout
    | CHalt => clo cout = true /\ ended st cin cout /\
               (match st with STake _ | SGroup _ _ => clo cin = true | _ => True end)
    | _ => False
    end.
  Definition SIf (k : nat) (f : V -> V) (l : loc) (cin cout : chan) : Prop :=
    byc cin = false /\
    (forall j, k < j -> cts l j = CHalt) /\
    (forall j, 1 <= j <= k -> match cts l j with CPop | CPush _ => True | CHalt => drained cin \/ byc cout = true | _ => False end) /\
    (exists lost, Permutation (ins cout ++ pend l k ++ lost) (map f (outs cin)) /\ (lost = [] \/ byc cout = true)) /\
    (k = 0 -> ins cout = []) /\
    (fin cout = true -> comp (SFork k f) cin cout) /\
    match cts l 0 with
    | CJoin => fin cout = false
    | CCloseOut => fin cout = false /\ forall j, 1 <= j <= k -> cts l j = CHalt
    | CHalt => clo cout = true /\ forall j, 1 <= j <= k -> cts l j = CHalt
    | _ => False
    end.
  Definition SI (st : stage) (l : loc) (cin cout : chan) : Prop :=
    match st with SFork k f => SIf k f l cin cout | _ => SIn st l cin cout end.

  Variables (gen : nat -> option V) (sz : size) (sts : list stage).
  Notation pstep := (pstep V gen sz sts).
  Notation pinit := (pinit V sts).
  Definition n := length sts.

  Definition CI (c : chan) : Prop :=
    ins c = outs c ++ buf c /\ (clo c = true -> byc c = true \/ fin c = true) /\
    (byc c = true -> clo c = true) /\ (fin c = true -> clo c = true).

  Definition SI0 (l : loc) (c : chan) : Prop :=
    (forall j, j <> 0 -> cts l j = CHalt) /\ length (ins c) = cnt l /\ (forall j, j < cnt l -> gen j = nth_error (ins c) j) /\
    (forall j, j < cnt l -> gen j <> None) /\
    match cts l 0 with
    | CSrc => fin c = false
    | CWait => fin c = false /\ sz = Unbuffered
    | CPush v => fin c = false /\ gen (cnt l) = Some v
    | CCloseOut => fin c = false /\ (byc c = true \/ gen (cnt l) = None)
    | CHalt => clo c = true /\ (fin c = true -> gen (cnt l) = None)
    | _ => False
    end.

  Record Inv (s : pst) : Prop := {
    v_ch : forall i, CI (chs s i);
    v_src : SI0 (stg s 0) (chs s 0);
    v_st : forall k st, nth_error sts k = Some st -> SI st (stg s (S k)) (chs s k) (chs s (S k));
    v_got : got s = outs (chs s n);
    v_rcl : rcl s = byc (chs s n);
    v_end : rend s = true -> clo (chs s n) = true /\ buf (chs s n) = []
  }.

  Hypothesis Hok : Forall stage_ok sts.

  (** What an operation of the producer / the consumer leaves alone. *)
  Definition pop_ok (c c' : chan) : Prop :=
    outs c' = outs c /\ byc c' = byc c /\ (drained c -> drained c') /\ (clo c = true -> clo c' = true) /\
    (clo c = true /\ buf c = [] -> buf c' = []).
  Definition cop_ok (c c' : chan) : Prop :=
    ins c' = ins c /\ fin c' = fin c /\ (byc c = true -> byc c' = true) /\ (clo c = true -> clo c' = true).

  Lemma pop_refl : forall c, pop_ok c c. Proof. unfold pop_ok; intuition. Qed.
  Lemma cop_refl : forall c, cop_ok c c. Proof. unfold cop_ok; intuition. Qed.

  Lemma comp_frame : forall st cin cout cin' cout', comp st cin cout -> pop_ok cin cin' -> cop_ok cout cout' -> comp st cin' cout'.
  Proof. intros st cin cout cin' cout' [A B] (P1&P2&P3&P4&P5) (Q1&Q2&Q3&Q4). unfold comp. rewrite P1, Q1. intuition. Qed.
  Lemma ended_frame : forall st cin cout cin' cout', ended st cin cout -> pop_ok cin cin' -> cop_ok cout cout' -> ended st cin' cout'.
  Proof.
    intros st cin cout cin' cout' [(A&B&C)|A] P Q.
    - left. destruct P as (P1&P2&P3&P4&P5), Q as (Q1&Q2&Q3&Q4). rewrite P1, Q1, Q2. auto.
    - right. eapply comp_frame; eauto.
  Qed.

  Lemma SI_frame : forall st l cin cout cin' cout', SI st l cin cout -> pop_ok cin cin' -> cop_ok cout cout' -> SI st l cin' cout'.
  Proof.
    intros st l cin cout cin' cout' H P Q.
    assert (K : SIn st l cin cout -> SIn st l cin' cout').
    { intros [A B]. split; auto. pose proof P as (P1&P2&P3&P4&P5). pose proof Q as (Q1&Q2&Q3&Q4).
      destruct (cts l 0); auto; rewrite ?P2, ?Q2, ?Q1.
      - destruct B as (B1&B2&B3&B4). rewrite P1. repeat split; auto. unfold cntok in *. rewrite P1. destruct st; intuition.
      - destruct B as (B1&B2&B3&B4). repeat split; auto; unfold pushok in *; rewrite ?P1, ?Q1; destruct st; intuition.
      - destruct B as (B1&B2&B3&B4). split; [auto|]. split; [auto|]. split; [eapply ended_frame; eauto|]. destruct st; auto.
      - destruct B as (B1&B2&B3). repeat split; auto. eapply ended_frame; eauto.
      - destruct B as (B1&B2&B3). repeat split; auto; [eapply ended_frame; eauto|destruct st; auto]. }
    destruct st; try (apply K; exact H). clear K. cbn [SI] in *. unfold SIf in *.
    destruct H as (A1&A2&A3&(lost&A4&A4')&A5&A6&A7). pose proof P as (P1&P2&P3&P4&P5). pose proof Q as (Q1&Q2&Q3&Q4).
    rewrite P1, P2, Q1, Q2. split; [auto|]. split; [auto|]. split.
    { intros j Hj. specialize (A3 j Hj). destruct (cts l j); auto. intuition. }
    split; [exists lost; split; auto; intuition|]. split; [auto|].
    split; [intros Hf; eapply comp_frame; eauto|]. destruct (cts l 0); intuition.
  Qed.

  Lemma SI0_frame : forall l c c', SI0 l c -> cop_ok c c' -> SI0 l c'.
  Proof.
    intros l c c' (A1&A2&A3&A4&A5) (Q1&Q2&Q3&Q4). unfold SI0. rewrite Q1, Q2. repeat split; auto.
    destruct (cts l 0); intuition.
  Qed.

  Lemma start_SI : forall st, stage_ok st -> SI st (start V st) (ch0 V) (ch0 V).
  Proof.
    intros st Hk. destruct st as [f|p|[|m]|m|[|m] f|f i|k f]; cbn [start SI]; unfold SIn, SIf; cbn [PipeModel.cts PipeModel.cnt PipeModel.part PipeModel.res].
    1-8: split; [intros j Hj; now rewrite upd_other by auto|]; rewrite upd_same; cbn [PipeModel.byc PipeModel.fin PipeModel.ins PipeModel.outs ch0 inc stage_fun cntok map filter]; auto.
    - split; [reflexivity|]. split; [reflexivity|]. split; [|exact I]. right. split; [|reflexivity]. right. left. reflexivity.
    - split; [reflexivity|]. split; [reflexivity|]. split; [reflexivity|]. cbn. lia.
    - split; [reflexivity|]. split; [reflexivity|]. split; [now destruct m|]. left. cbn. lia.
    - simpl in Hk. lia.
    - split; [reflexivity|]. split; [reflexivity|]. split; [unfold chunks; simpl length; now rewrite Nat.div_0_l by lia|].
      exists []. split; [constructor|]. split; [reflexivity|cbn; lia].
    - split; [reflexivity|]. split; [intros j Hj; destruct j; [lia|]; cbn [Nat.eqb]; destruct (Nat.leb_spec (S j) k); [lia|reflexivity]|].
      split; [intros j Hj; destruct j; [lia|]; cbn [Nat.eqb]; destruct (Nat.leb_spec (S j) k); [exact I|lia]|].
      split.
      { exists []. cbn. split; auto. replace (pend _ k) with (@nil V); [reflexivity|].
        unfold pend. cbn. symmetry. assert (E : forall L, (forall j, In j L -> 1 <= j) -> flat_map (fun j => match (if j =? 0 then @CJoin V else if j <=? k then CPop else CHalt) with CPush v => [v] | _ => [] end) L = []).
        { induction L as [|j L IH]; intros HL; simpl; auto. rewrite IH by (intros; apply HL; now right).
          specialize (HL j (or_introl eq_refl)). destruct j; [lia|]. cbn [Nat.eqb]. now destruct (S j <=? k). }
        apply E. intros j Hj. apply in_seq in Hj. lia. }
      split; [reflexivity|]. split; [discriminate|]. reflexivity.
  Qed.

  Lemma inv_init : Inv pinit.
  Proof.
    split; cbn [PipeModel.chs PipeModel.stg PipeModel.got PipeModel.rend PipeModel.rcl PipeModel.pinit]; auto; try discriminate.
    - intros i. repeat split; cbn; auto; discriminate.
    - repeat split; cbn; auto; try lia. intros j Hj. unfold upd. now destruct (Nat.eqb_spec j 0).
    - intros k st E. rewrite E. apply start_SI. rewrite Forall_forall in Hok. apply Hok. eapply nth_error_In; eauto.
  Qed.

  (** ** Steps of a stage *)
  Lemma stage_gen : forall s k st l' c1 c2 s', Inv s -> nth_error sts k = Some st ->
    cop_ok (chs s k) c1 -> pop_ok (chs s (S k)) c2 -> CI c1 -> CI c2 -> SI st l' c1 c2 ->
    (forall i, chs s' i = if i =? S k then c2 else if i =? k then c1 else chs s i) ->
    stg s' = upd (stg s) (S k) l' -> got s' = got s -> rend s' = rend s -> rcl s' = rcl s -> Inv s'.
  Proof.
    intros s k st l' c1 c2 s' [V1 V2 V3 V4 V5 V6] E Q P C1 C2 HS Hc Hs Hg Hr Hrc.
    assert (Hk : k < n) by (apply nth_error_Some; congruence).
    assert (Hn : pop_ok (chs s n) (chs s' n)).
    { rewrite Hc. destruct (Nat.eqb_spec n (S k)) as [->|]; auto. destruct (Nat.eqb_spec n k); [lia|apply pop_refl]. }
    split.
    - intros i. rewrite Hc. destruct (i =? S k); auto. destruct (i =? k); auto.
    - rewrite Hs, upd_other by lia. rewrite Hc. destruct (Nat.eqb_spec 0 (S k)); [lia|].
      destruct (Nat.eqb_spec 0 k) as [<-|]; auto. eapply SI0_frame; eauto.
    - intros k' st' E'. rewrite Hs. destruct (Nat.eq_dec k' k) as [->|Hne].
      + rewrite upd_same, !Hc, Nat.eqb_refl. destruct (Nat.eqb_spec k (S k)); [lia|]. rewrite Nat.eqb_refl. congruence.
      + rewrite upd_other by lia. apply (SI_frame _ _ (chs s k') (chs s (S k'))); auto; rewrite Hc.
        * destruct (Nat.eqb_spec k' (S k)) as [->|]; auto. destruct (Nat.eqb_spec k' k); [lia|apply pop_refl].
        * destruct (Nat.eqb_spec (S k') (S k)); [lia|]. destruct (Nat.eqb_spec (S k') k) as [<-|]; auto using cop_refl.
    - destruct Hn as (H1&_). congruence.
    - destruct Hn as (_&H2&_). congruence.
    - rewrite Hr. intros Hend. destruct (V6 Hend) as [A B]. destruct Hn as (_&_&_&H4&H5). auto.
  Qed.

  Lemma nth_ok : forall k st, nth_error sts k = Some st -> stage_ok st.
  Proof. intros k st E. rewrite Forall_forall in Hok. apply Hok. eapply nth_error_In; eauto. Qed.

  (** The results the workers hold, after one of them moved. *)
  Lemma flat_upd : forall (g g' : nat -> list V) j L, NoDup L -> In j L -> (forall i, i <> j -> g' i = g i) ->
    Permutation (flat_map g' L ++ g j) (flat_map g L ++ g' j).
  Proof.
    intros g g' j L Hn. induction Hn as [|a L Ha Hn IH]; intros Hj Hg; [contradiction|]. simpl. destruct Hj as [->|Hj].
    - assert (E : flat_map g' L = flat_map g L).
      { clear IH Hn. induction L as [|b L IH]; simpl; auto. rewrite IH by (intros H; apply Ha; now right).
        rewrite Hg; auto. intros ->. apply Ha. now left. }
      rewrite E, <- !app_assoc. rewrite (Permutation_app_comm (flat_map g L) (g j)), (Permutation_app_comm (flat_map g L) (g' j)).
      rewrite !app_assoc. apply Permutation_app_tail. apply Permutation_app_comm.
    - rewrite Hg by (intros ->; contradiction). rewrite <- !app_assoc. apply Permutation_app_head. auto.
  Qed.
  Definition held (c : ctl) : list V := match c with CPush v => [v] | _ => [] end.
  Lemma pend_upd : forall l k j c, 1 <= j <= k ->
    Permutation (pend (set_ct V l j c) k ++ held (cts l j)) (pend l k ++ held c).
  Proof.
    intros l k j c Hj. unfold pend, held. cbn [set_ct PipeModel.cts].
    pose proof (flat_upd (fun i => held (cts l i)) (fun i => held (upd (cts l) j c i)) j (seq 1 k) (seq_NoDup k 1)) as K.
    cbn beta in K. rewrite upd_same in K. apply K; [apply in_seq; lia|]. intros i Hi. now rewrite upd_other.
  Qed.

  Lemma SIf_j : forall k f l cin cout j, SIf k f l cin cout -> (cts l j = CPop \/ exists v, cts l j = CPush v) -> 1 <= j <= k.
  Proof.
    intros k f l cin cout j (A1&A2&A3&A4&A5&A6&A7) H. destruct j as [|j].
    - exfalso. destruct H as [H|[v H]]; rewrite H in A7; contradiction.
    - destruct (Nat.le_gt_cases (S j) k); [lia|]. rewrite A2 in H by auto. destruct H as [H|[v H]]; discriminate.
  Qed.

  Ltac proj := cbn [PipeModel.chs PipeModel.stg PipeModel.got PipeModel.rend PipeModel.rcl PipeModel.cts PipeModel.cnt
    PipeModel.part PipeModel.res PipeModel.ins PipeModel.outs PipeModel.buf PipeModel.clo PipeModel.byc PipeModel.fin
    set_ct set_st set_ch drop1 put close_p close_c] in *.

  Lemma CI_drop : forall c v r, CI c -> buf c = v :: r -> CI (drop1 V c v r).
  Proof. intros c v r (A&B&C&D) E. unfold CI. proj. rewrite A, E, <- app_assoc. auto. Qed.
  Lemma CI_put : forall c v, CI c -> CI (put V c v).
  Proof. intros c v (A&B&C&D). unfold CI. proj. rewrite A, <- app_assoc. auto. Qed.
  Lemma CI_closep : forall c, CI c -> CI (close_p V c).
  Proof. intros c (A&B&C&D). unfold CI. proj. repeat split; auto. intros _. destruct (byc c), (fin c); auto. Qed.
  Lemma CI_closec : forall c, CI c -> CI (close_c V c).
  Proof. intros c (A&B&C&D). unfold CI. proj. repeat split; auto. Qed.
  Lemma cop_drop : forall c v r, cop_ok c (drop1 V c v r).
  Proof. intros. unfold cop_ok. proj. auto. Qed.
  Lemma cop_close : forall c, cop_ok c (close_c V c).
  Proof. intros. unfold cop_ok. proj. auto. Qed.
  Lemma pop_put : forall c v, CI c -> clo c = false -> pop_ok c (put V c v).
  Proof.
    intros c v (A&B&C&D) H. unfold pop_ok, drained. proj. repeat split; auto; try tauto; intros; exfalso;
    destruct H0; try congruence; rewrite D in H by auto; discriminate.
  Qed.
  Lemma pop_close : forall c, pop_ok c (close_p V c).
  Proof. intros c. unfold pop_ok, drained. proj. repeat split; auto; try tauto. destruct H as [-> _]. reflexivity. Qed.

  (** A stage pops an item. *)
  Lemma item_SI : forall st l j v r cin cout, stage_ok st -> CI cin -> SI st l cin cout -> cts l j = CPop -> buf cin = v :: r ->
    SI st (on_item V st l j v) (drop1 V cin v r) cout.
  Proof.
    intros st l j v r cin cout Hst HC HS Hj Hb. destruct HC as (HC1&HC2&HC3&HC4).
    assert (ND : ~ drained cin) by (intros [_ K]; congruence).
    destruct st as [f|p|m|m|m f|f i|k f]; cbn [SI] in *.
    1-6: destruct HS as [H0 HS]; assert (j = 0) by (destruct (Nat.eq_dec j 0); auto; rewrite H0 in Hj by auto; discriminate);
         subst j; rewrite Hj in HS; destruct HS as (B1&B2&B3&B4).
    - cbn [on_item]. split; proj; [intros; rewrite upd_other; auto|]. rewrite upd_same. repeat split; auto. cbn in *. now rewrite B3, map_app.
    - cbn [on_item]. split; [intros; destruct (p v); proj; rewrite ?upd_other; auto|].
      destruct (p v) eqn:Ep; proj; rewrite ?upd_same, ?Hj; repeat split; auto; cbn in *; rewrite B3, filter_app; simpl; rewrite Ep; auto.
      now rewrite app_nil_r.
    - cbn [on_item]. split; proj; [intros; rewrite upd_other; auto|]. rewrite upd_same. cbn [cntok] in B4. repeat split; auto; cbn in *.
      + rewrite B3, !firstn_all2; auto; rewrite ?app_length; simpl; lia.
      + rewrite app_length. simpl. lia.
      + lia.
    - cbn [on_item]. cbn [cntok] in B4. destruct (Nat.ltb_spec (cnt l) m) as [Hl|Hl].
      + assert (K : cnt l = length (outs cin)) by lia.
        split; proj; auto. rewrite Hj. split; [auto|]. split; [auto|]. split.
        * cbn in *. rewrite B3, !skipn_all2; auto; rewrite ?app_length; simpl; lia.
        * left. proj. rewrite app_length. simpl. lia.
      + assert (K : cnt l = m /\ m <= length (outs cin)) by (destruct B4 as [[? ?]|[? [?|?]]]; try contradiction; lia).
        split; proj; [intros; rewrite upd_other; auto|]. rewrite upd_same. repeat split; auto; cbn in *; try tauto.
        * rewrite B3, skipn_app. f_equal. replace (m - length (outs cin)) with 0 by lia. reflexivity.
        * rewrite app_length. simpl. lia.
    - cbn [on_item]. cbn [cntok] in B4. destruct B4 as (cs&K1&K2&K3). simpl in Hst.
      destruct (Nat.eqb_spec (length (part l) + 1) m) as [Hl|Hl].
      + assert (EX : outs cin ++ [v] = concat (cs ++ [part l ++ [v]])).
        { rewrite K2, concat_app. simpl. now rewrite app_nil_r, <- app_assoc. }
        assert (AN : all_n m (cs ++ [part l ++ [v]])).
        { apply Forall_app. split; auto. constructor; auto. rewrite app_length. simpl. lia. }
        split; proj; [intros; rewrite upd_other; auto|]. rewrite upd_same. split; [auto|]. split; [auto|]. split.
        * proj. cbn [inc stage_fun] in *. rewrite EX, chunks_full by auto. rewrite B3, K2, chunks_decomp by auto. now rewrite map_app.
        * proj. exists (cs ++ [part l ++ [v]]). auto.
      + split; proj; auto. rewrite Hj. split; [auto|]. split; [auto|].
        assert (EX : outs cin ++ [v] = concat cs ++ (part l ++ [v])) by (rewrite K2, <- app_assoc; reflexivity).
        assert (LP : length (part l ++ [v]) < m) by (rewrite app_length; simpl; lia).
        split; [cbn [inc stage_fun] in *; rewrite EX, chunks_decomp by auto; rewrite B3, K2, chunks_decomp by auto; reflexivity|].
        exists cs. proj. auto.
    - cbn [on_item cntok] in *. split; proj; auto. rewrite Hj. split; [auto|]. split; [auto|]. split; [auto|]. cbn [cntok]. proj. rewrite B4, fold_left_app. reflexivity.
    - pose proof (SIf_j k f l cin cout j HS (or_introl Hj)) as Jk. destruct HS as (A1&A2&A3&(lost&A4&A4')&A5&A6&A7).
      unfold SIf. cbn [on_item]. proj. split; [auto|].
      split; [intros i Hi; rewrite upd_other by lia; auto|].
      assert (DR : drained cin -> drained (mkCh V r (clo cin) (ins cin) (outs cin ++ [v]) (byc cin) (fin cin))) by (intros H; contradiction).
      split; [intros i Hi; unfold upd; destruct (Nat.eqb_spec i j); [exact I|]; specialize (A3 i Hi); destruct (cts l i); auto; intuition|].
      split.
      { exists lost. split; auto. rewrite map_app. simpl. rewrite <- A4.
        pose proof (pend_upd l k j (CPush (f v)) Jk) as P. unfold set_ct in P. rewrite Hj in P. simpl in P. rewrite app_nil_r in P. rewrite P.
        rewrite <- !app_assoc. apply Permutation_app_head. apply Permutation_app_head. apply Permutation_app_comm. }
      split; [auto|]. split; [|now rewrite upd_other by lia; destruct (cts l 0); auto; destruct A7 as [A7 A8]; split; auto; rewrite A8 in Hj by lia; discriminate].
      intros Hf. exfalso. destruct (A6 Hf) as [[K|[K|[f' K]]] _]; [contradiction|contradiction|]. injection K as -> _. lia.
  Qed.

  Lemma pre_inc : forall st xs, pre st xs (inc st xs).
  Proof. intros. exists []. now rewrite app_nil_r. Qed.
  Lemma pre_cut : forall st xs ys v, ys ++ [v] = inc st xs -> pre st xs ys.
  Proof. intros st xs ys v H. exists [v]. now symmetry. Qed.
  Lemma inc_rel : forall st xs, is_fork st = false -> (forall f i, st <> SReduce f i) -> stage_rel st xs (inc st xs).
  Proof. intros [f|p|m|m|m f|f i|k f] xs H1 H2; try reflexivity; [now destruct (H2 f i)|discriminate]. Qed.

  (** A stage finds its input closed and empty. *)
  Lemma eof_SI : forall st l j cin cout, CI cin -> SI st l cin cout -> cts l j = CPop -> buf cin = [] -> clo cin = true ->
    SI st (on_eof V st l j) cin cout.
  Proof.
    intros st l j cin cout (HC1&HC2&HC3&HC4) HS Hj Hb Hc.
    assert (DR : byc cin = false -> drained cin) by (intros H; split; auto; destruct (HC2 Hc); congruence).
    destruct st as [f|p|m|m|m f|f i|k f]; cbn [SI] in *.
    1-6: destruct HS as [H0 HS]; assert (j = 0) by (destruct (Nat.eq_dec j 0); auto; rewrite H0 in Hj by auto; discriminate);
         subst j; rewrite Hj in HS; destruct HS as (B1&B2&B3&B4); specialize (DR B1).
    1,2,3,5: cbn [on_eof]; split; proj; [intros; rewrite upd_other; auto|]; rewrite upd_same; split; [auto|]; split; [auto|]; (split; [|auto]);
         right; split; [now left|]; rewrite B3; apply inc_rel; [reflexivity|discriminate].
    - cbn [on_eof]. destruct (Nat.ltb_spec (cnt l) m).
      + split; proj; auto. rewrite Hj. split; [auto|]. split; [auto|]. split; [auto|]. right. proj. auto.
      + split; proj; [intros; rewrite upd_other; auto|]; rewrite upd_same; split; [auto|]; split; [auto|]; (split; [|auto]);
        right; split; [now left|]; rewrite B3; apply inc_rel; [reflexivity|discriminate].
    - cbn [on_eof cntok] in *. rewrite B4. split; proj; [intros; rewrite upd_other; auto|]. rewrite upd_same.
      split; [auto|]. split; [auto|]. split; auto.
    - pose proof (SIf_j k f l cin cout j HS (or_introl Hj)) as Jk. destruct HS as (A1&A2&A3&(lost&A4&A4')&A5&A6&A7).
      specialize (DR A1). unfold SIf. cbn [on_eof]. proj. split; [auto|].
      split; [intros i Hi; rewrite upd_other by lia; auto|].
      split; [intros i Hi; unfold upd; destruct (Nat.eqb_spec i j); [now left|apply A3; auto]|].
      split.
      { exists lost. split; auto. rewrite <- A4.
        pose proof (pend_upd l k j CHalt Jk) as P. unfold set_ct in P. rewrite Hj in P. simpl in P. rewrite !app_nil_r in P. now rewrite P. }
      split; [auto|]. split; [auto|]. rewrite upd_other by lia. destruct (cts l 0); auto;
      destruct A7 as [A7 A8]; rewrite A8 in Hj by lia; discriminate.
  Qed.

  (** A push succeeds. *)
  Lemma pushed_SI : forall st l j v cin cout, stage_ok st -> CI cout -> SI st l cin cout -> cts l j = CPush v -> clo cout = false ->
    SI st (on_pushed V st l j) cin (put V cout v).
  Proof.
    intros st l j v cin cout Hst (HC1&HC2&HC3&HC4) HS Hj Hc.
    destruct st as [f|p|m|m|m f|f i|k f]; cbn [SI] in *.
    1-6: destruct HS as [H0 HS]; assert (j = 0) by (destruct (Nat.eq_dec j 0); auto; rewrite H0 in Hj by auto; discriminate);
         subst j; rewrite Hj in HS; destruct HS as (B1&B2&B3&B4).
    1,2: cbn [on_pushed]; split; proj; [intros; rewrite upd_other; auto|]; rewrite upd_same; repeat split; auto.
    - cbn [on_pushed]. split; proj; [intros; rewrite upd_other; auto|]. rewrite upd_same.
      destruct (Nat.ltb_spec (cnt l + 1) m).
      + split; [auto|]. split; [auto|]. split; [auto|]. cbn [cntok]. proj. lia.
      + split; [auto|]. split; [auto|]. split; [|exact I]. right. split; [right; left; cbn; lia|]. proj. rewrite B3. reflexivity.
    - cbn [on_pushed]. split; proj; [intros; rewrite upd_other; auto|]; rewrite upd_same. split; [auto|]. split; [auto|]. split; [auto|].
      right. proj. intuition.
    - cbn [on_pushed]. simpl in Hst. destruct m as [|m]; [lia|].
      split; proj; [intros; rewrite upd_other; auto|]; rewrite upd_same. split; [auto|]. split; [auto|]. split; [auto|].
      destruct B4 as (cs&K1&K2). exists cs. proj. rewrite app_nil_r. split; [auto|]. split; [auto|]. simpl. lia.
    - cbn [on_pushed]. split; proj; [intros; rewrite upd_other; auto|]; rewrite upd_same. split; [auto|]. split; [auto|].
      split; [|exact I]. right. destruct B3 as (K1&K2&K3). split; [now left|]. proj. rewrite K1, K2. reflexivity.
    - pose proof (SIf_j k f l cin cout j HS (or_intror (ex_intro _ v Hj))) as Jk. destruct HS as (A1&A2&A3&(lost&A4&A4')&A5&A6&A7).
      unfold SIf. cbn [on_pushed]. proj. split; [auto|].
      split; [intros i Hi; rewrite upd_other by lia; auto|].
      split; [intros i Hi; unfold upd; destruct (Nat.eqb_spec i j); [exact I|apply A3; auto]|].
      split.
      { exists lost. split; auto. rewrite <- A4. rewrite <- app_assoc. apply Permutation_app_head.
        pose proof (pend_upd l k j CPop Jk) as P. unfold set_ct in P. rewrite Hj in P. simpl in P. rewrite app_nil_r in P. rewrite <- P.
        rewrite (Permutation_app_comm _ [v]). rewrite app_assoc. reflexivity. }
      split; [lia|]. split; [intros Hf; rewrite HC4 in Hc by auto; discriminate|].
      rewrite upd_other by lia. destruct (cts l 0); auto; destruct A7 as [A7 A8]; rewrite A8 in Hj by lia; discriminate.
  Qed.

  (** A push fails: the consumer has closed the channel. *)
  Lemma fail_SI : forall st l j v cin cout, CI cout -> SI st l cin cout -> cts l j = CPush v -> clo cout = true ->
    SI st (on_fail V st l j) cin cout.
  Proof.
    intros st l j v cin cout (HC1&HC2&HC3&HC4) HS Hj Hc.
    assert (BY : fin cout = false -> byc cout = true) by (intros K; destruct (HC2 Hc); congruence).
    destruct st as [f|p|m|m|m f|f i|k f]; cbn [SI] in *.
    1-6: destruct HS as [H0 HS]; assert (j = 0) by (destruct (Nat.eq_dec j 0); auto; rewrite H0 in Hj by auto; discriminate);
         subst j; rewrite Hj in HS; destruct HS as (B1&B2&B3&B4); cbn [on_fail];
         (split; proj; [intros; rewrite upd_other; auto|]); rewrite upd_same; (split; [auto|]); (split; [auto|]); try (split; [|exact I]); left;
         (split; [auto|]); (split; [auto|]); try (eapply pre_cut; exact B3).
    - destruct B3 as (K1&_). exists []. now rewrite K1.
    - pose proof (SIf_j k f l cin cout j HS (or_intror (ex_intro _ v Hj))) as Jk. destruct HS as (A1&A2&A3&(lost&A4&A4')&A5&A6&A7).
      assert (F : fin cout = false).
      { destruct (cts l 0); try contradiction; try tauto. destruct A7 as [_ A8]. rewrite A8 in Hj by lia. discriminate. }
      unfold SIf. cbn [on_fail]. proj. split; [auto|].
      split; [intros i Hi; rewrite upd_other by lia; auto|].
      split; [intros i Hi; unfold upd; destruct (Nat.eqb_spec i j); [right; auto|apply A3; auto]|].
      split.
      { exists (v :: lost). split; auto. rewrite <- A4. apply Permutation_app_head.
        pose proof (pend_upd l k j CHalt Jk) as P. unfold set_ct in P. rewrite Hj in P. simpl in P. rewrite app_nil_r in P. rewrite <- P.
        rewrite <- app_assoc. reflexivity. }
      split; [auto|]. split; [auto|]. rewrite upd_other by lia. destruct (cts l 0); auto;
      destruct A7 as [A7 A8]; rewrite A8 in Hj by lia; discriminate.
  Qed.

  Lemma pend_nil : forall l k, (forall j, 1 <= j <= k -> cts l j = CHalt) -> pend l k = [].
  Proof.
    intros l k H. unfold pend. assert (E : forall L, (forall j, In j L -> 1 <= j <= k) -> flat_map (fun j => match cts l j with CPush v => [v] | _ => [] end) L = []).
    { induction L as [|j L IH]; intros HL; simpl; auto. rewrite IH by (intros; apply HL; now right). now rewrite (H j (HL j (or_introl eq_refl))). }
    apply E. intros j Hj. apply in_seq in Hj. lia.
  Qed.

  (** A stage closes its output. *)
  Lemma closeout_SI : forall st l j cin cout, CI cout -> SI st l cin cout -> cts l j = CCloseOut ->
    CI cin -> SI st (set_ct V l j (after_close V st)) cin (close_p V cout).
  Proof.
    intros st l j cin cout (HC1&HC2&HC3&HC4) HS Hj (_&_&_&HD).
    assert (Hg : drained cin -> clo cin = true) by (intros [K _]; auto).
    assert (EN : ended st cin cout -> ended st cin (close_p V cout)).
    { intros [(K1&K2&K3)|[K1 K2]].
      - left. proj. rewrite K1, K2. auto.
      - right. split; auto. }
    destruct st as [f|p|m|m|m f|f i|k f]; cbn [SI] in *.
    1-6: destruct HS as [H0 HS]; assert (j = 0) by (destruct (Nat.eq_dec j 0); auto; rewrite H0 in Hj by auto; discriminate);
         subst j; rewrite Hj in HS; destruct HS as (B1&B2&B3&B4); cbn [after_close];
         (split; proj; [intros; rewrite upd_other; auto|]); rewrite upd_same; repeat (split; [solve [auto]|]); auto.
    assert (j = 0).
    { destruct j; auto. destruct HS as (A1&A2&A3&_). destruct (Nat.le_gt_cases (S j) k) as [K|K].
      - assert (L : 1 <= S j <= k) by lia. specialize (A3 _ L). rewrite Hj in A3. contradiction.
      - rewrite A2 in Hj by auto. discriminate. }
    subst j. destruct HS as (A1&A2&A3&(lost&A4&A4')&A5&A6&A7). rewrite Hj in A7. destruct A7 as [A7 A8].
    unfold SIf. change (after_close V (SFork k f)) with (@CHalt V). proj.
    split; [auto|]. split; [intros i Hi; rewrite upd_other by lia; auto|].
    split; [intros i Hi; rewrite upd_other by lia; auto; apply A3; auto|].
    assert (EP : pend (set_ct V l 0 CHalt) k = []).
    { apply pend_nil. intros i Hi. proj. rewrite upd_other by lia. auto. }
    split; [exists lost; rewrite EP; rewrite (pend_nil l k A8) in A4; auto|]. split; [auto|].
    split.
    { rewrite A7. simpl. intros Hb. destruct (byc cout) eqn:B; [discriminate|]. destruct A4' as [->|?]; [|discriminate].
      rewrite (pend_nil l k A8), !app_nil_r in A4. destruct k as [|k].
      - split; [right; right; eauto|]. proj. simpl. auto.
      - split; [|exact A4]. left. assert (L : 1 <= 1 <= S k) by lia. pose proof (A3 1 L) as K. rewrite (A8 1 L) in K. destruct K as [K|K]; [exact K|congruence]. }
    rewrite upd_same. simpl. split; [reflexivity|]. intros i Hi. rewrite upd_other by lia. auto.
  Qed.

  (** A stage closes its input. *)
  Lemma closein_SI : forall st l j cin cout, SI st l cin cout -> cts l j = CCloseIn ->
    SI st (set_ct V l j CHalt) (close_c V cin) cout.
  Proof.
    intros st l j cin cout HS Hj.
    assert (EN : ended st cin cout -> ended st (close_c V cin) cout).
    { intros [(K1&K2&K3)|[K1 K2]]; [left; auto|right; split; auto]. }
    destruct st as [f|p|m|m|m f|f i|k f]; cbn [SI] in *.
    1-6: destruct HS as [H0 HS]; assert (j = 0) by (destruct (Nat.eq_dec j 0); auto; rewrite H0 in Hj by auto; discriminate);
         subst j; rewrite Hj in HS; destruct HS as (B1&B2&B3);
         (split; proj; [intros; rewrite upd_other; auto|]); rewrite upd_same; repeat (split; [solve [auto]|]); auto.
    exfalso. destruct HS as (A1&A2&A3&_&_&_&A7). destruct j as [|j]; [now rewrite Hj in A7|].
    destruct (Nat.le_gt_cases (S j) k) as [K|K].
    - assert (L : 1 <= S j <= k) by lia. specialize (A3 _ L). now rewrite Hj in A3.
    - rewrite A2 in Hj by auto. discriminate.
  Qed.

  (** A fork's main coroutine has joined its workers. *)
  Lemma join_SI : forall st l j cin cout, SI st l cin cout -> cts l j = CJoin -> joined V st l = true ->
    SI st (set_ct V l j CCloseOut) cin cout.
  Proof.
    intros st l j cin cout HS Hj HJ. destruct st as [f|p|m|m|m f|f i|k f]; try discriminate. cbn [SI] in *.
    assert (j = 0).
    { destruct j; auto. destruct HS as (A1&A2&A3&_). destruct (Nat.le_gt_cases (S j) k) as [K|K].
      - assert (L : 1 <= S j <= k) by lia. specialize (A3 _ L). rewrite Hj in A3. contradiction.
      - rewrite A2 in Hj by auto. discriminate. }
    subst j. assert (A8 : forall j, 1 <= j <= k -> cts l j = CHalt).
    { intros j L. cbn [joined] in HJ. rewrite forallb_forall in HJ. assert (I : In j (seq 1 k)) by (apply in_seq; lia).
      specialize (HJ j I). destruct (cts l j); congruence. }
    destruct HS as (A1&A2&A3&(lost&A4&A4')&A5&A6&A7). rewrite Hj in A7.
    unfold SIf. proj. split; [auto|]. split; [intros i Hi; rewrite upd_other by lia; auto|].
    split; [intros i Hi; rewrite upd_other by lia; auto; apply A3; auto|].
    assert (EP : pend (set_ct V l 0 CCloseOut) k = []).
    { apply pend_nil. intros i Hi. proj. rewrite upd_other by lia. auto. }
    split; [exists lost; rewrite EP; rewrite (pend_nil l k A8) in A4; auto|]. split; [auto|]. split; [auto|].
    rewrite upd_same. split; auto. intros i Hi. rewrite upd_other by lia. auto.
  Qed.

  Lemma src_gen : forall s l' c s', Inv s -> pop_ok (chs s 0) c -> CI c -> SI0 l' c ->
    (forall i, chs s' i = if i =? 0 then c else chs s i) ->
    stg s' = upd (stg s) 0 l' -> got s' = got s -> rend s' = rend s -> rcl s' = rcl s -> Inv s'.
  Proof.
    intros s l' c s' [V1 V2 V3 V4 V5 V6] P C HS Hc Hs Hg Hr Hrc.
    assert (Hn : pop_ok (chs s n) (chs s' n)).
    { rewrite Hc. destruct (Nat.eqb_spec n 0) as [->|]; auto using pop_refl. }
    split.
    - intros i. rewrite Hc. destruct (i =? 0); auto.
    - now rewrite Hs, upd_same, Hc.
    - intros k st E. rewrite Hs, upd_other by lia. apply (SI_frame _ _ (chs s k) (chs s (S k))); auto; rewrite Hc; simpl.
      + destruct (Nat.eqb_spec k 0) as [->|]; auto using pop_refl.
      + apply cop_refl.
    - destruct Hn as (H1&_). congruence.
    - destruct Hn as (_&H2&_). congruence.
    - rewrite Hr. intros Hend. destruct (V6 Hend) as [A B]. destruct Hn as (_&_&_&H4&H5). auto.
  Qed.

  Lemma same_upd : forall (f : nat -> chan) i, f i = if i =? 0 then f 0 else f i.
  Proof. intros f i. now destruct (Nat.eqb_spec i 0) as [->|]. Qed.

  Lemma inv_src : forall s s', Inv s -> step_src V gen sz s = Some s' -> Inv s'.
  Proof.
    intros s s' HI Hs. unfold step_src in Hs. pose proof (v_src s HI) as (A1&A2&A3&A4&A5).
    pose proof (v_ch s HI 0) as HC. pose proof HC as (C1&C2&C3&C4).
    assert (U : forall c j, j <> 0 -> upd (cts (stg s 0)) 0 c j = CHalt) by (intros; rewrite upd_other; auto).
    destruct (cts (stg s 0) 0) eqn:E; try discriminate.
    - destruct (gen (cnt (stg s 0))) eqn:G; injection Hs as <-;
      (eapply (src_gen s _ (chs s 0)); try reflexivity; auto using pop_refl; [|intros; apply same_upd]);
      unfold SI0; proj; rewrite upd_same; repeat split; auto.
    - destruct A5 as [A5 A6]. destruct (clo (chs s 0)) eqn:Cl.
      + injection Hs as <-. eapply (src_gen s _ (chs s 0)); try reflexivity; auto using pop_refl; [|intros; apply same_upd].
        unfold SI0; proj; rewrite upd_same; repeat split; auto. left. destruct (C2 eq_refl); congruence.
      + destruct (room V sz (chs s 0)) eqn:R; try discriminate. injection Hs as <-.
        eapply (src_gen s _ (put V (chs s 0) v)); try reflexivity; auto using pop_put, CI_put.
        unfold SI0. proj. rewrite upd_same. split; [auto|]. split; [rewrite app_length; simpl; lia|]. split; [|split].
        * intros j Hj. destruct (Nat.eq_dec j (cnt (stg s 0))) as [->|Hne].
          { rewrite nth_error_app2 by lia. rewrite A2, Nat.sub_diag. exact A6. }
          { rewrite nth_error_app1 by lia. apply A3. lia. }
        * intros j Hj. destruct (Nat.eq_dec j (cnt (stg s 0))) as [->|Hne]; [congruence|apply A4; lia].
        * destruct sz eqn:Z; auto.
    - destruct A5 as [A5 A6]. destruct (clo (chs s 0)) eqn:Cl; [|destruct (buf (chs s 0)) eqn:B; try discriminate];
      injection Hs as <-; (eapply (src_gen s _ (chs s 0)); try reflexivity; auto using pop_refl; [|intros; apply same_upd]);
      unfold SI0; proj; rewrite upd_same; repeat split; auto.
    - destruct A5 as [A5 A6]. injection Hs as <-.
      eapply (src_gen s _ (close_p V (chs s 0))); try reflexivity; auto using pop_close, CI_closep.
      unfold SI0. proj. rewrite upd_same. repeat split; auto. rewrite A5. simpl. destruct (byc (chs s 0)); [discriminate|].
      intros _. destruct A6; congruence.
  Qed.

  Lemma two_upd : forall (f : nat -> chan) k i, f i = if i =? S k then f (S k) else if i =? k then f k else f i.
  Proof. intros f k i. destruct (Nat.eqb_spec i (S k)) as [->|]; auto. now destruct (Nat.eqb_spec i k) as [->|]. Qed.
  Lemma in_upd : forall (f : nat -> chan) c k i, upd f k c i = if i =? S k then f (S k) else if i =? k then c else f i.
  Proof. intros f c k i. unfold upd. destruct (Nat.eqb_spec i (S k)) as [->|]; auto. destruct (Nat.eqb_spec (S k) k); [lia|auto]. Qed.
  Lemma out_upd : forall (f : nat -> chan) c k i, upd f (S k) c i = if i =? S k then c else if i =? k then f k else f i.
  Proof. intros f c k i. unfold upd. destruct (Nat.eqb_spec i (S k)) as [->|]; auto. now destruct (Nat.eqb_spec i k) as [->|]. Qed.

  Lemma inv_stage : forall s k j s', Inv s -> step_stage V sts s k j = Some s' -> Inv s'.
  Proof.
    intros s k j s' HI Hs. unfold step_stage in Hs. destruct (nth_error sts k) as [st|] eqn:E; try discriminate.
    pose proof (v_st s HI k st E) as HS. pose proof (v_ch s HI k) as C1. pose proof (v_ch s HI (S k)) as C2.
    pose proof (nth_ok k st E) as Ok.
    destruct (cts (stg s (S k)) j) eqn:Ej; try discriminate.
    - destruct (buf (chs s k)) as [|v r] eqn:B.
      + destruct (clo (chs s k)) eqn:Cl; try discriminate. injection Hs as <-.
        eapply (stage_gen s k st _ (chs s k) (chs s (S k))); try reflexivity; auto using pop_refl, cop_refl; [|intros; apply two_upd].
        apply eof_SI; auto.
      + injection Hs as <-.
        eapply (stage_gen s k st _ (drop1 V (chs s k) v r) (chs s (S k))); try reflexivity; auto using pop_refl, cop_drop, CI_drop; [|intros; apply in_upd].
        apply item_SI; auto.
    - destruct (clo (chs s (S k))) eqn:Cl; injection Hs as <-.
      + eapply (stage_gen s k st _ (chs s k) (chs s (S k))); try reflexivity; auto using pop_refl, cop_refl; [|intros; apply two_upd].
        eapply fail_SI; eauto.
      + eapply (stage_gen s k st _ (chs s k) (put V (chs s (S k)) v)); try reflexivity; auto using pop_put, cop_refl, CI_put; [|intros; apply out_upd].
        apply pushed_SI; auto.
    - destruct (joined V st (stg s (S k))) eqn:J; try discriminate. injection Hs as <-.
      eapply (stage_gen s k st _ (chs s k) (chs s (S k))); try reflexivity; auto using pop_refl, cop_refl; [|intros; apply two_upd].
      apply join_SI; auto.
    - injection Hs as <-.
      eapply (stage_gen s k st _ (chs s k) (close_p V (chs s (S k)))); try reflexivity; auto using pop_close, cop_refl, CI_closep; [|intros; apply out_upd].
      apply closeout_SI; auto.
    - injection Hs as <-.
      eapply (stage_gen s k st _ (close_c V (chs s k)) (chs s (S k))); try reflexivity; auto using pop_refl, cop_close, CI_closec; [|intros; apply in_upd].
      apply closein_SI; auto.
  Qed.

  (** The reader acts on the last channel. *)
  Lemma read_gen : forall s c s', Inv s -> cop_ok (chs s n) c -> CI c -> chs s' = upd (chs s) n c -> stg s' = stg s ->
    got s' = outs c -> rcl s' = byc c -> (rend s' = true -> clo c = true /\ buf c = []) -> Inv s'.
  Proof.
    intros s c s' [V1 V2 V3 V4 V5 V6] Q C Hc Hs Hg Hrc Hr. split.
    - intros i. rewrite Hc. unfold upd. destruct (i =? n); auto.
    - rewrite Hs, Hc. unfold upd. destruct (Nat.eqb_spec 0 n) as [N|]; auto. rewrite <- N in Q. eapply SI0_frame; eauto.
    - intros k st E. rewrite Hs. assert (k < n) by (apply nth_error_Some; congruence).
      rewrite Hc. apply (SI_frame _ _ (chs s k) (chs s (S k))); auto.
      + rewrite upd_other by lia. apply pop_refl.
      + unfold upd. destruct (Nat.eqb_spec (S k) n) as [->|]; auto using cop_refl.
    - now rewrite Hc, upd_same.
    - now rewrite Hc, upd_same.
    - now rewrite Hc, upd_same.
  Qed.

  Lemma inv_step : forall s a s', Inv s -> pstep s a = Some s' -> Inv s'.
  Proof.
    intros s a s' HI Hs. destruct a as [|k j| |]; simpl in Hs.
    - eapply inv_src; eauto.
    - eapply inv_stage; eauto.
    - destruct (rend s) eqn:R; try discriminate. unfold last_ch in Hs. fold n in Hs.
      pose proof (v_ch s HI n) as C. destruct (buf (chs s n)) as [|v r] eqn:B.
      + destruct (clo (chs s n)) eqn:Cl; try discriminate. injection Hs as <-. destruct HI as [V1 V2 V3 V4 V5 V6].
        split; auto.
      + injection Hs as <-. eapply (read_gen s (drop1 V (chs s n) v r)); try reflexivity; auto using cop_drop, CI_drop; proj.
        * now rewrite (v_got s HI).
        * now rewrite (v_rcl s HI).
        * discriminate.
    - destruct (rcl s) eqn:R; try discriminate. injection Hs as <-. unfold last_ch. fold n.
      eapply (read_gen s (close_c V (chs s n))); try reflexivity; auto using cop_close, CI_closec, (v_ch s HI n); proj.
      + now rewrite (v_got s HI).
      + intros K. destruct (v_end s HI K). auto.
  Qed.

  Lemma pipe_inv : forall ls s, run pstep pinit ls = Some s -> Inv s.
  Proof. intros ls s. apply run_inv; [apply inv_init|apply inv_step]. Qed.

  (** ** What arrives *)
  Lemma pipe_rel_snoc : forall l st (xs ys : list V), pipe_rel (l ++ [st]) xs ys <-> exists m, pipe_rel l xs m /\ stage_rel st m ys.
  Proof.
    induction l as [|a l IH]; intros st xs ys; simpl.
    - split.
      + intros (m&H&->). exists xs. auto.
      + intros (m&->&H). exists ys. auto.
    - split.
      + intros (m&H1&H2). apply IH in H2. destruct H2 as (m'&H2&H3). exists m'. split; auto. exists m. auto.
      + intros (m'&(m&H1&H2)&H3). exists m. split; auto. apply IH. exists m'. auto.
  Qed.
  Lemma firstn_snoc : forall A (l : list A) k x, nth_error l k = Some x -> firstn (S k) l = firstn k l ++ [x].
  Proof.
    induction l as [|a l IH]; intros [|k] x E; try discriminate; simpl in *; [now injection E as ->|].
    f_equal. now apply IH.
  Qed.

  (** The part of the output determined by the part of the input seen so far. *)
  Lemma inc_mono : forall st xs r, stage_ok st -> is_fork st = false -> (forall f i, st <> SReduce f i) ->
    exists r', stage_rel st (xs ++ r) (inc st xs ++ r').
  Proof.
    intros [f|p|m|m|m f|f i|k f] xs r Ok H1 H2; try discriminate; try (now destruct (H2 f i)); cbn.
    - eexists. symmetry. apply map_app.
    - eexists. symmetry. apply filter_app.
    - eexists. symmetry. apply firstn_app.
    - eexists. symmetry. apply skipn_app.
    - destruct (chunks_app V m xs r Ok) as [r' E]. rewrite E. exists (map f r'). now rewrite map_app.
  Qed.

  Definition Full (src : list V) (k : nat) (ys : list V) : Prop := pipe_rel (firstn k sts) src ys.
  Definition Pre (src : list V) (k : nat) (ys : list V) : Prop := exists r, Full src k (ys ++ r).

  Lemma stage_pre : forall src k st l cin cout, nth_error sts k = Some st -> CI cin ->
    SI st l cin cout -> Pre src k (ins cin) -> (fin cin = true -> Full src k (ins cin)) ->
    Pre src (S k) (ins cout) /\ (fin cout = true -> Full src (S k) (ins cout)).
  Proof.
    intros src k st l cin cout E (C1&_) HS [r0 HP] HF. pose proof (nth_ok k st E) as Ok.
    unfold Pre, Full. rewrite (firstn_snoc _ _ _ _ E).
    rewrite C1, <- app_assoc in HP. set (rr := buf cin ++ r0) in *.
    assert (DF : drained cin -> pipe_rel (firstn k sts) src (outs cin)).
    { intros [D1 D2]. specialize (HF D1). unfold Full in HF. rewrite C1, D2, app_nil_r in HF. exact HF. }
    assert (K1 : forall ys, is_fork st = false -> (forall f i, st <> SReduce f i) -> pre st (outs cin) ys ->
                 exists r, pipe_rel (firstn k sts ++ [st]) src (ys ++ r)).
    { intros ys H1 H2 [q H3]. destruct (inc_mono st (outs cin) rr Ok H1 H2) as [r' H4]. exists (q ++ r').
      apply pipe_rel_snoc. exists ((outs cin) ++ rr). split; auto. now rewrite app_assoc, <- H3. }
    assert (K2 : comp st cin cout -> pipe_rel (firstn k sts ++ [st]) src (ins cout)).
    { intros [[D|[D|[f D]]] R]; apply pipe_rel_snoc.
      - exists (outs cin). auto.
      - destruct st; try contradiction. exists ((outs cin) ++ rr). split; auto. cbn in *. rewrite R, firstn_app, D, Nat.sub_diag. simpl. now rewrite app_nil_r.
      - subst st. exists ((outs cin) ++ rr). split; auto. }
    assert (K3 : comp st cin cout -> exists r, pipe_rel (firstn k sts ++ [st]) src (ins cout ++ r)).
    { intros D. exists []. rewrite app_nil_r. auto. }
    assert (KR : forall f i, st = SReduce f i -> ins cout = [] -> exists r, pipe_rel (firstn k sts ++ [st]) src (ins cout ++ r)).
    { intros f i -> ->. exists [fold_left f ((outs cin) ++ rr) i]. apply pipe_rel_snoc. exists ((outs cin) ++ rr). split; auto. reflexivity. }
    assert (KI : SIn st l cin cout -> is_fork st = false ->
      (exists r, pipe_rel (firstn k sts ++ [st]) src (ins cout ++ r)) /\ (fin cout = true -> pipe_rel (firstn k sts ++ [st]) src (ins cout))).
    { intros [H0 H] Hfk.
      assert (KP : pre st (outs cin) (ins cout) -> exists r, pipe_rel (firstn k sts ++ [st]) src (ins cout ++ r)).
      { intros P. destruct st; try (apply K1; auto; discriminate). apply (KR f i); auto.
        destruct P as [q P]. cbn in P. now destruct (ins cout). }
      assert (KE : ended st cin cout -> (exists r, pipe_rel (firstn k sts ++ [st]) src (ins cout ++ r)) /\ (fin cout = true -> pipe_rel (firstn k sts ++ [st]) src (ins cout))).
      { intros [(H1&H2&H3)|D]; split; auto. congruence. }
      destruct (cts l 0); try contradiction.
      - destruct H as (H1&H2&H3&H4). split; [|congruence]. apply KP. rewrite H3. apply pre_inc.
      - destruct H as (H1&H2&[H3 H4]). split; [|congruence].
        destruct st; try (apply KP; eapply pre_cut; exact H3). apply (KR f i); tauto.
      - apply KE; tauto.
      - apply KE; tauto.
      - apply KE; tauto. }
    destruct st as [f|p|m|m|m f|f i|w f]; try (apply KI; auto; fail). clear KI K1 KR.
    cbn [SI] in HS. destruct HS as (A1&A2&A3&(lost&A4&A4')&A5&A6&A7). split; [|auto].
    destruct w as [|w].
    - rewrite A5 by auto. exists []. apply pipe_rel_snoc. exists ((outs cin) ++ rr). split; auto. reflexivity.
    - exists (pend l (S w) ++ lost ++ map f rr). apply pipe_rel_snoc. exists ((outs cin) ++ rr). split; auto. cbn [stage_rel].
   rewrite map_app, <- A4, <- !app_assoc. reflexivity.
  Qed.

  Lemma list_ext : forall A (l m : list A), length l = length m -> (forall j, j < length l -> nth_error l j = nth_error m j) -> l = m.
  Proof.
    induction l as [|a l IH]; intros [|b m] HL H; try discriminate; auto.
    f_equal; [specialize (H 0); simpl in H; assert (Some a = Some b) by (apply H; lia); congruence|].
    apply IH; [simpl in HL; lia|]. intros j Hj. apply (H (S j)). simpl. lia.
  Qed.
  Lemma nth_firstn : forall A (l : list A) q j, j < q -> nth_error (firstn q l) j = nth_error l j.
  Proof. induction l as [|a l IH]; intros [|q] [|j] H; try lia; auto. simpl. apply IH. lia. Qed.

  Lemma all_pre : forall src s, (forall i, gen i = nth_error src i) -> Inv s -> forall k, k <= n ->
    Pre src k (ins (chs s k)) /\ (fin (chs s k) = true -> Full src k (ins (chs s k))).
  Proof.
    intros src s Hg HI k. induction k as [|k IH]; intros Hk.
    - pose proof (v_src s HI) as (A1&A2&A3&A4&A5). unfold Pre, Full. simpl.
      assert (EF : ins (chs s 0) = firstn (cnt (stg s 0)) src).
      { apply list_ext; [rewrite firstn_length_le; auto|].
        - destruct (cnt (stg s 0)) as [|q] eqn:Q; [lia|]. assert (q < length src); [|lia].
          apply nth_error_Some. rewrite <- Hg. apply A4. lia.
        - intros j Hj. rewrite A2 in Hj. rewrite <- A3, Hg, nth_firstn by auto. reflexivity. }
      split.
      + exists (skipn (cnt (stg s 0)) src). rewrite EF. apply firstn_skipn.
      + intros F. rewrite EF. apply firstn_all2. apply nth_error_None. rewrite <- Hg.
        destruct (cts (stg s 0) 0); try contradiction; try congruence; destruct A5; auto; congruence.
    - destruct (nth_error sts k) as [st|] eqn:E; [|apply nth_error_None in E; unfold n in Hk; lia].
      destruct IH as [I1 I2]; [lia|].
      apply (stage_pre src k st (stg s (S k)) (chs s k)); auto; [apply (v_ch s HI)|apply (v_st s HI k st E)].
  Qed.
End P.
