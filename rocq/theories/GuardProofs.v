(** Proofs about the counter of the guards (GuardModel.v). *)
From Coq Require Import List Arith Bool Lia.
From Verif Require Import Base GuardModel.
Import ListNotations.

(** *** Sums of depths *)
Fixpoint sumf (f : nat -> nat) (n : nat) : nat := match n with 0 => 0 | S n => f n + sumf f n end.
Lemma sumf_ext : forall f g n, (forall c, c < n -> f c = g c) -> sumf f n = sumf g n.
Proof. induction n; simpl; intros H; [reflexivity|]. rewrite H, IHn by (auto with arith). reflexivity. Qed.
Lemma sumf_upd : forall f c x n, c < n -> sumf (upd f c x) n + f c = sumf f n + x.
Proof.
  induction n; intros H; [lia|]. simpl. destruct (Nat.eq_dec c n) as [-> | N].
  - rewrite upd_same. rewrite (sumf_ext (upd f n x) f n); [lia|]. intros c L. apply upd_other. lia.
  - rewrite upd_other by auto. specialize (IHn ltac:(lia)). lia.
Qed.
Lemma sumf_ge : forall f c n, c < n -> f c <= sumf f n.
Proof. induction n; intros H; [lia|]. simpl. destruct (Nat.eq_dec c n) as [-> | N]; [lia|]. specialize (IHn ltac:(lia)). lia. Qed.
Lemma sumf_zero : forall f n, (forall c, f c = 0) -> sumf f n = 0.
Proof. induction n; intros H; simpl; [reflexivity|]. now rewrite H, IHn. Qed.
Lemma sumf_more : forall f n m, n <= m -> (forall c, n <= c -> f c = 0) -> sumf f m = sumf f n.
Proof. induction m; intros L H; [now replace n with 0 by lia|]. destruct (Nat.eq_dec n (S m)) as [-> | N]; [reflexivity|].
  simpl. rewrite H by lia. apply IHm; [lia|assumption]. Qed.
(** The counter is the sum of what the coroutines and the other threads have added. *)
Definition sums (f : nat -> nat) (v : nat) : Prop := exists n, (forall c, n <= c -> f c = 0) /\ v = sumf f n.
Lemma sums_ge : forall f v c, sums f v -> f c <= v.
Proof.
  intros f v c (n & Z & ->). destruct (le_lt_dec n c) as [L|L]; [rewrite Z by assumption; lia|]. now apply sumf_ge.
Qed.
Lemma sums_zero : forall f v, sums f v -> (forall c, f c = 0) -> v = 0.
Proof. intros f v (n & _ & ->) H. now apply sumf_zero. Qed.
Lemma sums_upd : forall f v c x v', sums f v -> v' + f c = v + x -> sums (upd f c x) v'.
Proof.
  intros f v c x v' (n & Z & ->) E. exists (Nat.max n (S c)). split.
  - intros d L. rewrite upd_other by lia. apply Z. lia.
  - rewrite <- (sumf_more f n (Nat.max n (S c))) in E by (auto; lia). pose proof (sumf_upd f c x (Nat.max n (S c)) ltac:(lia)). lia.
Qed.
Lemma sums_ext : forall f g v, (forall c, f c = g c) -> sums f v -> sums g v.
Proof. intros f g v E (n & Z & ->). exists n. split; [intros; rewrite <- E; auto|]. apply sumf_ext. auto. Qed.

(** *** Depths *)
Lemma eff_shift : forall p d e k, eff d p = Some e -> eff (d + k) p = Some (e + k).
Proof.
  induction p; intros d e j H; simpl in *; try (injection H as <-; reflexivity).
  - destruct d; [discriminate|]. injection H as <-. reflexivity.
  - destruct (eff d p1) as [x|] eqn:E; [|discriminate]. rewrite (IHp1 _ _ j E). now apply IHp2.
  - destruct (eff d p1) as [x|] eqn:E1; [|discriminate]. destruct (eff d p2) as [y|] eqn:E2; [|discriminate].
    destruct (Nat.eqb_spec x y) as [-> |]; [|discriminate]. injection H as <-.
    rewrite (IHp1 _ _ j E1), (IHp2 _ _ j E2), Nat.eqb_refl. reflexivity.
  - destruct (eff d p) as [x|] eqn:E; [|discriminate]. destruct (Nat.eqb_spec x d) as [-> |]; [|discriminate]. injection H as <-.
    rewrite (IHp _ _ j E), Nat.eqb_refl. reflexivity.
Qed.
Lemma code_eff0 : forall f, eff 0 (code f) = Some 0.
Proof. intros [ | | | | | | | | | [] | [] | [] | [] | [] | [] | [] | [] | | | | | | | | | | | | | | | | | | | | | | ]; vm_compute; reflexivity. Qed.
Lemma code_eff : forall f d, eff d (code f) = Some d.
Proof. intros f d. exact (eff_shift _ _ _ d (code_eff0 f)). Qed.

(** The depth at the end of a stack of calls. *)
Fixpoint effs (d : nat) (l : list prog) : option nat :=
  match l with [] => Some d | p :: r => match eff d p with Some d' => effs d' r | None => None end end.

Record gi (s : gst) : Prop := {
  gi_eff : forall c, ended s c = false -> effs (dep s c) (stk s c) = Some 0;
  gi_end : forall c, ended s c = true -> dep s c = 1;
  gi_sum : sums (dep s) (cnt s - out s) /\ out s <= cnt s;
  gi_cur : ended s (cur s) = false
}.
Lemma gi_init : gi ginit.
Proof.
  split; simpl; try discriminate; try reflexivity.
  - intros c _. unfold upd. destruct (Nat.eqb_spec c 0); [vm_compute|]; reflexivity.
  - split; [|lia]. exists 0. split; reflexivity.
Qed.

Lemma gi_goon : forall s r, gi s -> effs (dep s (cur s)) r = Some 0 -> gi (goon s r).
Proof.
  intros s r [A B C D] H. split; simpl; auto. intros c E. unfold upd. destruct (Nat.eqb_spec c (cur s)) as [-> |]; auto.
Qed.
Lemma gi_goto : forall s n s', gi s -> goto s n = Some s' -> gi s'.
Proof.
  intros s n s' [A B C D] H. unfold goto in H. destruct (ended s n) eqn:E; [discriminate|]. injection H as <-.
  split; simpl; auto.
Qed.

Lemma gop_gi : forall s p r x, gi s -> stk s (cur s) = p :: r -> gop s p r = Some x -> exists s', x = GOk s' /\ gi s'.
Proof.
  intros s p r x I Q H. pose proof (gi_eff s I (cur s) (gi_cur s I)) as F. rewrite Q in F. cbn [effs] in F.
  destruct p; simpl in H; try discriminate.
  - injection H as <-. eexists; split; [reflexivity|]. now apply gi_goon.
  - injection H as <-. eexists; split; [reflexivity|]. destruct I as [A B [C C'] D]. split; cbn [cnt out dep stk cur ended].
    + intros c E. unfold upd. destruct (Nat.eqb_spec c (cur s)) as [-> |]; auto.
    + intros c E. unfold upd. destruct (Nat.eqb_spec c (cur s)) as [-> |]; [congruence|auto].
    + split; [|lia]. eapply sums_upd; [exact C|lia].
    + exact D.
  - destruct I as [A B [C C'] D]. cbn [eff] in F. destruct (dep s (cur s)) as [|d] eqn:E; [discriminate|].
    assert (G := sums_ge _ _ (cur s) C). rewrite E in G. destruct (cnt s) as [|n] eqn:K; [lia|].
    injection H as <-. eexists; split; [reflexivity|]. split; cbn [cnt out dep stk cur ended].
    + intros c E'. unfold upd. destruct (Nat.eqb_spec c (cur s)) as [-> |]; auto.
    + intros c E'. unfold upd. destruct (Nat.eqb_spec c (cur s)) as [-> |]; [congruence|auto].
    + split; [|lia]. eapply sums_upd; [exact C|]. rewrite E. lia.
    + exact D.
  - injection H as <-. eexists; split; [reflexivity|]. apply gi_goon; [assumption|]. cbn [effs]. cbn [eff] in F.
    destruct (eff (dep s (cur s)) p1); [exact F|discriminate].
Qed.

Lemma step_gi : forall s l x, gi s -> gstep_res s l = Some x -> exists s', x = GOk s' /\ gi s'.
Proof.
  intros s l x I H. pose proof (gi_eff s I (cur s) (gi_cur s I)) as F.
  destruct l; cbn [gstep_res] in H.
  - destruct (client s); [|discriminate]. injection H as <-. eexists; split; [reflexivity|]. apply gi_goon; [assumption|].
    cbn [effs]. now rewrite code_eff.
  - destruct (stk s (cur s)) as [|[] r] eqn:Q; try discriminate. injection H as <-. eexists; split; [reflexivity|]. now apply gi_goon.
  - destruct (stk s (cur s)) as [|p r] eqn:Q; [discriminate|]. eapply gop_gi; eauto.
  - destruct (stk s (cur s)) as [|[] r] eqn:Q; try discriminate; injection H as <-; (eexists; split; [reflexivity|]); (apply gi_goon; [assumption|]).
    + cbn [effs eff] in F. destruct (eff (dep s (cur s)) p) as [y|] eqn:E1; [|discriminate]. destruct (eff (dep s (cur s)) q) as [z|] eqn:E2; [|discriminate].
      destruct (Nat.eqb_spec y z) as [-> |]; [|discriminate]. destruct b; cbn [effs]; rewrite ?E1, ?E2; exact F.
    + cbn [effs eff] in F. destruct (eff (dep s (cur s)) p) as [y|] eqn:E1; [|discriminate].
      destruct (Nat.eqb_spec y (dep s (cur s))) as [-> |]; [|discriminate]. destruct b; [|exact F].
      cbn [effs eff]. rewrite E1, E1, Nat.eqb_refl. exact F.
  - destruct (stk s (cur s)) as [|[] r] eqn:Q; try discriminate. destruct (kind_eqb k k0); [|discriminate].
    destruct (goto (goon s r) n) as [s'|] eqn:G; [|discriminate]. injection H as <-. eexists; split; [reflexivity|].
    eapply gi_goto; [|exact G]. now apply gi_goon.
  - destruct (cnt s =? 0).
    + destruct (goto s n) as [s'|] eqn:G; [|discriminate]. injection H as <-. eexists; split; [reflexivity|]. eapply gi_goto; eauto.
    + injection H as <-. eauto.
  - injection H as <-. eexists; split; [reflexivity|]. destruct I as [A B [C C'] D]. split; cbn [cnt out dep stk cur ended]; auto. split; [exact C|lia].
  - destruct I as [A B [C C'] D]. destruct (out s) as [|o] eqn:O; [discriminate|]. destruct (cnt s) as [|m] eqn:K; [lia|].
    injection H as <-. eexists; split; [reflexivity|]. split; cbn [cnt out dep stk cur ended]; auto. split; [|lia]. exact C.
  - destruct (stk s (cur s)) as [|] eqn:Q; [|discriminate]. destruct (cur s =? 0); [discriminate|].
    match type of H with option_map _ (goto ?y n) = _ => destruct (goto y n) as [s'|] eqn:G; [|discriminate] end.
    injection H as <-. eexists; split; [reflexivity|]. destruct I as [A B [C C'] D]. cbn [effs] in F. injection F as F.
    assert (J : sums (upd (dep s) (cur s) (S (dep s (cur s)))) (S (cnt s) - out s)) by (eapply sums_upd; [exact C|lia]).
    unfold goto in G; simpl in G. destruct (upd (ended s) (cur s) true n) eqn:E; [discriminate|]. injection G as <-. split; cbn [cnt out dep stk cur ended].
    + intros c. unfold upd. destruct (Nat.eqb_spec c (cur s)) as [-> |]; [discriminate|]. apply A.
    + intros c. unfold upd. destruct (Nat.eqb_spec c (cur s)) as [-> |]; [rewrite F; auto|]. apply B.
    + split; [exact J|lia].
    + exact E.
Qed.
Lemma reach_gi : forall ls s, run gstep ginit ls = Some s -> gi s.
Proof.
  intros ls s. eapply run_inv; [exact gi_init|]. intros s1 l s2 I H. unfold gstep in H.
  destruct (gstep_res s1 l) as [x|] eqn:E; [|discriminate]. destruct (step_gi _ _ _ I E) as (s' & -> & I'). now injection H as <-.
Qed.

(** *** Programs that pass the check *)
Fixpoint oks (g : kind -> bool) (d : nat) (l : list prog) : bool :=
  match l with [] => true | p :: r => ok g d p && match eff d p with Some d' => oks g d' r | None => false end end.

(** What is called and what switches happen. *)
Definition lab_ok (g : kind -> bool) (P : fn -> Prop) (l : glab) : Prop :=
  match l with LCall f => P f | LSw k _ => g k = true | LEnd _ => False | _ => True end.

Record gj (g : kind -> bool) (s : gst) : Prop := {
  gj_ok : forall c, oks g (dep s c) (stk s c) = true;
  gj_dep : forall c, c <> cur s -> dep s c = 0;
  gj_live : forall c, ended s c = false
}.
Lemma gj_init : forall g, g Shr = false -> gj g ginit.
Proof.
  intros g G. split; simpl; auto. intros c. unfold upd. destruct (Nat.eqb_spec c 0); [|reflexivity].
  unfold idle_loop, switch, switch_shared, set_state, sleep_if_need, prepare, remove_detached, guard.
  cbn. rewrite G. cbn. rewrite !orb_true_r. reflexivity.
Qed.
Lemma client_dep : forall g s, gi s -> gj g s -> client s = true -> dep s (cur s) = 0.
Proof.
  intros g s I J C. unfold client in C. apply andb_prop in C as [_ C].
  pose proof (gi_eff s I (cur s) (gi_cur s I)) as F. pose proof (gj_ok g s J (cur s)) as O.
  destruct (stk s (cur s)) as [|[] r]; try discriminate; cbn in F, O.
  - now injection F.
  - apply andb_prop in O as [O _]. now apply Nat.eqb_eq in O.
Qed.
Lemma gj_goon : forall g s r, gj g s -> oks g (dep s (cur s)) r = true -> gj g (goon s r).
Proof. intros g s r [A B C] H. split; simpl; auto. intros c. unfold upd. destruct (Nat.eqb_spec c (cur s)) as [-> |]; auto. Qed.
Lemma gj_goto : forall g s n s', gj g s -> dep s (cur s) = 0 -> goto s n = Some s' -> gj g s'.
Proof.
  intros g s n s' [A B C] Z H. unfold goto in H. destruct (ended s n); [discriminate|]. injection H as <-. split; simpl; auto.
  intros c _. destruct (Nat.eq_dec c (cur s)) as [-> |]; auto.
Qed.
Lemma step_gj : forall g (P : fn -> Prop) s l s', (forall f, P f -> ok g 0 (code f) = true) -> lab_ok g P l -> gi s -> gj g s ->
  gstep s l = Some s' -> gj g s'.
Proof.
  intros g P s l s' HP L I J H. unfold gstep in H. pose proof (gj_ok g s J (cur s)) as O. pose proof (client_dep g s I J) as CD.
  pose proof (gi_eff s I (cur s) (gi_cur s I)) as F.
  destruct l; cbn [gstep_res lab_ok] in H, L.
  - destruct (client s) eqn:C; [|discriminate]. injection H as <-. apply gj_goon; [assumption|].
    cbn [oks]. rewrite code_eff, O, CD, (HP f L) by reflexivity. reflexivity.
  - destruct (stk s (cur s)) as [|[] r] eqn:Q; try discriminate. injection H as <-. apply gj_goon; [assumption|].
    cbn in O. now apply andb_prop in O as [_ O].
  - destruct (stk s (cur s)) as [|p r] eqn:Q; [discriminate|]. cbn [oks effs] in O, F. apply andb_prop in O as [O1 O2].
    destruct p; simpl in H; try discriminate.
    + injection H as <-. now apply gj_goon.
    + injection H as <-. destruct J as [A B C]. split; simpl; auto.
      * intros c. unfold upd. destruct (Nat.eqb_spec c (cur s)) as [-> |]; auto.
      * intros c N. rewrite upd_other by assumption. auto.
    + destruct (cnt s); [discriminate|]. injection H as <-. destruct J as [A B C]. split; simpl; auto.
      * intros c. unfold upd. destruct (Nat.eqb_spec c (cur s)) as [-> |]; auto. cbn [eff] in O2.
        destruct (dep s (cur s)); [discriminate|exact O2].
      * intros c N. rewrite upd_other by assumption. auto.
    + injection H as <-. apply gj_goon; [assumption|]. cbn [oks]. cbn [ok eff] in O1, O2. apply andb_prop in O1 as [-> O1].
      destruct (eff (dep s (cur s)) p1); [|discriminate]. rewrite O1. exact O2.
  - destruct (stk s (cur s)) as [|[] r] eqn:Q; try discriminate; injection H as <-; (apply gj_goon; [assumption|]);
      cbn [oks effs ok eff] in O, F; apply andb_prop in O as [O1 O2].
    + apply andb_prop in O1 as [Oa Ob]. destruct (eff (dep s (cur s)) p) as [y|] eqn:E1; [|discriminate].
      destruct (eff (dep s (cur s)) q) as [z|] eqn:E2; [|discriminate].
      destruct (Nat.eqb_spec y z) as [-> |]; [|discriminate]. destruct b; cbn [oks]; rewrite ?E1, ?E2, ?Oa, ?Ob; exact O2.
    + destruct (eff (dep s (cur s)) p) as [y|] eqn:E1; [|discriminate].
      destruct (Nat.eqb_spec y (dep s (cur s))) as [-> |]; [|discriminate]. destruct b; [|exact O2].
      cbn [oks ok eff]. rewrite E1, O1, E1, Nat.eqb_refl. exact O2.
  - destruct (stk s (cur s)) as [|[] r] eqn:Q; try discriminate. destruct (kind_eqb k k0) eqn:K; [|discriminate].
    destruct (goto (goon s r) n) as [s1|] eqn:G; [|discriminate]. injection H as <-.
    assert (k = k0) as <- by (destruct k, k0; now try discriminate). cbn [oks ok eff] in O. apply andb_prop in O as [O1 O2].
    rewrite L in O1. cbn in O1. apply Nat.eqb_eq in O1. apply (gj_goto g (goon s r) n s1); [now apply gj_goon|exact O1|exact G].
  - destruct (Nat.eqb_spec (cnt s) 0) as [Z|].
    + destruct (goto s n) as [s1|] eqn:G; [|discriminate]. injection H as <-. eapply gj_goto; eauto.
      destruct (gi_sum s I) as [S1 _]. pose proof (sums_ge _ _ (cur s) S1). lia.
    + now injection H as <-.
  - injection H as <-. destruct J as [A B C]. split; auto.
  - destruct (out s); [discriminate|]. destruct (cnt s); [discriminate|]. injection H as <-. destruct J as [A B C]. split; auto.
  - destruct L.
Qed.
Lemma run_gj : forall g (P : fn -> Prop) ls s, g Shr = false -> (forall f, P f -> ok g 0 (code f) = true) -> Forall (lab_ok g P) ls ->
  run gstep ginit ls = Some s -> gi s /\ gj g s.
Proof.
  intros g P ls s G HP. assert (H0 : gi ginit /\ gj g ginit) by (split; [apply gi_init|now apply gj_init]). revert H0.
  generalize ginit. induction ls as [|l ls IH]; intros s0 [I J] F H; simpl in H.
  - injection H as <-. auto.
  - destruct (gstep s0 l) as [s1|] eqn:E; [|discriminate]. inversion F; subst. apply (IH s1); auto. split.
    + unfold gstep in E. destruct (gstep_res s0 l) as [x|] eqn:R; [|discriminate]. destruct (step_gi _ _ _ I R) as (s' & -> & I'). now injection E as <-.
    + eapply step_gj; eauto.
Qed.
Lemma passed_zero : forall g s, gi s -> gj g s -> client s = true -> cnt s = out s.
Proof.
  intros g s I J C. destruct (gi_sum s I) as [A B]. assert (cnt s - out s = 0); [|lia]. eapply sums_zero; [exact A|].
  intros c. destruct (Nat.eq_dec c (cur s)) as [-> | N]; [eapply client_dep; eauto|]. now apply (gj_dep g s J).
Qed.

(** *** Client code on a thread whose counter others keep up is never preempted *)
Definition passive (l : glab) : Prop := match l with LCall _ | LRet | LEnd _ => False | _ => True end.
Lemma starve_step : forall s l s', client s = true -> out s < cnt s -> passive l -> gstep s l = Some s' ->
  cur s' = cur s /\ client s' = true /\ out s' < cnt s'.
Proof.
  intros s l s' C K L H. unfold gstep in H. pose proof C as C0. unfold client in C. apply andb_prop in C as [_ C].
  destruct l; cbn [gstep_res passive] in H, L; try contradiction.
  - destruct (stk s (cur s)) as [|[] r]; discriminate.
  - destruct (stk s (cur s)) as [|[] r]; discriminate.
  - destruct (stk s (cur s)) as [|[] r]; discriminate.
  - destruct (Nat.eqb_spec (cnt s) 0); [lia|]. injection H as <-. auto.
  - injection H as <-. simpl. repeat split; auto. lia.
  - destruct (out s); [discriminate|]. destruct (cnt s) eqn:E; [discriminate|]. injection H as <-. simpl. repeat split; auto. lia.
Qed.
Lemma starve : forall ls s s', client s = true -> out s < cnt s -> Forall passive ls -> run gstep s ls = Some s' -> cur s' = cur s.
Proof.
  induction ls as [|l ls IH]; intros s s' C K F H; simpl in H; [now injection H as <-|].
  destruct (gstep s l) as [s1|] eqn:E; [|discriminate]. inversion F; subst.
  destruct (starve_step s l s1) as (A & B & D); auto. rewrite <- A. eapply IH; eauto.
Qed.

(** *** Programs that fail the check *)
(** A way through a program with switches for the reasons [g] only; a way to a switch or a callable at a depth above 0. *)
Fixpoint thru (g : kind -> bool) (p : prog) : bool :=
  match p with Sw k => g k | Seq p q => thru g p && thru g q | Alt p q => thru g p || thru g q | _ => true end.
Fixpoint hit (g : kind -> bool) (d : nat) (p : prog) : bool :=
  match p with
  | Skip | Inc | Dec => false
  | Sw k => g k && negb (d =? 0)
  | User => negb (d =? 0)
  | Seq p q => hit g d p || (thru g p && match eff d p with Some d' => hit g d' q | None => false end)
  | Alt p q => hit g d p || hit g d q
  | Loop p => hit g d p
  end.

(** Coroutine 1 runs at depth d with work l, everybody else has added nothing; coroutine 2 is in client code. *)
Record at1 (s : gst) (l : list prog) (d : nat) : Prop := {
  a_cur : cur s = 1; a_stk : stk s 1 = l; a_dep : dep s 1 = d; a_cnt : cnt s = d; a_out : out s = 0;
  a_end : forall c, ended s c = false; a_two : stk s 2 = []
}.
Definition lab_in (g : kind -> bool) (l : glab) : Prop := match l with LCall _ | LEnd _ => False | LSw k _ => g k = true | _ => True end.
Lemma at1_goon : forall s l d r, at1 s l d -> at1 (goon s r) r d.
Proof. intros s l d r [A B C D E F G]. split; simpl; auto; rewrite A; unfold upd; simpl; auto. Qed.
Lemma run_cons : forall s l ls s' t, gstep s l = Some s' -> run gstep s' ls = Some t -> run gstep s (l :: ls) = Some t.
Proof. intros s l ls s' t H R. simpl. now rewrite H. Qed.

Ltac stepped A := unfold gstep; simpl; rewrite (a_cur _ _ _ A), (a_stk _ _ _ A); reflexivity.
Lemma kind_refl : forall k, kind_eqb k k = true. Proof. now destruct k. Qed.
Lemma through : forall g p d e, eff d p = Some e -> thru g p = true -> forall s r, at1 s (p :: r) d ->
  exists ls s', run gstep s ls = Some s' /\ Forall (lab_in g) ls /\ at1 s' r e.
Proof.
  induction p; intros d e E T s r A; simpl in E, T.
  - injection E as <-. exists [LOp], (goon s r). repeat split; [|repeat constructor|eapply at1_goon; eauto..].
    simpl. unfold gstep. simpl. rewrite (a_cur _ _ _ A), (a_stk _ _ _ A). reflexivity.
  - injection E as <-. exists [LOp]. eexists. split; [|split; [repeat constructor|]].
    + simpl. unfold gstep. simpl. rewrite (a_cur _ _ _ A), (a_stk _ _ _ A). reflexivity.
    + destruct A as [A B C D E F G]. split; simpl; rewrite ?A; auto; unfold upd; simpl; auto.
  - destruct d as [|d]; [discriminate|]. injection E as <-. exists [LOp]. eexists. split; [|split; [repeat constructor|]].
    + simpl. unfold gstep. simpl. rewrite (a_cur _ _ _ A), (a_stk _ _ _ A). simpl. rewrite (a_cnt _ _ _ A). reflexivity.
    + destruct A as [A B C D E F G]. split; simpl; rewrite ?A; auto; unfold upd; simpl; auto. now rewrite C.
  - injection E as <-. exists [LSw k 1]. eexists. split; [|split; [repeat constructor; exact T|]].
    + simpl. unfold gstep. simpl. rewrite (a_cur _ _ _ A), (a_stk _ _ _ A), kind_refl. unfold goto. simpl. rewrite (a_end _ _ _ A). reflexivity.
    + destruct A as [A B C D E F G]. split; simpl; rewrite ?A; auto; unfold upd; simpl; auto.
  - injection E as <-. exists [LRet]. eexists. split; [|split; [repeat constructor|]].
    + simpl. unfold gstep. simpl. rewrite (a_cur _ _ _ A), (a_stk _ _ _ A). reflexivity.
    + eapply at1_goon; eauto.
  - destruct (eff d p1) as [x|] eqn:E1; [|discriminate]. apply andb_prop in T as [T1 T2].
    assert (H : gstep s LOp = Some (goon s (p1 :: p2 :: r))) by stepped A.
    destruct (IHp1 _ _ E1 T1 (goon s (p1 :: p2 :: r)) (p2 :: r) (at1_goon _ _ _ _ A)) as (l1 & s1 & R1 & F1 & A1).
    destruct (IHp2 _ _ E T2 _ _ A1) as (l2 & s2 & R2 & F2 & A2).
    exists (LOp :: l1 ++ l2), s2. split; [|split; [constructor; [exact I|now apply Forall_app]|exact A2]].
    eapply run_cons; [exact H|]. now rewrite run_app, R1.
  - destruct (eff d p1) as [x|] eqn:E1; [|discriminate]. destruct (eff d p2) as [y|] eqn:E2; [|discriminate].
    destruct (Nat.eqb_spec x y) as [-> |]; [|discriminate]. injection E as <-. apply orb_prop in T as [T|T].
    + assert (H : gstep s (LPick true) = Some (goon s (p1 :: r))) by stepped A.
      destruct (IHp1 _ _ E1 T (goon s (p1 :: r)) r (at1_goon _ _ _ _ A)) as (l1 & s1 & R1 & F1 & A1).
      exists (LPick true :: l1), s1. split; [eapply run_cons; eauto|]. split; [constructor; [exact I|assumption]|assumption].
    + assert (H : gstep s (LPick false) = Some (goon s (p2 :: r))) by stepped A.
      destruct (IHp2 _ _ E2 T (goon s (p2 :: r)) r (at1_goon _ _ _ _ A)) as (l1 & s1 & R1 & F1 & A1).
      exists (LPick false :: l1), s1. split; [eapply run_cons; eauto|]. split; [constructor; [exact I|assumption]|assumption].
  - destruct (eff d p) as [x|] eqn:E1; [|discriminate]. destruct (x =? d); [|discriminate]. injection E as <-.
    exists [LPick false], (goon s r). split; [|split; [repeat constructor|eapply at1_goon; eauto]]. simpl.
    unfold gstep. simpl. rewrite (a_cur _ _ _ A), (a_stk _ _ _ A). reflexivity.
Qed.

(** The bad point: a switch or a callable at a depth above 0. *)
Definition bad (g : kind -> bool) (p : prog) : Prop := p = User \/ exists k, p = Sw k /\ g k = true.
Lemma reach_bad : forall g p d e, eff d p = Some e -> hit g d p = true -> forall s r, at1 s (p :: r) d ->
  exists ls s' q r' d', run gstep s ls = Some s' /\ Forall (lab_in g) ls /\ at1 s' (q :: r') d' /\ bad g q /\ d' <> 0.
Proof.
  induction p; intros d e E T s r A; simpl in E, T; try discriminate.
  - apply andb_prop in T as [T1 T2]. apply negb_true_iff, Nat.eqb_neq in T2. exists [], s, (Sw k), r, d. repeat split; auto; try apply A.
    right. eauto.
  - apply negb_true_iff, Nat.eqb_neq in T. exists [], s, User, r, d. repeat split; auto; try apply A. now left.
  - destruct (eff d p1) as [x|] eqn:E1; [|discriminate].
    assert (H : gstep s LOp = Some (goon s (p1 :: p2 :: r))) by stepped A.
    apply orb_prop in T as [T|T].
    + destruct (IHp1 _ _ E1 T (goon s (p1 :: p2 :: r)) (p2 :: r) (at1_goon _ _ _ _ A)) as (l1 & s1 & q & r' & d' & R1 & F1 & A1 & B & Z).
      exists (LOp :: l1), s1, q, r', d'. split; [eapply run_cons; eauto|]. split; [constructor; [exact I|assumption]|auto].
    + apply andb_prop in T as [T1 T2].
      destruct (through g p1 _ _ E1 T1 (goon s (p1 :: p2 :: r)) (p2 :: r) (at1_goon _ _ _ _ A)) as (l1 & s1 & R1 & F1 & A1).
      destruct (IHp2 _ _ E T2 _ _ A1) as (l2 & s2 & q & r' & d' & R2 & F2 & A2 & B & Z).
      exists (LOp :: l1 ++ l2), s2, q, r', d'. split; [eapply run_cons; [exact H|now rewrite run_app, R1]|].
      split; [constructor; [exact I|now apply Forall_app]|auto].
  - destruct (eff d p1) as [x|] eqn:E1; [|discriminate]. destruct (eff d p2) as [y|] eqn:E2; [|discriminate].
    apply orb_prop in T as [T|T].
    + assert (H : gstep s (LPick true) = Some (goon s (p1 :: r))) by stepped A.
      destruct (IHp1 _ _ E1 T (goon s (p1 :: r)) r (at1_goon _ _ _ _ A)) as (l1 & s1 & q & r' & d' & R1 & F1 & A1 & B & Z).
      exists (LPick true :: l1), s1, q, r', d'. split; [eapply run_cons; eauto|]. split; [constructor; [exact I|assumption]|auto].
    + assert (H : gstep s (LPick false) = Some (goon s (p2 :: r))) by stepped A.
      destruct (IHp2 _ _ E2 T (goon s (p2 :: r)) r (at1_goon _ _ _ _ A)) as (l1 & s1 & q & r' & d' & R1 & F1 & A1 & B & Z).
      exists (LPick false :: l1), s1, q, r', d'. split; [eapply run_cons; eauto|]. split; [constructor; [exact I|assumption]|auto].
  - destruct (eff d p) as [x|] eqn:E1; [|discriminate].
    assert (H : gstep s (LPick true) = Some (goon s (p :: Loop p :: r))) by stepped A.
    destruct (IHp _ _ E1 T (goon s (p :: Loop p :: r)) (Loop p :: r) (at1_goon _ _ _ _ A)) as (l1 & s1 & q & r' & d' & R1 & F1 & A1 & B & Z).
    exists (LPick true :: l1), s1, q, r', d'. split; [eapply run_cons; eauto|]. split; [constructor; [exact I|assumption]|auto].
Qed.

(** The idle coroutine switches to coroutine 1. *)
Definition boot : list glab :=
  [LOp; LOp; LOp; LOp; LOp; LOp; LOp; LOp; LOp; LPick true; LOp; LOp; LOp; LPick true; LOp; LOp; LOp; LOp; LOp; LOp; LOp; LOp; LOp; LOp;
   LPick false; LOp; LPick true; LOp; LOp; LOp; LOp; LOp; LPick false; LOp; LOp; LOp; LSw Own 1].
Lemma boot_at : exists s, run gstep ginit boot = Some s /\ at1 s [] 0.
Proof. eexists. split; [vm_compute; reflexivity|]. split; reflexivity. Qed.
Lemma boot_lab : forall g (P : fn -> Prop), g Own = true -> Forall (lab_ok g P) boot.
Proof. intros g P G. unfold boot. repeat constructor; exact G. Qed.

Lemma lab_in_ok : forall g (P : fn -> Prop) ls, Forall (lab_in g) ls -> Forall (lab_ok g P) ls.
Proof. intros g P ls H. eapply Forall_impl; [|exact H]. intros [] L; simpl in *; auto; contradiction. Qed.

Lemma hit_reached : forall g f, g Own = true -> hit g 0 (code f) = true ->
  exists ls s, run gstep ginit ls = Some s /\ Forall (lab_ok g (eq f)) ls /\ client s = true /\ out s = 0 /\ 0 < cnt s.
Proof.
  intros g f G H. destruct boot_at as (s0 & R0 & A0).
  assert (C0 : gstep s0 (LCall f) = Some (goon s0 [code f])).
  { unfold gstep, gstep_res, client. rewrite (a_cur _ _ _ A0), (a_stk _ _ _ A0). reflexivity. }
  destruct (reach_bad g (code f) 0 0 (code_eff f 0) H (goon s0 [code f]) [] (at1_goon _ _ _ _ A0)) as (l1 & s1 & q & r & d & R1 & F1 & A1 & B & Z).
  assert (R : run gstep ginit (boot ++ LCall f :: l1) = Some s1) by (rewrite run_app, R0; eapply run_cons; eauto).
  assert (F : Forall (lab_ok g (eq f)) (boot ++ LCall f :: l1)).
  { apply Forall_app. split; [now apply boot_lab|]. constructor; [reflexivity|now apply lab_in_ok]. }
  destruct B as [-> | (k & -> & K)].
  - exists (boot ++ LCall f :: l1), s1. repeat split; auto.
    + unfold client. rewrite (a_cur _ _ _ A1), (a_stk _ _ _ A1). reflexivity.
    + apply A1.
    + rewrite (a_cnt _ _ _ A1). lia.
  - assert (S1 : gstep s1 (LSw k 2) = Some (mkG 2 (stk (goon s1 r)) (dep s1) (cnt s1) (out s1) (ended s1))).
    { unfold gstep. simpl. rewrite (a_cur _ _ _ A1), (a_stk _ _ _ A1), kind_refl. unfold goto. simpl. rewrite (a_end _ _ _ A1), (a_cur _ _ _ A1). reflexivity. }
    exists ((boot ++ LCall f :: l1) ++ [LSw k 2]). eexists. split; [rewrite run_app, R; simpl; rewrite S1; reflexivity|].
    split; [apply Forall_app; split; [assumption|repeat constructor; exact K]|]. simpl. split; [|split].
    + unfold client. simpl. rewrite (a_cur _ _ _ A1). unfold upd. simpl. rewrite (a_two _ _ _ A1). reflexivity.
    + apply A1.
    + rewrite (a_cnt _ _ _ A1). lia.
Qed.
Lemma hit_every : forall f, ok every 0 (code f) = false -> hit every 0 (code f) = true.
Proof. intros [ | | | | | | | | | [] | [] | [] | [] | [] | [] | [] | [] | | | | | | | | | | | | | | | | | | | | | | ]; vm_compute; congruence. Qed.
Lemma hit_own : forall f, ok own_only 0 (code f) = false -> hit own_only 0 (code f) = true.
Proof. intros [ | | | | | | | | | [] | [] | [] | [] | [] | [] | [] | [] | | | | | | | | | | | | | | | | | | | | | | ]; vm_compute; congruence. Qed.
Lemma hit_unspun : forall f, ok unspun 0 (code f) = false -> hit unspun 0 (code f) = true.
Proof. intros [ | | | | | | | | | [] | [] | [] | [] | [] | [] | [] | [] | | | | | | | | | | | | | | | | | | | | | | ]; vm_compute; congruence. Qed.
