(** Invariants of the model of wait_ctx: who holds which lock, what is stored, who is subscribed. *)
From Coq Require Import List Arith Bool Lia.
From Verif Require Import Base JoinSpec JoinModel.
Import ListNotations.

Lemma lock_eqb_eq : forall a b, lock_eqb a b = true <-> a = b.
Proof.
  intros a b. destruct a, b; simpl; split; intros H; try discriminate; try reflexivity; try (apply Nat.eqb_eq in H; congruence);
  injection H as <-; apply Nat.eqb_refl.
Qed.

(** Which locks a party holds, by its program counter. *)
Definition fhold (p : fpc) (l : lock) : bool :=
  match p, l with
  | FSet, LF => true
  | (FPub _ | FT _ _ | FQ _ _ | FW _ _ | FK _ _), LM => true
  | FQ j _, LT i => j =? i
  | _, _ => false
  end.
Definition chold (c : jcfg) (j : nat) (p : cpc) (l : lock) : bool :=
  match p, l with
  | (C2 | C3 | C4 | C5 | C6 | C7 | C8 | C8b | C9 | C9b | CG2), LF => true
  | (C3 | C4 | C5 | C6 | C7 | C8 | C9), LS e => e =? env c j
  | C5, LM => true
  | C7, LT i => j =? i
  | _, _ => false
  end.
Definition bhold (j : nat) (p : bpc) (l : lock) : bool :=
  match p, l with
  | (B2 | B3 | B4), LT i => j =? i
  | _, _ => false
  end.
Definition rhold (p : rpc) (l : lock) : bool :=
  match p, l with
  | (RT _ | RS _), LQ => true
  | _, _ => false
  end.
Definition holds (c : jcfg) (s : jst) (a : agent) (l : lock) : bool :=
  match a with
  | AFin => fhold (fp s) l
  | ACall j => chold c j (cp s j) l
  | ACb j => bhold j (bp s j) l
  | ATim => rhold (rp s) l
  end.
Definition OInv (c : jcfg) (s : jst) : Prop := forall l a, own s l = Some a <-> holds c s a l = true.

Ltac dmj H :=
  repeat match type of H with
  | context[match ?x with _ => _ end] =>
      lazymatch x with context[match _ with _ => _ end] => fail | _ => let M := fresh "M" in destruct x eqn:M; try discriminate H end
  end.
Ltac js := cbn [own fin exc ret subs wt tst fp cp bp rp pri sv freed pend jh setpend setown setf setc setb setr setw sett setsubs setres setpri jlog setfin
                setfreed leave result] in *.

(** A step takes a lock, releases one, or does neither. *)
Lemma o_keep : forall c s s', OInv c s -> own s' = own s -> (forall a l, holds c s' a l = holds c s a l) -> OInv c s'.
Proof. intros c s s' I O H l a. rewrite O, H. apply I. Qed.
Lemma o_take : forall c s s' L a, OInv c s -> own s L = None -> own s' = own (setown s L (Some a)) ->
  (forall b l, b <> a -> holds c s' b l = holds c s b l) -> (forall l, holds c s' a l = lock_eqb l L || holds c s a l) -> OInv c s'.
Proof.
  intros c s s' L a I N O H1 H2 l b. rewrite O. cbn [own setown].
  destruct (lock_eqb l L) eqn:E.
  - apply lock_eqb_eq in E as ->. split.
    + intros [= <-]. rewrite H2. assert (X : lock_eqb L L = true) by now apply lock_eqb_eq. now rewrite X.
    + intros H. assert (D : b = a \/ b <> a) by (repeat decide equality). destruct D as [->|D]; auto.
      rewrite H1 in H by auto. apply I in H. congruence.
  - rewrite (I l b). assert (D : b = a \/ b <> a) by (repeat decide equality). destruct D as [->|D].
    + now rewrite H2, E.
    + now rewrite H1.
Qed.
Lemma o_rel : forall c s s' L a, OInv c s -> holds c s a L = true -> own s' = own (setown s L None) ->
  (forall b l, b <> a -> holds c s' b l = holds c s b l) -> (forall l, holds c s' a l = negb (lock_eqb l L) && holds c s a l) -> OInv c s'.
Proof.
  intros c s s' L a I N O H1 H2 l b. rewrite O. cbn [own setown]. apply I in N.
  destruct (lock_eqb l L) eqn:E.
  - apply lock_eqb_eq in E as ->. split; [discriminate|]. intros H.
    assert (D : b = a \/ b <> a) by (repeat decide equality). destruct D as [->|D].
    + rewrite H2 in H. assert (X : lock_eqb L L = true) by now apply lock_eqb_eq. rewrite X in H. discriminate.
    + rewrite H1 in H by auto. apply I in H. congruence.
  - rewrite (I l b). assert (D : b = a \/ b <> a) by (repeat decide equality). destruct D as [->|D].
    + now rewrite H2, E.
    + now rewrite H1.
Qed.
(** The equations about [holds]. *)
Ltac ho :=
  intros; js; repeat match goal with a : agent |- _ => destruct a end; cbn [holds] in *; js; unfold upd;
  repeat match goal with |- context[?x =? ?y] => destruct (Nat.eqb_spec x y); subst end; try congruence;
  repeat match goal with H : fp _ = _ |- _ => rewrite H in * | H : cp _ _ = _ |- _ => rewrite H in *
                       | H : bp _ _ = _ |- _ => rewrite H in * | H : rp _ = _ |- _ => rewrite H in * end;
  repeat match goal with l : lock |- _ => destruct l end; simpl; rewrite ?andb_true_r, ?andb_false_r, ?orb_false_r; try congruence; auto;
  repeat match goal with |- context[?x =? ?y] => destruct (Nat.eqb_spec x y); subst end; try congruence; auto.
Ltac fr H := match type of H with match own ?s ?l with _ => _ end = _ => destruct (own s l) eqn:?; [discriminate|] end.

Lemma oinv_step : forall c s l s', OInv c s -> jstep_ok c s l = Some s' -> OInv c s'.
Proof.
  intros c s l s' I E. unfold jstep_ok in E. destruct (jstep c s l) as [[s1|]|] eqn:S1; try discriminate. injection E as <-.
  destruct l as [r| |j|j|j|j| |j|]; cbn [jstep] in S1.
  - destruct (fp s) eqn:P; try discriminate. injection S1 as <-. apply (o_keep c s); auto; ho.
  - unfold fstep, takef, lf_free, take, during, is_free in S1. destruct (fp s) as [| | | |[|j r]|j r|j r|j r|j r|] eqn:P; try discriminate.
    + destruct (own s LF) eqn:O; cbn [andb] in S1; [discriminate|]. destruct (forallb _ (pend s)); [|discriminate]. injection S1 as <-. apply (o_take c s _ LF AFin); auto; ho.
    + injection S1 as <-. apply (o_rel c s _ LF AFin); auto; ho.
    + destruct (own s LM) eqn:O; [discriminate|]. injection S1 as <-. apply (o_take c s _ LM AFin); auto; ho.
    + injection S1 as <-. apply (o_rel c s _ LM AFin); auto; ho.
    + injection S1 as <-. apply (o_keep c s); auto. destruct (timed c j); ho.
    + destruct (tst s j); (destruct (own s (LT j)) eqn:O; [discriminate|]); injection S1 as <-;
      [apply (o_keep c s)|apply (o_take c s _ (LT j) AFin)|apply (o_keep c s)]; auto; ho.
    + destruct (own s LQ) eqn:O; [discriminate|]. injection S1 as <-. apply (o_rel c s _ (LT j) AFin); auto; ho.
    + injection S1 as <-. apply (o_keep c s); auto; ho.
    + destruct (own s (LS (env c j))) eqn:O; [discriminate|]. injection S1 as <-. apply (o_keep c s); auto; ho.
  - destruct (cp s j) eqn:P; try discriminate. destruct (freed s); try discriminate. injection S1 as <-. apply (o_keep c s); auto; ho.
  - unfold cstep, takef, lf_free, take, during, is_free in S1. destruct (cp s j) eqn:P; try discriminate.
    + destruct (own s LF) eqn:O; cbn [andb] in S1; [discriminate|]. destruct (forallb _ (pend s)); [|discriminate]. injection S1 as <-. apply (o_take c s _ LF (ACall j)); auto; ho.
    + destruct (own s (LS (env c j))) eqn:O; [discriminate|]. injection S1 as <-. apply (o_take c s _ (LS (env c j)) (ACall j)); auto; ho.
    + injection S1 as <-. apply (o_keep c s); destruct (fin s); auto; ho.
    + destruct (own s LM) eqn:O; [discriminate|]. injection S1 as <-. apply (o_take c s _ LM (ACall j)); auto; ho.
    + injection S1 as <-. apply (o_rel c s _ LM (ACall j)); auto; destruct (timed c j); ho.
    + destruct (own s (LT j)) eqn:O; [discriminate|]. injection S1 as <-. apply (o_take c s _ (LT j) (ACall j)); auto; ho.
    + destruct (own s LQ) eqn:O; [discriminate|]. injection S1 as <-. apply (o_rel c s _ (LT j) (ACall j)); auto; ho.
    + injection S1 as <-. apply (o_rel c s _ (LS (env c j)) (ACall j)); auto; ho.
    + injection S1 as <-. apply (o_rel c s _ LF (ACall j)); auto; ho.
    + destruct (wt s j); [discriminate|]. injection S1 as <-. apply (o_keep c s); auto; ho.
    + destruct (wt s j); [discriminate|]. injection S1 as <-. apply (o_keep c s); auto; destruct (timed c j); ho.
    + injection S1 as <-. apply (o_rel c s _ (LS (env c j)) (ACall j)); auto; ho.
    + injection S1 as <-. apply (o_rel c s _ LF (ACall j)); auto; destruct (timed c j); ho.
    + destruct (own s LF) eqn:O; cbn [andb] in S1; [discriminate|]. destruct (forallb _ (pend s)); [|discriminate]. injection S1 as <-. apply (o_take c s _ LF (ACall j)); auto; ho.
    + injection S1 as <-. apply (o_rel c s _ LF (ACall j)); auto; destruct (fin s); auto; ho.
    + injection S1 as <-. apply (o_keep c s); auto; destruct (exc s); auto; ho.
    + injection S1 as <-. apply (o_keep c s); auto; ho.
  - unfold bstep, take, during, is_free in S1. destruct (bp s j) eqn:P; try discriminate.
    + destruct (own s (LT j)) eqn:O; [discriminate|]. injection S1 as <-. apply (o_take c s _ (LT j) (ACb j)); auto; ho.
    + destruct (freed s); [discriminate|]. destruct (own s LM) eqn:O; [discriminate|]. injection S1 as <-. apply (o_keep c s); auto; ho.
    + injection S1 as <-. apply (o_keep c s); auto; ho.
    + destruct (own s (LS (env c j))) eqn:O; [discriminate|]. injection S1 as <-. apply (o_rel c s _ (LT j) (ACb j)); auto; ho.
  - unfold take, is_free in S1. destruct (rp s) eqn:P; try discriminate. destruct (tst s j); try discriminate.
    destruct (own s LQ) eqn:O; [discriminate|]. injection S1 as <-. apply (o_take c s _ LQ ATim); auto; ho.
  - unfold rstep, during, is_free in S1. destruct (rp s) eqn:P; try discriminate; (destruct (own s (LT j)) eqn:O; [discriminate|]); injection S1 as <-.
    + apply (o_keep c s); auto. assert (X : bhold j (bp s j) (LT j) = false).
      { destruct (bhold j (bp s j) (LT j)) eqn:B; auto. apply (I (LT j) (ACb j)) in B. congruence. }
      assert (Y : forall l, bhold j (bp s j) l = false).
      { intros l. destruct (bp s j), l; simpl in *; auto; destruct (Nat.eqb_spec j j); congruence. }
      intros a l. destruct a; cbn [holds]; js; auto; try now rewrite P. unfold upd. destruct (Nat.eqb_spec j0 j); subst; auto; rewrite Y; now destruct l.
    + apply (o_rel c s _ LQ ATim); auto; ho.
  - destruct (cp s j) eqn:P; try discriminate. injection S1 as <-. apply (o_rel c s _ LF (ACall j)); auto; ho.
  - destruct (fp s) eqn:P; try discriminate. destruct (open_calls (jh s)); try discriminate. destruct (freed s); try discriminate. injection S1 as <-. apply (o_keep c s); auto; ho.
Qed.

(** ** What is stored *)
(** Program points at which the caller has seen (or is sure) that the target is finished; and not finished. *)
Definition seen_fin (p : cpc) : bool := match p with C9 | C9b | CE | CE2 _ => true | _ => false end.
Definition seen_not (p : cpc) : bool := match p with C4 | C5 | C6 | C7 | C8 | C8b => true | _ => false end.
Definition after_fin (p : fpc) : bool := match p with FRun | FLk | FSet => false | _ => true end.
(** The callbacks that pub has still to call. *)
Definition todo (s : jst) : list nat :=
  match fp s with
  | FRun | FLk | FSet | FPubL => subs s
  | FPub r | FK _ r => r
  | FT j r | FQ j r | FW j r => j :: r
  | FDone => []
  end.
Definition parked (p : cpc) : bool := match p with C4 | C5 | C6 | C7 | C8 | C8b | C8p | CP | CG | CG2 => true | _ => false end.
Record DInv (c : jcfg) (p0 : nat -> nat) (s : jst) : Prop := mkD {
  d_fin : fin s = after_fin (fp s);
  d_run : fp s = FRun -> exc s = None /\ ret s = None;
  d_er : exc s <> None -> ret s = None;
  d_h1 : fin s = true -> exists r, In (HFin r) (jh s);
  d_h2 : forall r, In (HFin r) (jh s) -> fin s = true /\
         match r with
         | RetV v => exc s = None /\ ret s = v
         | Thr e => ret s = None /\ (exc s = Some e \/ exc s = None /\ exists k, In (HRet k (RExc e)) (jh s))
         end;
  d_one : forall r r', In (HFin r) (jh s) -> In (HFin r') (jh s) -> r = r';
  d_seen : forall j, seen_fin (cp s j) = true -> fin s = true;
  d_not : forall j, seen_not (cp s j) = true -> fin s = false;
  d_ce2 : forall j e, cp s j = CE2 e -> In (HFin (Thr e)) (jh s) /\ In (HGot j) (jh s);
  d_b : forall j, bp s j <> BN -> timed c j = true /\ In (HExp j) (jh s);
  d_t : forall j, tst s j = TR -> timed c j = true;
  d_r : forall j, rp s = RT j -> timed c j = true;
  d_w : forall j, parked (cp s j) = true -> wt s j = false -> fin s = true \/ timed c j = true /\ In (HExp j) (jh s);
  d_g : forall j, (cp s j = CG \/ cp s j = CG2 \/ cp s j = C6 \/ cp s j = C7) -> timed c j = true;
  d_got : forall j, In (HGot j) (jh s) -> exists e, cp s j = CE2 e \/ In (HRet j (RExc e)) (jh s);
  d_exc : forall j e, In (HRet j (RExc e)) (jh s) -> exc s = None /\ fp s <> FRun /\ In (HGot j) (jh s);
  d_c0 : forall j, cp s j = C0 -> ~ In (HCall j) (jh s);
  d_cd : forall j, (exists r, In (HRet j r) (jh s)) -> cp s j = CD;
  d_pri : forall j, match cp s j with C0 | CD => pri s j = p0 j | _ => sv s j = p0 j end
}.
Lemma dinv_init : forall c p0, DInv c p0 (jinit p0).
Proof. intros c p0. split; simpl; try tauto; try discriminate; try (intros; intuition (try discriminate; try congruence); fail).
  intros j [r []]. Qed.


(** All successful steps, one case each. *)
Ltac jcases S1 :=
  unfold jstep_ok, jstep, fstep, cstep, bstep, rstep, takef, lf_free, take, during, is_free, andb in S1; dmj S1; injection S1 as <-.
Ltac up := unfold upd in *;
  repeat match goal with
  | |- context[?x =? ?y] => destruct (Nat.eqb_spec x y); subst
  | H : context[?x =? ?y] |- _ => destruct (Nat.eqb_spec x y); subst
  end.
Lemma dinv_step : forall c p0 s l s', OInv c s -> DInv c p0 s -> jstep_ok c s l = Some s' -> DInv c p0 s'.
Proof.
  intros c p0 s l s' O D E.
  assert (XF : forall j, fp s = FSet -> seen_not (cp s j) = false).
  { intros j P. destruct (seen_not (cp s j)) eqn:Q; auto. exfalso.
    assert (A : own s LF = Some AFin) by (apply O; simpl; now rewrite P).
    assert (B : own s LF = Some (ACall j)) by (apply O; simpl; destruct (cp s j); try discriminate; auto). congruence. }
  destruct D as [Dfin Drun Der Dh1 Dh2 Done Dseen Dnot Dce2 Db Dt Dr Dw Dg Dgot Dexc Dc0 Dcd Dpri].
  assert (Dw' : forall j b, parked (cp s j) = true -> wt s j = b -> b = false -> fin s = true \/ timed c j = true /\ In (HExp j) (jh s)) by (intros; subst; eauto).
  assert (Db3 : forall j, bp s j = B3 -> timed c j = true /\ In (HExp j) (jh s)) by (intros j Q; apply Db; rewrite Q; discriminate).
  assert (Dcd' : forall j r, In (HRet j r) (jh s) -> cp s j = CD) by eauto.
  assert (Dexc1 : forall j e, In (HRet j (RExc e)) (jh s) -> exc s = None /\ In (HGot j) (jh s)).
  { intros j e H. destruct (Dexc _ _ H) as (A&B&C). auto. }
  assert (Dexc2 : forall j e, In (HRet j (RExc e)) (jh s) -> fp s <> FRun).
  { intros j e H. destruct (Dexc _ _ H) as (A&B&C). auto. }
  assert (Dg1 : forall j, cp s j = CG -> timed c j = true) by auto. assert (Dg2 : forall j, cp s j = CG2 -> timed c j = true) by auto.
  Ltac hin H := simpl in H; repeat match type of H with _ \/ _ => destruct H as [H|H]; [try discriminate H|] end.
  Ltac fx := repeat match goal with H : fp ?x = _ |- _ => rewrite H in * end.
  Ltac spec Dseen Dnot Dw Dpri Dcd' Db := 
    try match goal with M : cp ?s ?j = _ |- _ =>
      let A := fresh "SP" in let B := fresh "SP" in let C := fresh "SP" in let D := fresh "SP" in let E := fresh "SP" in
      pose proof (Dseen j) as A; pose proof (Dnot j) as B; pose proof (Dw j) as C; pose proof (Dpri j) as D; pose proof (Dcd' j) as E;
      rewrite M in A, B, C, D, E; simpl in A, B, C, D end;
    try match goal with M : bp ?s ?j = _ |- _ => let A := fresh "SP" in pose proof (Db j) as A; rewrite M in A end.
  destruct l; jcases E; spec Dseen Dnot Dw Dpri Dcd' Db.
  all: split; js; fx; try assumption; try (simpl; congruence); try (simpl; intros; discriminate).
  all: try solve [
      intros H; destruct (Dh1 H) as [r0 R0]; exists r0; simpl; auto
    | intros r0 H; hin H; destruct (Dh2 _ H) as [A B]; split; [exact A|]; destruct r0; [exact B|]; destruct B as [B1 [B2|[B2 [k0 K]]]]; split; auto;
      right; split; auto; exists k0; simpl; auto
    | intros r0 r1 H H'; hin H; hin H'; apply Done; auto
    | intros j0; up; simpl; intros; try discriminate; eauto 3
    | intros j0 e0; up; simpl; intros Q; try discriminate Q; destruct (Dce2 _ _ Q); auto
    | intros j0; up; simpl; intros Q; try congruence; destruct (Db _ Q); auto
    | intros j0; up; simpl; intros Q W; try discriminate; try (right; apply Db3; assumption); destruct (Dw _ Q W) as [A|[A B]]; auto
    | intros j0; up; simpl; intros Q W; try discriminate; auto; destruct (Dw _ Q W) as [A|[A B]]; auto
    | intros j0; up; simpl; intros Q; try (intuition discriminate); eauto 3
    | intros j0 H; hin H; destruct (Dgot _ H) as [e0 [H1|H1]]; exists e0; simpl; auto; up; auto; congruence
    | intros j0 e0 H; hin H; destruct (Dexc1 _ _ H) as (A&B); split; [exact A|]; split; [eauto 3; try discriminate|simpl; auto]
    | intros j0; up; simpl; intros Q; try discriminate Q; intros X; hin X; eapply Dc0; eauto
    | intros j0 (r0&H); hin H; up; try (exfalso; apply Dcd' in H; congruence); eauto 3
    | intros j0; up; simpl; auto; apply Dpri ].
  all: repeat match goal with M : fin ?s = _ |- context[fin ?s] => rewrite M | M : exc ?s = _ |- context[exc ?s] => rewrite M end; try assumption.
  all: try solve [
      intros H; destruct (Dh1 H) as [r0 R0]; exists r0; simpl; auto
    | intros r0 H; hin H; destruct (Dh2 _ H) as [A B]; split; [exact A|]; destruct r0; [exact B|]; destruct B as [B1 [B2|[B2 [k0 K]]]]; split; auto;
      right; split; auto; exists k0; simpl; auto
    | intros r0 r1 H H'; hin H; hin H'; apply Done; auto
    | intros j0; up; simpl; intros; try discriminate; eauto 3
    | intros j0 e0; up; simpl; intros Q; try discriminate Q; destruct (Dce2 _ _ Q); auto
    | intros j0; up; simpl; intros Q; try congruence; destruct (Db _ Q); auto
    | intros j0; up; simpl; intros Q W; try discriminate; try (right; apply Db3; assumption); destruct (Dw _ Q W) as [A|[A B]]; auto
    | intros j0; up; simpl; intros Q W; try discriminate; auto; destruct (Dw _ Q W) as [A|[A B]]; auto
    | intros j0; up; simpl; intros Q; try (intuition discriminate); eauto 3
    | intros j0 H; hin H; destruct (Dgot _ H) as [e0 [H1|H1]]; exists e0; simpl; auto; up; auto; congruence
    | intros j0 e0 H; hin H; destruct (Dexc1 _ _ H) as (A&B); split; [exact A|]; split; [eauto 3; try discriminate|simpl; auto]
    | intros j0; up; simpl; intros Q; try discriminate Q; intros X; hin X; eapply Dc0; eauto
    | intros j0 (r0&H); hin H; up; try (exfalso; apply Dcd' in H; congruence); eauto 3
    | intros j0; up; simpl; auto; apply Dpri ].
  - intros r0 U. destruct (Dh2 _ U) as [A _]. simpl in Dfin. congruence.
  - intros j e U. destruct (Dexc2 _ _ U). reflexivity.
  - intros r0 U. destruct (Dh2 _ U) as [A _]. simpl in Dfin. congruence.
  - intros j e0 U. destruct (Dexc2 _ _ U). reflexivity.
  - intros r0 U. simpl in U. split; auto. destruct U as [U|U].
    + injection U as <-. unfold result in *. destruct (exc s) eqn:X; auto. split; [apply Der; discriminate|auto].
    + destruct (Dh2 _ U) as [A _]. simpl in Dfin. congruence.
  - assert (N : forall r, ~ In (HFin r) (jh s)). { intros r U. destruct (Dh2 _ U) as [A _]. simpl in Dfin. congruence. }
    intros r r' [U|U] [U'|U']; try (destruct (N _ U)); try (destruct (N _ U')). congruence.
  - intros j0. up; intros Q; [discriminate|]. intros [U|U]; [congruence|]. eapply Dc0; eauto.
  - rewrite <- Dfin. intros j0. up; intros Q; [|eapply Dseen; eauto]. clear Q. destruct (SP1 eq_refl M0) as [A|[A _]]; [exact A|congruence].
  - intros j0 [r0 [U|[U|U]]]; [inversion U; subst; apply upd_same|discriminate|]. up; auto. now apply Dcd' in U.
  - rewrite <- Dfin. intros r0 [U|U]; [discriminate|]. destruct (Dh2 _ U) as [A B]. split; auto. destruct r0; auto.
    destruct B as [B1 [B2|[B2 _]]]; [|discriminate]. auto.
  - intros j0 e0. up; intros Q.
    + injection Q as <-. split; [|now left]. right.
      assert (F : fin s = true) by (now apply SP). destruct (Dh1 F) as [r0 R0]. destruct (Dh2 _ R0) as [_ B]. destruct r0.
      * destruct B; discriminate.
      * destruct B as [_ [B|[B _]]]; [|discriminate]. injection B as <-. exact R0.
    + destruct (Dce2 _ _ Q). split; now right.
  - intros j0 [U|U].
    + injection U as <-. exists n. left. apply upd_same.
    + destruct (Dgot _ U) as [e0 [V|V]]; exists e0; [left|right; now right]. up; auto. congruence.
  - rewrite <- Dfin. intros r0 [U|U]; [discriminate|]. destruct (Dh2 _ U) as [A B]. split; auto. destruct r0; auto.
    destruct B as [B1 [B2|[B2 [k K]]]]; [discriminate|]. split; auto. right. split; auto. exists k. now right.
  - intros j0 [r0 [U|U]]; [inversion U; subst; apply upd_same|]. up; auto. now apply Dcd' in U.
  - intros P. exfalso. specialize (SP eq_refl). rewrite Dfin, P in SP. discriminate.
  - rewrite <- Dfin. destruct (Dce2 _ _ M) as [C1' _]. intros r0 [U|U]; [discriminate|]. rewrite (Done _ _ U C1'). destruct (Dh2 _ C1') as [A [B _]].
    split; auto. split; auto. right. split; auto. exists j. now left.
  - intros j0 [U|U]; [discriminate|]. destruct (Dgot _ U) as [e0 [V|V]]; [|exists e0; right; now right].
    up; [exists e; right; now left|]. exists e0. now left.
  - intros j0 e0 [U|U].
    + injection U as <- <-. split; auto. split; [|right; apply (Dce2 _ _ M)]. intros P. specialize (SP eq_refl). rewrite Dfin, P in SP. discriminate.
    + destruct (Dexc _ _ U) as (A&B&C). split; auto. split; auto. now right.
  - intros j0 [r0 [U|U]]; [inversion U; subst; apply upd_same|]. up; auto. now apply Dcd' in U.
  - intros j0 Q. injection Q as <-. now apply Dt.
  - intros j0. up; intros Q; [split; [auto|now left]|]. destruct (Db _ Q). split; auto. now right.
Qed.

(** ** Wait sets and timers *)
Definition pre (p : cpc) : bool := match p with C0 | C1 | C2 | C3 | C4 | C5 | C6 | C7 => true | _ => false end.
(** Program points without a resource in the wait set. *)
Definition out (p : cpc) : bool := match p with C0 | C1 | C2 | C3 | C9 | C9b | CG | CG2 | CE | CE2 _ | CD => true | _ => false end.
Record WInv (c : jcfg) (s : jst) : Prop := mkW {
  w_todo : forall j, wt s j = true -> cp s j = C4 \/ cp s j = C5 \/ In j (todo s) \/ bp s j = B3;
  w_c : forall j, out (cp s j) = true -> wt s j = false;
  w_pre : forall j, pre (cp s j) = true -> tst s j = TN;
  w_rt : forall j, rp s = RT j -> bp s j = BN /\ tst s j <> TN;
  w_rs : forall j, rp s = RS j -> bp s j <> BN /\ tst s j <> TN;
  w_b0 : forall j, bp s j <> BN -> tst s j <> TN;
  w_tr : forall j, tst s j = TR -> bp s j <> BN -> rp s = RS j;
  w_b : forall j, bp s j = B4 \/ bp s j = BD -> wt s j = false;
  w_t : forall j, timed c j = true -> wt s j = true -> pre (cp s j) = false ->
        tst s j = TR \/ bp s j = B1 \/ bp s j = B2 \/ bp s j = B3 \/ exists r, fp s = FQ j r \/ fp s = FW j r
}.
Lemma winv_init : forall c p0, WInv c (jinit p0).
Proof. intros c p0. split; simpl; try tauto; try discriminate; intuition (try discriminate; try congruence). Qed.
Lemma in_snoc : forall j k (l : list nat), In j l -> In j (l ++ [k]).
Proof. intros. apply in_or_app. auto. Qed.
Lemma winv_step : forall c p0 s l s', OInv c s -> DInv c p0 s -> WInv c s -> jstep_ok c s l = Some s' -> WInv c s'.
Proof.
  intros c p0 s l s' O D [Wt Wc Wp Wrt Wrs Wb0 Wtr Wb Wtm] E.
  assert (Dn : forall j, seen_not (cp s j) = true -> after_fin (fp s) = false).
  { intros j Q. rewrite <- (d_fin _ _ _ D). now apply (d_not _ _ _ D j). }
  assert (X1 : forall j, own s (LT j) = None -> bp s j = BN \/ bp s j = B1 \/ bp s j = BD).
  { intros j N. destruct (bp s j) eqn:B; auto; exfalso; assert (Y : own s (LT j) = Some (ACb j)) by (apply O; simpl; rewrite B; simpl; apply Nat.eqb_refl); congruence. }
  assert (X2 : own s LM = None -> match fp s with FRun | FLk | FSet | FPubL | FDone => True | _ => False end).
  { intros N. destruct (fp s) eqn:P; auto; assert (Y : own s LM = Some AFin) by (apply O; simpl; rewrite P; reflexivity); congruence. }
  destruct l; jcases E.
  Ltac spw Wp Dn Wc := try match goal with M : cp ?s ?j = _ |- _ => 
     let A := fresh "SP" in let B := fresh "SP" in let C := fresh "SP" in
     pose proof (Wp j) as A; pose proof (Dn j) as B; pose proof (Wc j) as C; rewrite M in A, B, C; simpl in A, B, C end.
  Ltac spb Wrt Wrs Wb0 Wtr Wb := try match goal with M : bp ?s ?j = _ |- _ => 
     let A := fresh "SQ" in let B := fresh "SQ" in let C := fresh "SQ" in let D := fresh "SQ" in let E := fresh "SQ" in
     pose proof (Wrt j) as A; pose proof (Wrs j) as B; pose proof (Wb0 j) as C; pose proof (Wtr j) as D; pose proof (Wb j) as E;
     rewrite M in A, B, C, D, E end.
  all: spw Wp Dn Wc; spb Wrt Wrs Wb0 Wtr Wb.
  all: split; unfold todo in *; js; fx; try assumption.
  all: try solve [
      intros j0; up; simpl; intros; try discriminate; try congruence; eauto 3
    | intros j0; up; simpl; intros U; try discriminate; try (intuition congruence); try (intuition discriminate); auto 6
    | intros j0; up; simpl; intros U; try discriminate; destruct (Wt _ U) as [A|[A|[A|A]]]; try congruence; eauto using in_snoc
    | intros j0; up; simpl; intros U V W; try discriminate; try congruence;
      (eapply Wtm in U; [|eassumption|try eassumption; match goal with M : cp _ _ = _ |- _ => rewrite M end; reflexivity]); destruct U as [A|[A|[A|[A|[r0 [A|A]]]]]]; try congruence; eauto 8
    | intros j0; up; simpl; intros U; (split; [|intuition congruence]); try discriminate; destruct (SQ U); congruence
    | intros j0; up; simpl; intros U; (split; [|intuition congruence]); try discriminate; destruct (Wrs _ U); auto
    | intros j0; up; simpl; intros U; destruct (Wrt _ U); split; auto; congruence
    | intros j0; up; simpl; intros U; destruct (Wrs _ U); split; auto; congruence
    | intros j0; up; simpl; intros U V; eapply Wtr; eauto; congruence
    ].
  - intros j0 U. up; [|auto]. apply Wp in U. congruence.
  - intros j0 U V W. destruct (Wtm _ U V W) as [A|[A|[A|[A|[r0 [A|A]]]]]]; auto; [|discriminate].
    injection A as <- <-. right. right. right. right. exists r. auto.
  - intros j0. up; intros U; [discriminate|]. destruct (Wt _ U) as [A|[A|[[A|A]|A]]]; auto. congruence.
  - intros j0 U. up; [|auto]. assert (N : bp s j <> BN) by (intuition congruence). specialize (Wb0 _ N). specialize (SP eq_refl). congruence.
  - intros j0 U. specialize (SP0 eq_refl). up.
    + right. right. left. destruct (fp s); try discriminate; apply in_or_app; right; now left.
    + destruct (Wt _ U) as [A|[A|[A|A]]]; auto. right. right. left. destruct (fp s); try discriminate; apply in_or_app; now left.
  - intros j0 U. specialize (SP0 eq_refl). up.
    + right. right. left. destruct (fp s); try discriminate; apply in_or_app; right; now left.
    + destruct (Wt _ U) as [A|[A|[A|A]]]; auto. right. right. left. destruct (fp s); try discriminate; apply in_or_app; now left.
  - intros j0. up; intros U V; [|auto]. apply Wb0 in V. specialize (SP eq_refl). congruence.
  - intros j0 U. up; [auto|]. destruct (Wt _ U) as [A|[A|[A|A]]]; auto. right. right. left. specialize (X2 eq_refl).
    destruct (fp s); try contradiction; auto; apply filter_In; (split; [exact A|]); destruct (Nat.eqb_spec j j0); auto; congruence.
  - intros j0 U. injection U as <-. split; [|congruence]. destruct (bp s j) eqn:B; auto; exfalso; assert (N : bp s j <> BN) by congruence; specialize (Wtr _ M0 N); congruence.
  - intros j0 U V. specialize (Wtr _ U V). congruence.
  - intros j0 U. destruct (Wt _ U) as [A|[A|[A|A]]]; auto. up; auto. destruct (X1 _ M0) as [B|[B|B]]; congruence.
  - intros j0 U. injection U as <-. destruct (Wrt _ eq_refl). split; auto. rewrite upd_same. discriminate.
  - intros j0. destruct (Wrt _ eq_refl). up; auto.
  - intros j0 U. up; auto. intros V. specialize (Wtr _ U V). congruence.
  - intros j0 U. up; auto. destruct (Wrs _ eq_refl). apply Wp in U. congruence.
  - intros j0. up; intros U V; [discriminate|]. specialize (Wtr _ U V). congruence.
  - intros j0 U V W. up; [|auto]. destruct (Wrs _ eq_refl) as [A _]. destruct (bp s j) eqn:B; auto; try congruence; rewrite Wb in V; auto; discriminate.
Qed.
