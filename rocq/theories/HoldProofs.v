(** Invariants of the schedule lock during timed waits (HoldModel.v). *)
From Coq Require Import List Arith Bool Lia.
From Verif Require Import Base HoldSpec HoldModel.
Import ListNotations.

Fixpoint cnt (f : nat -> bool) (n : nat) : nat := match n with 0 => 0 | S m => (if f m then 1 else 0) + cnt f m end.
Definition b2n (b : bool) : nat := if b then 1 else 0.

Lemma cnt_out : forall (P : hpc -> bool) p c v n, n <= c -> cnt (fun x => P (upd p c v x)) n = cnt (fun x => P (p x)) n.
Proof. intros P p c v n. induction n; intros L; simpl; auto. rewrite upd_other by lia. rewrite IHn by lia. reflexivity. Qed.
Lemma cnt_upd : forall (P : hpc -> bool) p c v n, c < n ->
  cnt (fun x => P (upd p c v x)) n + b2n (P (p c)) = cnt (fun x => P (p x)) n + b2n (P v).
Proof.
  intros P p c v n. induction n; intros L; [lia|]. simpl. destruct (Nat.eq_dec c n) as [->|N].
  - rewrite upd_same, cnt_out by lia. unfold b2n. lia.
  - rewrite upd_other by auto. assert (c < n) by lia. specialize (IHn H). lia.
Qed.
Lemma cnt_ext : forall f g n, (forall c, c < n -> f c = g c) -> cnt f n = cnt g n.
Proof. intros f g n. induction n; intros H; simpl; auto. rewrite H, IHn; auto. Qed.
Lemma cnt_pos : forall f n c, c < n -> f c = true -> 1 <= cnt f n.
Proof.
  intros f n c. induction n; intros L F; [lia|]. simpl. destruct (Nat.eq_dec c n) as [->|]; [rewrite F; lia|].
  assert (c < n) by lia. specialize (IHn H F). lia.
Qed.

(** The coroutine holds one level of the lock; it re-acquires its own lock. *)
Definition holds (p : hpc) : bool := match p with CWu | CWw | CLk => true | _ => false end.
Definition inlk (p : hpc) : bool := match p with CLk => true | _ => false end.
Definition phd (p : hph) : nat := match p with TPrep => 1 | _ => 0 end.

Record HI (n : nat) (s : hst) : Prop := {
  h_dep : dep s = phd (ph s) + cnt (fun c => holds (pcs s c)) n;
  h_lk : relocks (hh s) = cnt (fun c => inlk (pcs s c)) n;
  h_run : forall c, ph s = TRun c -> c < n;
  h_ww : forall c, pcs s c = CWw -> ph s = TRun c;
  h_wu : forall c, pcs s c = CWu -> wt s c = false;
  h_slp : sleeps (hh s) = true -> ph s = TSlp false;
  h_slq : ph s = TSlp false -> forall c, c < n -> hrun s c = false \/ exists k, hag s k = true;
  h_no : (exists b, ph s = TSlp b) -> forall c, c < n -> pcs s c <> CWu;
  h_cal : forall k, hag s k = true -> calling k (hh s) = true
}.

Lemma hi_init : forall n, HI n hinit.
Proof. intros n. split; simpl; try discriminate; auto; induction n; simpl; auto. Qed.

Lemma any_false : forall s n, hany s n = false -> forall c, c < n -> hrun s c = false.
Proof.
  intros s n H c L. destruct (hrun s c) eqn:E; auto. unfold hany in H.
  assert (X : existsb (hrun s) (seq 0 n) = true) by (apply existsb_exists; exists c; split; auto; apply in_seq; lia). congruence.
Qed.

(** A step of the running coroutine c. *)
Lemma hi_move : forall n s c p' w' ph' d' h', HI n s -> ph s = TRun c -> (forall x, x <> c -> p' x = pcs s x) -> (forall x, x <> c -> w' x = wt s x) ->
  (ph' = TRun c \/ (ph' = TPrep /\ p' c <> CWw)) ->
  d' + b2n (holds (pcs s c)) = dep s + phd ph' + b2n (holds (p' c)) ->
  relocks h' + b2n (inlk (pcs s c)) = relocks (hh s) + b2n (inlk (p' c)) -> (p' c = CWu -> w' c = false) ->
  (sleeps h' = true -> sleeps (hh s) = true) -> (forall k, calling k h' = calling k (hh s)) ->
  HI n (mkH p' w' ph' d' (hag s) h').
Proof.
  intros n s c p' w' ph' d' h' V P A B Q D R U S C. pose proof (h_run _ _ V _ P) as LC.
  assert (M : forall F, cnt (fun x => F (p' x)) n + b2n (F (pcs s c)) = cnt (fun x => F (pcs s x)) n + b2n (F (p' c))).
  { intros F. rewrite <- (cnt_upd F (pcs s) c (p' c) n LC). f_equal. apply cnt_ext. intros x _. f_equal.
    destruct (Nat.eq_dec x c) as [->|N]; [now rewrite upd_same|rewrite upd_other; auto]. }
  pose proof (M holds). pose proof (M inlk). pose proof (h_dep _ _ V) as HD. pose proof (h_lk _ _ V) as HL. rewrite P in HD. simpl in HD.
  split; cbn [pcs wt ph dep hag hh].
  - lia.
  - lia.
  - intros x X. destruct Q as [Q|[Q _]]; congruence.
  - intros x X. destruct (Nat.eq_dec x c) as [->|N].
    + destruct Q as [Q|[Q Z]]; [auto|congruence].
    + rewrite A in X by auto. apply (h_ww _ _ V) in X. congruence.
  - intros x X. destruct (Nat.eq_dec x c) as [->|N]; auto. rewrite B by auto. rewrite A in X by auto. now apply (h_wu _ _ V).
  - intros X. apply S in X. apply (h_slp _ _ V) in X. congruence.
  - intros X. destruct Q as [Q|[Q _]]; congruence.
  - intros [b X]. destruct Q as [Q|[Q _]]; congruence.
  - intros k X. rewrite C. now apply (h_cal _ _ V).
Qed.

Lemma hi_step : forall n s l s', HI n s -> hstep n s l = Some s' -> HI n s'.
Proof.
  intros n s l s' V E. assert (NR : forall c, ph s = TRun c -> relocks (hh s) = cnt (fun x => inlk (pcs s x)) n) by (intros; apply V).
  pose proof (h_dep _ _ V) as HD. pose proof (h_lk _ _ V) as HL. destruct l; unfold hstep in E.
  1-8: destruct (ph s) as [c| | |b|] eqn:P; try discriminate E; pose proof (h_run _ _ V _ P) as LC;
    pose proof (cnt_pos (fun x => holds (pcs s x)) n c LC) as CP; pose proof (cnt_pos (fun x => inlk (pcs s x)) n c LC) as CQ;
    cbn beta in CP, CQ; destruct (pcs s c) eqn:PC; try discriminate E; cbn [holds inlk] in CP, CQ; try (destruct (wt s c) eqn:W; try discriminate E; [idtac]);
    injection E as <-; unfold setpc, setwt, setph, hlog; cbn [pcs wt ph dep hag hh];
    (apply (hi_move n s c);
     [ exact V | exact P
     | intros x N; rewrite ?upd_other by auto; reflexivity
     | intros x N; rewrite ?upd_other by auto; reflexivity
     | rewrite ?upd_same, ?P; solve [ left; reflexivity | right; split; [reflexivity|rewrite ?PC; discriminate] ]
     | rewrite ?upd_same, ?PC, ?P; cbn [phd holds b2n]; try specialize (CP eq_refl); cbn [phd] in HD; lia
     | rewrite ?upd_same, ?PC; cbn [relocks inlk b2n]; try specialize (CQ eq_refl); lia
     | rewrite ?upd_same; intros X; first [ discriminate X | exact W | apply (h_wu _ _ V c X) | congruence ]
     | simpl; auto
     | simpl; auto ]).
  - (* LPick *)
    destruct (ph s) eqn:P; try discriminate. destruct (d <? n) eqn:L; [|discriminate]. apply Nat.ltb_lt in L. destruct (hrun s d) eqn:RD; [|discriminate].
    injection E as <-. simpl in HD. split; cbn [pcs wt ph dep hag hh setph phd]; try apply V; try discriminate; try lia.
    + intros c X. now injection X as <-.
    + intros c X. apply (h_ww _ _ V) in X. congruence.
    + intros X. apply (h_slp _ _ V) in X. congruence.
    + intros [b X]. discriminate.
  - (* LIdle *)
    destruct (ph s) eqn:P; try discriminate. destruct (hany s n) eqn:AN; [discriminate|]. injection E as <-. simpl in HD.
    split; cbn [pcs wt ph dep hag hh setph phd]; try apply V; try discriminate; try lia.
    + intros c X. apply (h_ww _ _ V) in X. congruence.
    + intros X. apply (h_slp _ _ V) in X. congruence.
    + intros [b X]. discriminate.
  - (* LChk *)
    destruct (ph s) eqn:P; try discriminate. simpl in HD. destruct (hany s n) eqn:AN; injection E as <-.
    + split; cbn [pcs wt ph dep hag hh setph phd]; try apply V; try discriminate; try lia.
      * intros c X. apply (h_ww _ _ V) in X. congruence.
      * intros X. apply (h_slp _ _ V) in X. congruence.
      * intros [b X]. discriminate.
    + split; cbn [pcs wt ph dep hag hh setph hlog phd]; try apply V; try discriminate; try lia; auto.
      * intros c X. apply (h_ww _ _ V) in X. congruence.
      * intros _ c L. left. apply (any_false _ _ AN c L).
      * intros _ c L X. pose proof (any_false _ _ AN c L) as Y. unfold hrun in Y. rewrite X, (h_wu _ _ V c X) in Y. discriminate.
  - (* LRise *)
    destruct (ph s) eqn:P; try discriminate. injection E as <-. simpl in HD.
    split; cbn [pcs wt ph dep hag hh setph hlog phd]; try apply V; try discriminate; try lia.
    + intros c X. apply (h_ww _ _ V) in X. congruence.
    + intros [b X]. discriminate.
  - (* LAgain *)
    destruct (ph s) eqn:P; try discriminate. injection E as <-. simpl in HD.
    split; cbn [pcs wt ph dep hag hh setph hlog phd]; try apply V; try discriminate; try lia.
    + intros c X. apply (h_ww _ _ V) in X. congruence.
    + intros X. apply (h_slp _ _ V) in X. congruence.
    + intros [b X]. discriminate.
  - (* LAsleep *)
    destruct (ph s) eqn:P; try discriminate. injection E as <-. simpl in HD.
    split; cbn [pcs wt ph dep hag hh setph hlog phd]; try apply V; try discriminate; try lia.
    + intros c X. apply (h_ww _ _ V) in X. congruence.
    + intros X. apply (h_slp _ _ V) in X. congruence.
    + intros [b X]. discriminate.
  - (* LOwn *)
    destruct (ph s) eqn:P; try discriminate. injection E as <-.
    split; cbn [pcs wt ph dep hag hh setwt]; try apply V.
    + intros x X. unfold upd. destruct (x =? d); auto. now apply (h_wu _ _ V).
    + congruence.
  - (* LRel *)
    destruct (hag s k) eqn:A; [discriminate|]. injection E as <-.
    split; cbn [pcs wt ph dep hag hh]; try apply V; auto.
    + intros x X. unfold upd. destruct (x =? d); auto. now apply (h_wu _ _ V).
    + intros X c L. right. exists k. apply upd_same.
    + intros k0 X. simpl. destruct (Nat.eqb_spec k0 k); auto. rewrite upd_other in X by auto. now apply (h_cal _ _ V).
  - (* LWake *)
    destruct (hag s k) eqn:A; [|discriminate]. destruct (dep s) eqn:D; [|discriminate]. injection E as <-.
    split; cbn [pcs wt ph dep hag hh]; try apply V; try discriminate.
    + destruct (ph s); simpl in *; lia.
    + intros c X. apply (h_run _ _ V). destruct (ph s); congruence.
    + intros c X. apply (h_ww _ _ V) in X. now rewrite X.
    + intros X. destruct (ph s); discriminate.
    + intros [b X]. apply (h_no _ _ V). destruct (ph s); try discriminate. eauto.
    + intros k0 X. simpl. destruct (Nat.eqb_spec k0 k); [subst; rewrite upd_same in X; discriminate|]. rewrite upd_other in X by auto. now apply (h_cal _ _ V).
Qed.
Lemma hi_run : forall n ls s, run (hstep n) hinit ls = Some s -> HI n s.
Proof. intros n ls s R. refine (run_inv (hstep n) (HI n) hinit _ _ ls R); [apply hi_init|]. intros. eapply hi_step; eauto. Qed.
