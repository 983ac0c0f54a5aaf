(** C35, C67, C68: handles and the life of a coroutine. *)
From Coq Require Import List Arith Bool Lia.
From Verif Require Import Base HandleSpec HandleModel.
Import ListNotations.

(** The coroutine in a handle object. *)
Definition inside (o : hobj) : option nat := match o with OCtx c | OJoin c _ => Some c | _ => None end.

Record HI (s : hst) : Prop := {
  i_ref : forall h, refers h (hh s) = inside (ob s h);
  i_lck : forall c, lck (cx s c) = true <-> exists h, inside (ob s h) = Some c;
  i_uniq : forall h k c, inside (ob s h) = Some c -> inside (ob s k) = Some c -> h = k;
  i_made : forall c, made_ (cx s c) = true <-> made c (hh s);
  i_own : forall h c, inside (ob s h) = Some c -> made_ (cx s c) = true /\ dead (cx s c) = false;
  i_done : forall c, done (cx s c) = true <-> ended c (hh s);
  i_dmade : forall c, made_ (cx s c) = false -> done (cx s c) = false /\ dead (cx s c) = false /\ crr (cx s c) = false;
  i_run : forall c, running c (hh s) = crr (cx s c);
  i_dead : forall c, dead (cx s c) = true <-> In (AKill c) (hh s);
  i_rest : forall c, dead (cx s c) = true -> done (cx s c) = true /\ crr (cx s c) = false;
  i_wts : forall c, wts s c <> 0 -> exists h, ob s h = OCtx c;
  i_kill : kill_ok (hh s) }.

Lemma kcons : forall e H, kill_ok H ->
  (forall c, e = AKill c -> made c H /\ ended c H /\ running c H = false /\ (forall h, refers h H <> Some c) /\ ~ In (AKill c) H) ->
  kill_ok (e :: H).
Proof.
  intros e H K N post c pre E. destruct post as [|y post]; simpl in E; injection E as E1 E2; subst; eauto.
Qed.
Lemma made_cons : forall e c H, made c (e :: H) <-> (exists h, e = ANew h c) \/ made c H.
Proof. intros. unfold made. simpl. split; [intros [h [A|A]]; eauto|intros [[h ->]|[h A]]; eauto]. Qed.
Lemma ended_cons : forall e c H, ended c (e :: H) <-> (exists x, e = AEnd c x) \/ ended c H.
Proof. intros. unfold ended. simpl. split; [intros [h [A|A]]; eauto|intros [[h ->]|[h A]]; eauto]. Qed.

(** Steps that end well, by kind of change. *)
Lemma hi_same : forall s s', HI s -> (forall h, inside (ob s' h) = inside (ob s h)) ->
  (forall c, wts s' c <> 0 -> exists h, ob s' h = OCtx c) -> hh s' = hh s ->
  (forall c, made_ (cx s' c) = made_ (cx s c) /\ dead (cx s' c) = dead (cx s c) /\ done (cx s' c) = done (cx s c) /\
             lck (cx s' c) = lck (cx s c) /\ crr (cx s' c) = crr (cx s c)) -> HI s'.
Proof.
  intros s s' I O W H X. destruct I.
  assert (XM := fun c => proj1 (X c)). assert (XD := fun c => proj1 (proj2 (X c))). assert (XN := fun c => proj1 (proj2 (proj2 (X c)))).
  assert (XL := fun c => proj1 (proj2 (proj2 (proj2 (X c))))). assert (XC := fun c => proj2 (proj2 (proj2 (proj2 (X c))))).
  constructor; intros; rewrite ?H, ?XM, ?XD, ?XN, ?XL, ?XC, ?O in *; eauto.
  rewrite i_lck0. split; intros [h A]; exists h; rewrite ?O in *; auto.
Qed.

Lemma inside_ob : forall o c, inside o = Some c -> o = OCtx c \/ exists k, o = OJoin c k.
Proof. intros [| |x|x k] c E; simpl in E; try discriminate; injection E as ->; eauto. Qed.

Ltac bd := repeat match goal with
  | H : _ && _ = true |- _ => apply andb_prop in H; destruct H
  | H : negb _ = true |- _ => apply negb_true_iff in H
  | H : (_ =? _) = true |- _ => apply Nat.eqb_eq in H
  end.
Ltac eqs := repeat match goal with
  | |- context[?a =? ?b] => let N := fresh "N" in destruct (a =? b) eqn:N; [apply Nat.eqb_eq in N|apply Nat.eqb_neq in N]; subst; simpl in *
  | H : context[?a =? ?b] |- _ => let N := fresh "N" in destruct (a =? b) eqn:N; [apply Nat.eqb_eq in N|apply Nat.eqb_neq in N]; subst; simpl in *
  end.

(** One event about one coroutine, handles unchanged. *)
Lemma hi_ctx : forall s c e x, HI s -> made_ (cx s c) = true ->
  (exists b, e = AEnd c b) \/ e = ARun c \/ e = AStop c \/ e = AKill c ->
  made_ x = true -> lck x = lck (cx s c) ->
  (done x = true <-> done (cx s c) = true \/ exists b, e = AEnd c b) ->
  crr x = running c (e :: hh s) ->
  (dead x = true <-> dead (cx s c) = true \/ e = AKill c) ->
  (dead x = true -> done x = true /\ crr x = false) ->
  (lck x = true -> dead x = false) ->
  (e = AKill c -> done (cx s c) = true /\ lck x = false /\ crr (cx s c) = false /\ dead (cx s c) = false) ->
  HI (hlog e (setx s c x)).
Proof.
  intros s c e x I M E XM XL XN XC XD XR XO K. pose proof I as I0. destruct I.
  assert (RF : forall h, refers h (e :: hh s) = refers h (hh s)) by (intros; destruct E as [[b ->]|[-> |[-> | ->]]]; reflexivity).
  assert (RM : forall d, made d (e :: hh s) <-> made d (hh s)).
  { intros. rewrite made_cons. split; [intros [[h A]|A]; auto|auto]. destruct E as [[b ->]|[-> |[-> | ->]]]; discriminate A. }
  constructor; simpl; intros.
  - exact (eq_trans (RF h) (i_ref0 h)).
  - unfold upd. rewrite <- i_lck0. eqs; rewrite ?XL; tauto.
  - eauto.
  - rewrite RM, <- i_made0. unfold upd. eqs; tauto.
  - destruct (i_own0 _ _ H) as [A B]. unfold upd. eqs; auto. split; auto. apply XO. rewrite XL. apply i_lck0. eauto.
  - rewrite ended_cons, <- i_done0. unfold upd. eqs; [tauto|]. split; [tauto|].
    intros [[b A]|A]; auto. subst. destruct E as [[b' E]|[E|[E|E]]]; try discriminate E. injection E as E _. contradiction.
  - unfold upd in *. eqs; eauto. congruence.
  - unfold upd. destruct (Nat.eqb_spec c0 c) as [->|N].
    + simpl in XC. symmetry. exact XC.
    + rewrite <- i_run0. apply Nat.eqb_neq in N. destruct E as [[b ->]|[-> |[-> | ->]]]; simpl; rewrite ?N; reflexivity.
  - unfold upd. destruct (Nat.eqb_spec c0 c) as [->|N].
    + rewrite XD, <- i_dead0. split; [intros [A|A]; auto|intros [A|A]; auto].
    + rewrite i_dead0. split; [auto|intros [A|A]; auto]. subst. destruct E as [[b' E]|[E|[E|E]]]; try discriminate E. congruence.
  - unfold upd in *. eqs; eauto.
  - eauto.
  - apply kcons; auto. intros d ->. assert (d = c) as -> by (destruct E as [[b' E]|[E|[E|E]]]; congruence).
    destruct (K eq_refl) as (A&B&C&D). repeat split.
    + now apply i_made0.
    + now apply i_done0.
    + now rewrite i_run0.
    + intros h Z. rewrite i_ref0 in Z. assert (lck (cx s c) = true) by (apply i_lck0; eauto). congruence.
    + rewrite <- i_dead0. congruence.
Qed.

(** A handle gives up its coroutine. *)
Lemma hi_give : forall s h c o e, HI s -> inside (ob s h) = Some c -> (exists k, ob s h = OJoin c k) \/ wts s c = 0 -> inside o = None ->
  HI (hlog (AGive h) (setx (seto s h o) c (mkX (made_ (cx s c)) (dead (cx s c)) (done (cx s c)) e false (crr (cx s c))))).
Proof.
  intros s h c o e I HO W NO. destruct I. constructor; simpl; intros.
  - unfold upd. eqs; congruence.
  - unfold upd. destruct (Nat.eqb_spec c0 c) as [->|N]; simpl.
    + split; [discriminate|]. intros [k A]. eqs; [congruence|]. exfalso. apply N. eauto.
    + rewrite i_lck0. split; intros [k A]; exists k; eqs; auto; congruence.
  - unfold upd in *. eqs; try congruence; eauto.
  - rewrite made_cons, <- i_made0. unfold upd. eqs; simpl; (split; [auto|intros [[? A]|A]; [discriminate|auto]]).
  - unfold upd in *. eqs; try congruence; eauto.
  - rewrite ended_cons, <- i_done0. unfold upd. eqs; simpl; (split; [auto|intros [[? A]|A]; [discriminate|auto]]).
  - unfold upd in *. eqs; simpl in *; eauto.
  - unfold upd. eqs; simpl; auto.
  - unfold upd. rewrite <- (i_dead0 c0). destruct (Nat.eqb_spec c0 c) as [->|N]; simpl.
    + rewrite i_dead0. split; [auto|intros [A|A]; [discriminate|auto]].
    + rewrite i_dead0. split; [auto|intros [A|A]; [discriminate|auto]].
  - unfold upd in *. eqs; simpl in *; eauto.
  - destruct (i_wts0 _ H) as [k A]. exists k. unfold upd. destruct (Nat.eqb_spec k h) as [->|N]; auto. exfalso.
    rewrite A in HO. simpl in HO. injection HO as ->. destruct W as [[k W]|W]; congruence.
  - apply kcons; auto. intros; discriminate.
Qed.

(** Moving. *)
Lemma hi_move : forall s d src o, HI s -> inside (ob s d) = None -> d <> src -> (exists c, o = OCtx c) \/ o = OEmpty -> o = ob s src ->
  (forall c, o = OCtx c -> wts s c = 0) -> HI (transfer s d src o).
Proof.
  intros s d src o I ND NE O EO W. destruct I. unfold transfer. constructor; simpl; intros.
  - unfold upd. eqs; try congruence.
    all: rewrite ?i_ref0; try congruence.
  - rewrite i_lck0. unfold upd. split; intros [k A].
    + destruct (Nat.eq_dec k src) as [->|N]; [exists d|exists k]; eqs; congruence.
    + eqs; try congruence; eauto.
  - assert (Z : forall k, inside (ob s k) = Some c -> inside o = Some c -> k = src) by (intros; apply i_uniq0 with c; congruence).
    unfold upd in *. eqs; try congruence; eauto.
    all: exfalso; match goal with N : ?k <> ?z |- _ => now apply N, Z end.
  - rewrite made_cons, <- i_made0. split; [auto|intros [[? A]|A]; [discriminate|auto]].
  - unfold upd in *. eqs; try congruence; eauto.
  - rewrite ended_cons, <- i_done0. split; [auto|intros [[? A]|A]; [discriminate|auto]].
  - eauto.
  - auto.
  - rewrite i_dead0. split; [auto|intros [A|A]; [discriminate|auto]].
  - auto.
  - destruct (i_wts0 _ H) as [k A]. exists k. unfold upd. eqs; auto; try congruence.
    all: exfalso; first [rewrite A in ND; discriminate|apply H; apply W; congruence].
  - apply kcons; auto. intros; discriminate.
Qed.

Lemma hi_init : HI hinit.
Proof.
  constructor; simpl; try (intros; auto; discriminate).
  - intros c. split; [discriminate|intros [? A]; discriminate].
  - intros c. split; [discriminate|intros [? A]; destruct A].
  - intros c. split; [discriminate|intros [? A]; destruct A].
  - intros c. split; [discriminate|tauto].
  - intros c A. tauto.
  - intros post c pre E. destruct post; discriminate E.
Qed.

Lemma still_shape : forall s o, still s o = true -> (o = OEmpty \/ exists c, o = OCtx c) /\ (forall c, o = OCtx c -> wts s c = 0).
Proof. intros s [| |c|] E; simpl in E; try discriminate; bd; split; eauto; intros; congruence. Qed.

Lemma use_ok : forall s c r s', use s c r = HOk s' -> dead (cx s c) = false /\ r = HOk s'.
Proof. intros s c r s' E. unfold use in E. destruct (dead _); [discriminate|auto]. Qed.

Definition no_shut (ls : list hlbl) : Prop := forall c, ~ In (LShut c) ls.

Lemma wts_keep : forall s h o, HI s -> inside o = inside (ob s h) -> (forall c, inside o = Some c -> wts s c = 0) ->
  forall c, wts s c <> 0 -> exists k, ob (seto s h o) k = OCtx c.
Proof.
  intros s h o I E W c H. destruct (i_wts _ I _ H) as [k A]. exists k. simpl. unfold upd. destruct (Nat.eqb_spec k h) as [->|N]; auto.
  exfalso. rewrite A in E. simpl in E. apply W in E. contradiction.
Qed.

Lemma hi_seto : forall s h o, HI s -> inside o = inside (ob s h) -> (forall c, inside o = Some c -> wts s c = 0) -> HI (seto s h o).
Proof.
  intros s h o I E W. apply (hi_same s); simpl; auto 10.
  - intros k. unfold upd. destruct (Nat.eqb_spec k h) as [->|N]; auto.
  - intros c H. destruct (wts_keep s h o I E W c H) as [k A]. exists k; exact A.
Qed.

Lemma hi_new : forall s h c, HI s -> ob s h = ONone -> made_ (cx s c) = false ->
  HI (hlog (ANew h c) (setx (seto s h (OCtx c)) c (mkX true false false false true false))).
Proof.
  intros s h c I O M. destruct I. destruct (i_dmade0 _ M) as (D1&D2&D3).
  assert (NR : forall k, inside (ob s k) <> Some c) by (intros k A; destruct (i_own0 _ _ A); congruence).
  constructor; simpl; intros.
  - unfold upd. eqs; auto.
  - unfold upd. destruct (Nat.eqb_spec c0 c) as [->|N]; simpl.
    + split; auto. intros _. exists h. now rewrite Nat.eqb_refl.
    + rewrite i_lck0. split; intros [k A]; exists k; eqs; auto; try congruence. rewrite O in A. discriminate.
  - unfold upd in *. eqs; auto; try (injection H as ->); try (injection H0 as ->); try (exfalso; eapply NR; eassumption). eauto.
  - rewrite made_cons, <- i_made0. unfold upd. destruct (Nat.eqb_spec c0 c) as [->|N]; simpl.
    + split; eauto.
    + split; [auto|intros [[? A]|A]; [congruence|auto]].
  - unfold upd in *. destruct (Nat.eqb_spec c0 c) as [->|N]; simpl; auto. eqs; [congruence|eauto].
  - rewrite ended_cons, <- i_done0. unfold upd. destruct (Nat.eqb_spec c0 c) as [->|N]; simpl.
    + rewrite D1. split; [discriminate|intros [[? A]|A]; discriminate].
    + split; [auto|intros [[? A]|A]; [discriminate|auto]].
  - unfold upd in *. eqs; simpl in *; auto.
  - unfold upd. eqs; simpl; auto. now rewrite i_run0.
  - unfold upd. destruct (Nat.eqb_spec c0 c) as [->|N]; simpl.
    + split; [discriminate|]. intros [A|A]; [discriminate|]. apply i_dead0 in A. congruence.
    + rewrite i_dead0. split; [auto|intros [A|A]; [discriminate|auto]].
  - unfold upd in *. eqs; simpl in *; auto.
  - destruct (i_wts0 _ H) as [k A]. exists k. unfold upd. eqs; congruence.
  - apply kcons; auto. intros; discriminate.
Qed.

Lemma hi_step : forall s l s', HI s -> (forall c, l <> LShut c) -> hstep_ok s l = Some s' -> HI s'.
Proof.
  intros s l s' I NS E. unfold hstep_ok in E. destruct (hstep s l) as [[t| | |]|] eqn:ST; try discriminate. injection E as ->.
  destruct l; simpl in ST.
  - destruct (ob s h) eqn:O; try discriminate. destruct (made_ (cx s c)) eqn:M; try discriminate. injection ST as <-. now apply hi_new.
  - destruct (ob s d) eqn:O; try discriminate. destruct (still s (ob s s0)) eqn:S; try discriminate. injection ST as <-.
    apply still_shape in S as [S W]. apply hi_move; auto; [now rewrite O| |tauto]. intros ->. rewrite O in S. destruct S as [S|[? S]]; discriminate.
  - destruct (still s (ob s d) && still s (ob s s0)) eqn:S; try discriminate. bd.
    destruct (Nat.eqb_spec d s0) as [->|N]; [injection ST as <-; auto|].
    apply still_shape in H as [Sd Wd]. apply still_shape in H0 as [Ss Ws].
    destruct (ob s d) eqn:O; try (destruct Sd as [Sd|[? Sd]]; discriminate).
    + injection ST as <-. apply hi_move; auto; [now rewrite O|tauto].
    + injection ST as ST. apply use_ok in ST as [_ ST]. injection ST as <-. apply hi_seto; auto; simpl.
      * now rewrite O.
      * intros c0 X. injection X as <-. auto.
  - destruct (ob s h) eqn:O; try discriminate; [injection ST as <-; auto|]. destruct (wts s c =? 0) eqn:W; try discriminate. bd.
    injection ST as ST. apply use_ok in ST as [_ ST]. injection ST as <-. apply hi_seto; auto; simpl; [now rewrite O|].
    intros c0 X. injection X as <-. auto.
  - destruct (ob s h) eqn:O; try discriminate.
    { injection ST as <-. apply hi_seto; auto; simpl; [now rewrite O|discriminate]. }
    destruct (wts s c =? 0) eqn:W; try discriminate. bd.
    injection ST as ST. apply use_ok in ST as [_ ST]. injection ST as <-. apply hi_seto; auto; simpl; [now rewrite O|].
    intros c0 X. injection X as <-. auto.
  - destruct (ob s h) eqn:O; try discriminate; [injection ST as <-; auto|]. destruct (wts s c =? 0) eqn:W; try discriminate. bd.
    injection ST as ST. apply use_ok in ST as [_ ST]. injection ST as <-.
    apply (hi_give s h c OEmpty (exc (cx s c))); auto. now rewrite O.
  - destruct (ob s h) eqn:O; try discriminate. destruct (done (cx s c)) eqn:D; try discriminate.
    assert (G : forall o, inside o = None -> HI (seto (give (clear_exc s c) h c) h o)).
    { intros o NO. pose proof (hi_give s h c o false I) as G. rewrite O in G. specialize (G eq_refl (or_introl (ex_intro _ _ eq_refl)) NO).
      apply (hi_same _ _ G); simpl; auto 10.
      - intros q. unfold upd. eqs; auto.
      - intros c0 H. destruct (i_wts _ G _ H) as [q A]. exists q. simpl in *. unfold upd in *. eqs; auto.
      - intros c0. unfold upd. eqs; auto. }
    destruct k.
    + injection ST as ST. apply use_ok in ST as [_ ST]. injection ST as <-. pose proof (G OEmpty eq_refl) as X.
      apply (hi_same _ _ X); simpl; auto 10.
      * intros q. unfold upd. eqs; auto.
      * intros c0 H. destruct (i_wts _ X _ H) as [q A]. exists q. simpl in *. unfold upd in *. eqs; auto.
    + injection ST as ST. apply use_ok in ST as [_ ST]. destruct (exc (cx s c)); try discriminate. injection ST as <-. now apply G.
    + destruct (still s (ob s src)) eqn:S; try discriminate.
      injection ST as ST. apply use_ok in ST as [_ ST]. destruct (exc (cx s c)); try discriminate. injection ST as <-.
      apply still_shape in S as [Ss Ws]. assert (NE : h <> src) by (intros <-; rewrite O in Ss; destruct Ss as [Ss|[? Ss]]; discriminate).
      apply hi_move; simpl; auto.
      * apply (hi_same _ _ (G OEmpty eq_refl)); simpl; auto 10.
        -- intros q. unfold upd. eqs; auto.
        -- intros c0 H. destruct (i_wts _ (G OEmpty eq_refl) _ H) as [q A]. exists q. simpl in *. unfold upd in *. eqs; auto.
      * unfold upd. now rewrite Nat.eqb_refl.
      * destruct Ss; auto.
      * unfold upd. eqs; congruence.
  - destruct (ob s h) eqn:O; try discriminate. injection ST as ST. apply use_ok in ST as [_ ST]. injection ST as <-.
    apply (hi_same s); simpl; auto 10. intros z Hz. destruct (Nat.eq_dec z c) as [Ez|N]; [subst z; eauto|]. apply (i_wts _ I). unfold upd in Hz. apply Nat.eqb_neq in N. now rewrite N in Hz.
  - destruct (wts s c) eqn:W; try discriminate. destruct (done (cx s c)) eqn:D; try discriminate.
    injection ST as ST. apply use_ok in ST as [_ ST]. injection ST as <-.
    apply (hi_same s); simpl; auto 10.
    + intros z Hz. apply (i_wts _ I). destruct (Nat.eq_dec z c) as [Ez|N]; [subst z; congruence|]. unfold upd in Hz. apply Nat.eqb_neq in N. now rewrite N in Hz.
    + intros z. unfold upd. eqs; auto.
  - destruct (made_ (cx s c) && negb (dead (cx s c)) && negb (done (cx s c)) && negb (crr (cx s c))) eqn:G; try discriminate. bd.
    injection ST as <-. apply hi_ctx; simpl; auto; try tauto; try congruence.
    + rewrite H1. split; [discriminate|]. intros [A|[? A]]; discriminate.
    + now rewrite Nat.eqb_refl.
    + rewrite H2. split; [discriminate|]. intros [A|A]; discriminate.
  - destruct (crr (cx s c)) eqn:C; try discriminate. injection ST as ST. apply use_ok in ST as [DD ST]. injection ST as <-.
    assert (M : made_ (cx s c) = true) by (destruct (made_ (cx s c)) eqn:M; auto; apply (i_dmade _ I) in M; intuition congruence).
    apply hi_ctx; simpl; auto; try tauto; try congruence.
    + split; [auto|]. intros [A|[? A]]; [auto|discriminate].
    + now rewrite Nat.eqb_refl.
    + split; [auto|]. intros [A|A]; [auto|discriminate].
  - destruct (crr (cx s c) && negb (done (cx s c))) eqn:C; try discriminate. bd. injection ST as ST. apply use_ok in ST as [DD ST]. injection ST as <-.
    assert (M : made_ (cx s c) = true) by (destruct (made_ (cx s c)) eqn:M; auto; apply (i_dmade _ I) in M; intuition congruence).
    apply hi_ctx; simpl; auto; try tauto; try congruence.
    + eauto.
    + split; eauto.
    + now rewrite (i_run _ I).
    + split; [auto|]. intros [A|A]; [auto|discriminate].
  - destruct (made_ (cx s c) && negb (dead (cx s c)) && done (cx s c) && negb (lck (cx s c)) && negb (crr (cx s c))) eqn:G; try discriminate. bd.
    injection ST as <-. unfold destroy. apply hi_ctx; simpl; auto; try tauto; try congruence.
    + now rewrite (i_run _ I).
  - exfalso. eapply NS. reflexivity.
Qed.

Lemma hi_run : forall ls s, no_shut ls -> run hstep_ok hinit ls = Some s -> HI s.
Proof.
  assert (G : forall ls s t, HI s -> no_shut ls -> run hstep_ok s ls = Some t -> HI t).
  { induction ls as [|l ls IH]; simpl; intros s t I NS R; [congruence|].
    destruct (hstep_ok s l) as [m|] eqn:E; try discriminate. apply IH with m; auto.
    - eapply hi_step; eauto. intros c ->. apply (NS c). now left.
    - intros c A. apply (NS c). now right. }
  intros. eapply G; eauto. apply hi_init.
Qed.

(** ** C35: reclaimed once, never early, as long as no thread is shut down *)
Theorem handle_kill : forall ls s, no_shut ls -> run hstep_ok hinit ls = Some s -> kill_ok (hh s) /\ unique (hh s).
Proof.
  intros ls s N R. pose proof (hi_run _ _ N R) as I. split; [apply I|].
  intros h k c A B. rewrite !(i_ref _ I) in *. eapply i_uniq; eauto.
Qed.
(** A coroutine a handle refers to has been made and is not destroyed, and no operation touches a destroyed one. *)
Theorem handle_alive : forall ls s, no_shut ls -> run hstep_ok hinit ls = Some s ->
  (forall h c, refers h (hh s) = Some c -> made c (hh s) /\ ~ In (AKill c) (hh s)) /\
  (forall l, hstep s l <> Some HFreed).
Proof.
  intros ls s N R. pose proof (hi_run _ _ N R) as I. split.
  - intros h c A. rewrite (i_ref _ I) in A. destruct (i_own _ I _ _ A) as [X Y]. split; [now apply (i_made _ I)|].
    rewrite <- (i_dead _ I). congruence.
  - assert (U : forall h c r, inside (ob s h) = Some c -> use s c r = HFreed -> r = HFreed).
    { intros h c r A B. unfold use in B. destruct (i_own _ I _ _ A) as [_ Y]. now rewrite Y in B. }
    intros l E. destruct l; simpl in E.
    + destruct (ob s h); try discriminate. destruct (made_ _); discriminate.
    + destruct (ob s d); try discriminate. destruct (still _ _); discriminate.
    + destruct (still _ _ && still _ _); try discriminate. destruct (d =? s0); try discriminate.
      destruct (ob s d) eqn:O; try discriminate. injection E as E. apply (U d) in E; [discriminate|now rewrite O].
    + destruct (ob s h) eqn:O; try discriminate. destruct (wts s c =? 0); try discriminate. injection E as E.
      apply (U h) in E; [discriminate|now rewrite O].
    + destruct (ob s h) eqn:O; try discriminate. destruct (wts s c =? 0); try discriminate. injection E as E.
      apply (U h) in E; [discriminate|now rewrite O].
    + destruct (ob s h) eqn:O; try discriminate. destruct (wts s c =? 0); try discriminate. injection E as E.
      apply (U h) in E; [discriminate|now rewrite O].
    + destruct (ob s h) eqn:O; try discriminate. destruct (done (cx s c)); try discriminate.
      destruct k; [| |destruct (still s (ob s src)); try discriminate]; injection E as E; (apply (U h) in E; [|now rewrite O]);
        try discriminate; destruct (exc (cx s c)); discriminate.
    + destruct (ob s h) eqn:O; try discriminate. injection E as E. apply (U h) in E; [discriminate|now rewrite O].
    + destruct (wts s c) eqn:W; try discriminate. destruct (done (cx s c)); try discriminate. injection E as E.
      destruct (i_wts _ I c) as [h O]; [congruence|]. apply (U h) in E; [discriminate|now rewrite O].
    + destruct (_ && _ && _ && _); discriminate.
    + destruct (crr (cx s c)) eqn:C; try discriminate. injection E as E. unfold use in E.
      destruct (dead (cx s c)) eqn:D; try discriminate. apply (i_rest _ I) in D. intuition congruence.
    + destruct (crr (cx s c)) eqn:C; try discriminate. destruct (done (cx s c)); simpl in E; try discriminate. injection E as E. unfold use in E.
      destruct (dead (cx s c)) eqn:D; try discriminate. apply (i_rest _ I) in D. intuition congruence.
    + destruct (_ && _ && _ && _ && _); discriminate.
    + destruct (_ && _); discriminate.
Qed.
(** Nothing is leaked: a coroutine that ended, is not executed and belongs to no handle has been destroyed or can be. *)
Theorem handle_reclaimable : forall ls s c, no_shut ls -> run hstep_ok hinit ls = Some s ->
  made c (hh s) -> ended c (hh s) -> running c (hh s) = false -> (forall h, refers h (hh s) <> Some c) ->
  In (AKill c) (hh s) \/ exists s', hstep_ok s (LReap c) = Some s' /\ In (AKill c) (hh s').
Proof.
  intros ls s c N R M E RN NR. pose proof (hi_run _ _ N R) as I. destruct (dead (cx s c)) eqn:D; [left; now apply (i_dead _ I)|right].
  apply (i_made _ I) in M. apply (i_done _ I) in E. rewrite (i_run _ I) in RN.
  assert (L : lck (cx s c) = false).
  { destruct (lck (cx s c)) eqn:L; auto. apply (i_lck _ I) in L as [h L]. exfalso. apply (NR h). now rewrite (i_ref _ I). }
  unfold hstep_ok. simpl. rewrite M, D, E, L, RN. simpl. eexists. split; [reflexivity|now left].
Qed.
(** Moving hands the coroutine over and leaves the source empty. *)
Theorem handle_move : forall ls s s' d src, no_shut ls -> run hstep_ok hinit ls = Some s -> hstep_ok s (LMoveC d src) = Some s' ->
  refers d (hh s') = refers src (hh s) /\ refers src (hh s') = None.
Proof.
  intros ls s s' d src N R E. unfold hstep_ok in E. simpl in E. destruct (ob s d) eqn:O; try discriminate.
  destruct (still s (ob s src)) eqn:S; try discriminate. injection E as <-. simpl. rewrite Nat.eqb_refl.
  assert (NE : src <> d) by (intros ->; rewrite O in S; discriminate).
  apply Nat.eqb_neq in NE. now rewrite NE, Nat.eqb_refl.
Qed.

(** Two coroutines and four handles: 1 is moved and assigned over, 0 is detached before it ends; both are reclaimed. *)
Definition handleW : list hlbl :=
  [LNew 0 0; LNew 1 1; LMoveC 2 1; LWait 2; LRun 1; LEnd 1 false; LWaitEnd 1; LStop 1; LDetach 0; LNew 3 2; LMoveA 2 3; LJoinEnd 2; LReap 1;
   LRun 0; LEnd 0 true; LStop 0; LReap 0].
Example handle_example : no_shut handleW /\ exists s, run hstep_ok hinit handleW = Some s /\
  refers 2 (hh s) = Some 2 /\ refers 0 (hh s) = None /\ refers 1 (hh s) = None /\ In (AKill 1) (hh s) /\ In (AKill 0) (hh s).
Proof.
  split; [intros c; simpl; intuition discriminate|]. eexists. split; [vm_compute; reflexivity|]. simpl. intuition auto 20.
Qed.

(** Shutting a thread down destroys what is on it: coroutines that run, that have not finished, that handles refer to. *)
Theorem handle_shut_refuted : exists ls s, run hstep_ok hinit ls = Some s /\ ~ kill_ok (hh s) /\ hstep s (LJoin 0) = Some HFreed.
Proof.
  exists [LNew 0 0; LShut 0]. eexists. split; [vm_compute; reflexivity|]. split; [|vm_compute; reflexivity].
  intros K. destruct (K [] 0 _ eq_refl) as (_&[e A]&_). simpl in A. destruct A as [A|[]]. discriminate A.
Qed.

(** ** C67: giving up a handle never ends the program: false *)
(** The destructor and the move assignment are noexcept and call join, which throws what the coroutine threw. *)
Theorem handle_terminate_refuted :
  (exists ls s, no_shut ls /\ run hstep_ok hinit (ls ++ [LDtor 0]) = Some s /\ hstep s (LJoinEnd 0) = Some HTerm) /\
  (exists ls s, no_shut ls /\ run hstep_ok hinit (ls ++ [LMoveA 0 1]) = Some s /\ hstep s (LJoinEnd 0) = Some HTerm).
Proof.
  split.
  - exists [LNew 0 0; LRun 0; LEnd 0 true; LStop 0]. eexists. split; [intros c; simpl; intuition discriminate|]. split; vm_compute; reflexivity.
  - exists [LNew 0 0; LNew 1 1; LRun 0; LEnd 0 true; LStop 0]. eexists.
    split; [intros c; simpl; intuition discriminate|]. split; vm_compute; reflexivity.
Qed.
Lemma exc_step : forall s l s', (forall c, exc (cx s c) = true -> In (AEnd c true) (hh s)) -> hstep_ok s l = Some s' ->
  forall c, exc (cx s' c) = true -> In (AEnd c true) (hh s').
Proof.
  intros s l s' I E c X. unfold hstep_ok in E. destruct (hstep s l) as [[t| | |]|] eqn:ST; try discriminate. injection E as ->.
  assert (G : forall d x, exc x = exc (cx s d) \/ exc x = false -> exc (upd (cx s) d x c) = true -> In (AEnd c true) (hh s)).
  { intros d x A B. unfold upd in B. destruct (Nat.eqb_spec c d) as [->|]; [|auto]. destruct A as [A|A]; [apply I|]; congruence. }
  destruct l; simpl in ST;
    repeat (match type of ST with
            | context[match ?x with _ => _ end] =>
                match x with
                | context[match _ with _ => _ end] => fail 1
                | _ => destruct x eqn:?; try discriminate
                end
            end);
    try (injection ST as ST); try (apply use_ok in ST as [_ ST]); try (injection ST as ST); try discriminate; try subst s'; simpl in *;
    clear G; unfold upd in X; rewrite ?Nat.eqb_refl in X;
    repeat match goal with
           | H : exc (if ?a =? ?b then _ else _) = true |- _ => destruct (Nat.eqb_spec a b); subst; simpl in H
           end; try discriminate; rewrite ?Nat.eqb_refl in X; simpl in X; try discriminate; auto 6.
  left. congruence.
Qed.
(** Only so: the coroutine of the handle ended with an exception, and it is the destructor or the assignment that joins. *)
Theorem handle_terminate_partial : forall ls s l, no_shut ls -> run hstep_ok hinit ls = Some s -> hstep s l = Some HTerm ->
  exists h c k, l = LJoinEnd h /\ ob s h = OJoin c k /\ k <> KJoin /\ refers h (hh s) = Some c /\ In (AEnd c true) (hh s).
Proof.
  intros ls s l N R E. pose proof (hi_run _ _ N R) as I.
  assert (X : forall c, exc (cx s c) = true -> In (AEnd c true) (hh s)).
  { refine (run_inv hstep_ok (fun s => forall c, exc (cx s c) = true -> In (AEnd c true) (hh s)) hinit _ _ ls R).
    - discriminate.
    - intros. eapply exc_step; eauto. }
  assert (U : forall c r, use s c r = HTerm -> r = HTerm) by (intros c r B; unfold use in B; destruct (dead _); congruence).
  destruct l; simpl in E; unfold use in E;
    repeat (match type of E with
            | context[match ?x with _ => _ end] =>
                match x with
                | context[match _ with _ => _ end] => fail 1
                | _ => destruct x eqn:?; try discriminate
                end
            end).
  all: eexists _, _, _; repeat split; eauto; [discriminate|now rewrite (i_ref _ I), Heqh0].
Qed.

(** ** C68: waiting through a handle that has no coroutine is safe: false *)
(** wait<T>() and wait_for() do not look at the pointer; wait<void>() and join() do. *)
Theorem handle_null_refuted : exists ls s, no_shut ls /\ run hstep_ok hinit ls = Some s /\ hstep s (LWait 0) = Some HNull.
Proof. exists [LNew 0 0; LDetach 0]. eexists. split; [intros c; simpl; intuition discriminate|]. split; vm_compute; reflexivity. Qed.
Theorem handle_null_partial : forall ls s l, no_shut ls -> run hstep_ok hinit ls = Some s -> hstep s l = Some HNull ->
  exists h, l = LWait h /\ refers h (hh s) = None.
Proof.
  intros ls s l N R E. pose proof (hi_run _ _ N R) as I.
  destruct l; simpl in E; unfold use in E;
    repeat (match type of E with
            | context[match ?x with _ => _ end] =>
                match x with
                | context[match _ with _ => _ end] => fail 1
                | _ => destruct x eqn:?; try discriminate
                end
            end).
  exists h. now rewrite (i_ref _ I), Heqh0.
Qed.
Print Assumptions handle_kill.
Print Assumptions handle_alive.
Print Assumptions handle_reclaimable.
Print Assumptions handle_move.
Print Assumptions handle_shut_refuted.
Print Assumptions handle_terminate_refuted.
Print Assumptions handle_terminate_partial.
Print Assumptions handle_null_refuted.
Print Assumptions handle_null_partial.
