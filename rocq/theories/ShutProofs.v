(** Proofs about ShutModel. *)
From Coq Require Import List Arith Bool Lia.
From Verif Require Import Base HistSpec ShutSpec ShutModel.
Import ListNotations.

(** ** Invariant of the environments and of the history *)
Record okenv (e : nat) (x : env) : Prop := {
  o_wrk : wrk x = true -> nos x = false /\ own x = TWorker e;
  o_own : wrk x = false -> own x = TCleaner \/ exists n, own x = TUser n;
  o_nos : nos x = true -> ph x = PNone /\ told x = false /\ pl x <> Dropped;
  o_sch : nos x = false -> ph x <> PNone;
  o_run : ph x = PRun -> told x = true -> pl x = Normal \/ pl x = Dropped;
  o_fin : ph x = PPub \/ ph x = PGone -> told x = true /\ (pl x = Expired \/ pl x = Freed);
  o_exp : wrk x = true -> pl x = Expired -> ph x = PPub \/ ph x = PGone;
  o_fre : wrk x = true -> pl x = Freed -> ph x = PGone;
  o_cln : own x = TCleaner -> nos x = true }.

Definition dflt : env := mkE TDestroyer false false false PNone Freed.

Record EI (s : sst) : Prop := {
  e_out : forall e, next s <= e -> envs s e = dflt;
  e_ok : forall e, e < next s -> okenv e (envs s e);
  e_mk : forall t e w, In (VMake t e w) (hist s) -> e < next s /\ wrk (envs s e) = w /\ (w = false -> own (envs s e) = t);
  e_mk' : forall e, e < next s -> exists t, In (VMake t e (wrk (envs s e))) (hist s);
  e_fr : forall e, In (VFree e) (hist s) <-> e < next s /\ pl (envs s e) = Freed;
  e_ex : forall e, In (VExp e) (hist s) <-> e < next s /\ (pl (envs s e) = Expired \/ pl (envs s e) = Freed);
  e_gn : forall e, In (VEnd e) (hist s) <-> ph (envs s e) = PGone;
  e_td : forall e, told (envs s e) = true -> exists t, In (VTold t e) (hist s);
  e_cu : forall n e, cur s n = Some e -> e < next s /\ own (envs s e) = TUser n /\ wrk (envs s e) = false;
  e_cc : forall e, ccur s = Some e -> e < next s /\ own (envs s e) = TCleaner /\ wrk (envs s e) = false;
  e_h1 : destroyed_well (hist s);
  e_h2 : expired_once (hist s);
  e_h3 : only_own_use (hist s) }.

Definition out (x : env) : bool := match pl x with Normal | Dropped => true | _ => false end.
(** What may happen to environment [e], from [x] to [x'], with event [v]. *)
Definition chg (e : nat) (x x' : env) (v : sev) : Prop :=
  own x' = own x /\ wrk x' = wrk x /\
  match v with
  | VTold t i => i = e /\ pl x <> Freed /\ pl x' = pl x /\ ph x' = ph x
  | VExp i => i = e /\ out x = true /\ pl x' = Expired /\ told x' = told x /\ ph x <> PGone /\ ph x' <> PGone
  | VFree i => i = e /\ pl x = Expired /\ pl x' = Freed /\ told x' = told x /\ ph x' = ph x /\ (wrk x = true -> ph x = PGone)
  | VUse t i => i = e /\ pl x' = pl x /\ told x' = told x /\ (pl x = Freed -> wrk x = false /\ own x = t) /\
                (ph x' = ph x \/ ph x <> PGone /\ ph x' <> PGone)
  | VEnd i => i = e /\ pl x' = pl x /\ told x' = told x /\ ph x' = PGone
  | VMake _ _ _ => False
  | _ => pl x' = pl x /\ told x' = told x /\ ph x' = ph x
  end.

Local Ltac fin := try discriminate; try congruence;
  try (right; match goal with K : _ -> In _ (hist _) |- _ => apply K; intuition congruence end).

Lemma EI_change : forall s s' e v, EI s -> e < next s -> (forall i, i <> e -> envs s' i = envs s i) -> next s' = next s ->
  (forall n i, cur s' n = Some i -> cur s n = Some i) -> ccur s' = ccur s -> hist s' = v :: hist s ->
  okenv e (envs s' e) -> chg e (envs s e) (envs s' e) v -> EI s'.
Proof.
  intros s s' e v H L Fr N Cu Cc Hi Ok Ch. destruct Ch as (Ow&Wr&Ch).
  assert (Ne : forall i, i = e \/ i <> e) by (intros; lia).
  constructor.
  - intros i Hi'. rewrite N in Hi'. rewrite Fr by lia. now apply (e_out _ H).
  - intros i Li. rewrite N in Li. destruct (Ne i) as [->|K]; auto. rewrite Fr by auto. now apply (e_ok _ H).
  - intros t i w I. rewrite Hi in I. assert (I' : In (VMake t i w) (hist s)) by (destruct I as [->|I]; [now destruct Ch|auto]).
    apply (e_mk _ H) in I' as (A&B&C). rewrite N. split; auto. destruct (Ne i) as [->|K]; [rewrite Ow, Wr|rewrite Fr by auto]; auto.
  - intros i Li. rewrite N in Li. destruct (e_mk' _ H _ Li) as [t I]. exists t. rewrite Hi. right.
    destruct (Ne i) as [->|K]; [rewrite Wr|rewrite Fr by auto]; auto.
  - intros i. rewrite Hi, N. pose proof (e_fr _ H i) as Q. destruct (Ne i) as [->|K].
    + destruct v; simpl; (split; [intros [X|X]|intros [X Y]]); try discriminate; try (apply Q in X);
        try (injection X as ->); intuition (try congruence).
      all: try (unfold out in *; destruct (pl (envs s e)); congruence).
      all: fin.
    + rewrite (Fr i K). rewrite <- Q. simpl. split; [intros [X|X]; auto|auto]. subst v. destruct Ch; congruence.
  - intros i. rewrite Hi, N. pose proof (e_ex _ H i) as Q. destruct (Ne i) as [->|K].
    + destruct v; simpl; (split; [intros [X|X]|intros [X Y]]); try discriminate; try (apply Q in X);
        try (injection X as ->); intuition (try congruence).
      all: fin.
    + rewrite (Fr i K). rewrite <- Q. simpl. split; [intros [X|X]; auto|auto]. subst v. destruct Ch; congruence.
  - intros i. rewrite Hi. pose proof (e_gn _ H i) as Q. destruct (Ne i) as [->|K].
    + destruct v; simpl; (split; [intros [X|X]|intros Y]); try discriminate; try (apply Q in X);
        try (injection X as ->); intuition (try congruence).
      all: fin.
    + rewrite (Fr i K). rewrite <- Q. simpl. split; [intros [X|X]; auto|auto]. subst v. destruct Ch; congruence.
  - intros i T. rewrite Hi. destruct (Ne i) as [->|K].
    + assert (Z : told (envs s e) = true \/ exists t, v = VTold t e) by (destruct v; intuition (subst; eauto; congruence)).
      destruct Z as [Z|[t ->]]; [|exists t; now left]. destruct (e_td _ H _ Z) as [t I]. exists t. now right.
    + rewrite (Fr i K) in T. destruct (e_td _ H _ T) as [t I]. exists t. now right.
  - intros n i C. apply Cu in C. apply (e_cu _ H) in C as (A&B&C). rewrite N. split; auto.
    destruct (Ne i) as [->|K]; [rewrite Ow, Wr|rewrite Fr by auto]; auto.
  - intros i C. rewrite Cc in C. apply (e_cc _ H) in C as (A&B&C). rewrite N. split; auto.
    destruct (Ne i) as [->|K]; [rewrite Ow, Wr|rewrite Fr by auto]; auto.
  - rewrite Hi. apply always_at_cons. split; [|apply (e_h1 _ H)]. destruct v; auto. destruct Ch as (->&P1&P2&P3&P4&P5).
    split; [|split; [|split]].
    + rewrite (e_fr _ H). intros [_ X]. congruence.
    + rewrite (e_ex _ H). auto.
    + destruct (e_mk' _ H _ L) as [t I]; eauto.
    + intros t I. apply (e_mk _ H) in I as (_&W&_). apply (e_gn _ H). auto.
  - rewrite Hi. apply always_at_cons. split; [|apply (e_h2 _ H)]. destruct v; auto. destruct Ch as (->&P1&_).
    rewrite (e_ex _ H), (e_fr _ H). unfold out in P1. split; intros [_ X]; destruct (pl (envs s e)); intuition congruence.
  - rewrite Hi. apply always_at_cons. split; [|apply (e_h3 _ H)]. intros t i U F. apply (e_fr _ H) in F as [_ F].
    destruct v; try discriminate; injection U as -> ->.
    + destruct Ch as (->&P&_). congruence.
    + destruct Ch as (->&_&_&P&_). destruct (P F) as [A B]. destruct (e_mk' _ H _ L) as [t' I]. rewrite A in I.
      destruct (e_mk _ H _ _ _ I) as (_&_&C). rewrite <- C in I by auto. now rewrite <- B.
Qed.

(** Same environments, nothing said about any. *)
Definition plain (v : sev) : Prop := match v with VMgr _ | VReady | VClean | VReturn => True | _ => False end.
Definition same (s s' : sst) : Prop := envs s' = envs s /\ next s' = next s /\ cur s' = cur s /\ ccur s' = ccur s.
Lemma EI_same : forall s s', EI s -> same s s' -> hist s' = hist s -> EI s'.
Proof.
  intros s s' H (A&B&C&D) E. destruct H. constructor; rewrite ?A, ?B, ?C, ?D, ?E; auto.
Qed.
Lemma EI_plain : forall s s' v, EI s -> same s s' -> hist s' = v :: hist s -> plain v -> EI s'.
Proof.
  intros s s' v H (A&B&C&D) E P.
  assert (Q : forall u, ~ plain u -> In u (hist s') <-> In u (hist s)).
  { intros u U. rewrite E. simpl. split; auto. intros [->|X]; [tauto|auto]. }
  constructor; rewrite ?A, ?B, ?C, ?D; try apply H.
  - intros t e w I. apply Q in I; [|simpl; auto]. now apply (e_mk _ H).
  - intros e L. destruct (e_mk' _ H _ L) as [t I]. exists t. apply Q; simpl; auto.
  - intros e. rewrite Q; [apply (e_fr _ H)|simpl; auto].
  - intros e. rewrite Q; [apply (e_ex _ H)|simpl; auto].
  - intros e. rewrite Q; [apply (e_gn _ H)|simpl; auto].
  - intros e T. destruct (e_td _ H _ T) as [t I]. exists t. apply Q; simpl; auto.
  - rewrite E. apply always_at_cons. split; [destruct v; simpl in *; tauto|apply (e_h1 _ H)].
  - rewrite E. apply always_at_cons. split; [destruct v; simpl in *; tauto|apply (e_h2 _ H)].
  - rewrite E. apply always_at_cons. split; [destruct v; simpl in *; try tauto; intros; discriminate|apply (e_h3 _ H)].
Qed.

(** A new environment; its maker may make it its current one. *)
Lemma EI_add : forall s s' t w, EI s -> (w = false -> t = TCleaner \/ exists n, t = TUser n) ->
  envs s' = envs (add_env s t w) -> next s' = S (next s) -> hist s' = hist (add_env s t w) ->
  (forall n i, cur s' n = Some i -> cur s n = Some i \/ i = next s /\ w = false /\ t = TUser n) ->
  (forall i, ccur s' = Some i -> ccur s = Some i \/ i = next s /\ w = false /\ t = TCleaner) -> EI s'.
Proof.
  intros s s' t w H NW E N Hi Cu Cc.
  assert (Fr : forall i, i <> next s -> envs s' i = envs s i) by (intros i K; rewrite E; simpl; now rewrite upd_other).
  assert (At : envs s' (next s) = if w then mkE (TWorker (next s)) true false false PRun Normal else mkE t false true false PNone Normal)
    by (rewrite E; simpl; now rewrite upd_same).
  assert (Nw : envs s (next s) = dflt) by (now apply (e_out _ H)).
  simpl in Hi.
  assert (Q : forall u, (forall t e w, u <> VMake t e w) -> ~ plain u -> In u (hist s') <-> In u (hist s)).
  { intros u U1 U2. rewrite Hi. simpl. split; auto. intros [X|[X|X]]; auto; subst u; [destruct (U1 t (next s) w); auto|simpl in U2; tauto]. }
  constructor.
  - intros e L. rewrite N in L. rewrite Fr by lia. apply (e_out _ H). lia.
  - intros e L. destruct (Nat.eq_dec e (next s)) as [->|K].
    + rewrite At. destruct w; constructor; simpl; intros; try discriminate; try (split; auto; fail); auto; try (destruct H0; discriminate); intuition discriminate.
    + rewrite Fr by auto. apply (e_ok _ H). lia.
  - intros u e b I. rewrite Hi in I. destruct I as [I|[I|I]]; try discriminate.
    + injection I as <- <- <-. rewrite At, N. split; [lia|]. destruct w; simpl; split; auto; discriminate.
    + apply (e_mk _ H) in I as (A&B&C). rewrite N, Fr by lia. auto.
  - intros e L. rewrite Hi. destruct (Nat.eq_dec e (next s)) as [->|K].
    + rewrite At. exists t. left. now destruct w.
    + rewrite Fr by auto. assert (L' : e < next s) by lia. destruct (e_mk' _ H _ L') as [u I]. exists u. simpl. auto.
  - intros e. rewrite Q; [|discriminate|simpl; auto]. rewrite (e_fr _ H). destruct (Nat.eq_dec e (next s)) as [->|K].
    + rewrite At, Nw. split; [intros; lia|destruct w; intros [? ?]; discriminate].
    + rewrite Fr by auto. split; intros [? ?]; split; auto; lia.
  - intros e. rewrite Q; [|discriminate|simpl; auto]. rewrite (e_ex _ H). destruct (Nat.eq_dec e (next s)) as [->|K].
    + rewrite At. split; [intros; lia|destruct w; intros [? [?|?]]; discriminate].
    + rewrite Fr by auto. split; intros [? ?]; split; auto; lia.
  - intros e. rewrite Q; [|discriminate|simpl; auto]. rewrite (e_gn _ H). destruct (Nat.eq_dec e (next s)) as [->|K].
    + rewrite At, Nw. destruct w; simpl; split; discriminate.
    + now rewrite Fr.
  - intros e T. destruct (Nat.eq_dec e (next s)) as [->|K].
    + rewrite At in T. now destruct w.
    + rewrite Fr in T by auto. destruct (e_td _ H _ T) as [u I]. exists u. apply Q; simpl; auto. discriminate.
  - intros n i C. apply Cu in C as [C|(->&->&->)].
    + apply (e_cu _ H) in C as (A&B&C). rewrite N, Fr by lia. auto.
    + rewrite At, N. simpl. auto.
  - intros i C. apply Cc in C as [C|(->&->&->)].
    + apply (e_cc _ H) in C as (A&B&C). rewrite N, Fr by lia. auto.
    + rewrite At, N. simpl. auto.
  - rewrite Hi. apply always_at_cons. split; [exact I|]. apply always_at_cons. split; [exact I|apply (e_h1 _ H)].
  - rewrite Hi. apply always_at_cons. split; [exact I|]. apply always_at_cons. split; [exact I|apply (e_h2 _ H)].
  - rewrite Hi. apply always_at_cons. split; [discriminate|]. apply always_at_cons. split; [discriminate|apply (e_h3 _ H)].
Qed.

(** Dropped without any event. *)
Lemma EI_drop : forall s e, EI s -> e < next s -> pl (envs s e) = Normal -> nos (envs s e) = false -> EI (drop1 s e).
Proof.
  intros s e H L P O.
  assert (Fr : forall i, i <> e -> envs (drop1 s e) i = envs s i) by (intros; simpl; now rewrite upd_other).
  assert (At : envs (drop1 s e) e = let x := envs s e in mkE (own x) (wrk x) (nos x) (told x) (ph x) Dropped) by (simpl; now rewrite upd_same).
  assert (Ne : forall i, i = e \/ i <> e) by (intros; lia).
  destruct H as [h1 h2 h3 h4 h5 h6 h7 h8 h9 h10 h11 h12 h13].
  constructor; change (next (drop1 s e)) with (next s); change (hist (drop1 s e)) with (hist s);
    change (cur (drop1 s e)) with (cur s); change (ccur (drop1 s e)) with (ccur s); auto.
  - intros i Hi. rewrite Fr; auto. lia.
  - intros i Li. destruct (Ne i) as [->|K]; [|rewrite Fr by auto; auto]. rewrite At. destruct (h2 _ L).
    constructor; simpl; auto; intros; try congruence.
    all: try (destruct (o_fin0 H) as [? [?|?]]; congruence).
  - intros t i w I. destruct (h3 _ _ _ I) as (A&B&C). destruct (Ne i) as [->|K]; [rewrite At|rewrite Fr by auto]; auto.
  - intros i Li. destruct (h4 _ Li) as [t I]. exists t. destruct (Ne i) as [->|K]; [rewrite At|rewrite Fr by auto]; auto.
  - intros i. rewrite h5. destruct (Ne i) as [->|K]; [rewrite At; simpl|now rewrite Fr]. intuition congruence.
  - intros i. rewrite h6. destruct (Ne i) as [->|K]; [rewrite At; simpl|now rewrite Fr]. intuition congruence.
  - intros i. rewrite h7. destruct (Ne i) as [->|K]; [rewrite At; simpl|now rewrite Fr]. intuition congruence.
  - intros i T. destruct (Ne i) as [->|K]; [rewrite At in T; simpl in T|rewrite Fr in T by auto]; auto.
  - intros n i C. apply h9 in C as (A&B&C). destruct (Ne i) as [->|K]; [rewrite At|rewrite Fr by auto]; auto.
  - intros i C. apply h10 in C as (A&B&C). destruct (Ne i) as [->|K]; [rewrite At|rewrite Fr by auto]; auto.
Qed.

(** ** The loops *)
Definition swept (x : env) : env :=
  if nos x then mkE (own x) (wrk x) (nos x) (told x) (ph x) Expired
  else mkE (own x) (wrk x) (nos x) true (ph x) (pl x).
Definition dropped (x : env) : env := mkE (own x) (wrk x) (nos x) (told x) (ph x) Dropped.
Definition woken (c : cpc) : cpc := match c with CWait => CRelock | _ => c end.
Definition minor (v : sev) : Prop := match v with VTold _ _ | VExp _ => True | _ => False end.
(** All but the environments and the cleaner's place is as it was; the history is extended by minor events. *)
Record ext (s s' : sst) : Prop := {
  x_n : next s' = next s; x_cu : cur s' = cur s; x_cc : ccur s' = ccur s; x_cl : clean s' = clean s;
  x_mp : mp s' = mp s; x_tp : tp s' = tp s; x_dp : dp s' = dp s;
  x_h : exists evs, hist s' = evs ++ hist s /\ Forall minor evs }.
Lemma ext_refl : forall s, ext s s.
Proof. intros; constructor; auto. exists []. auto. Qed.
Lemma ext_trans : forall a b c, ext a b -> ext b c -> ext a c.
Proof.
  intros a b c [] []. constructor; try congruence. destruct x_h0 as (u&U&U'), x_h1 as (v&V&V'). exists (v ++ u).
  split; [rewrite V, U; apply app_assoc|apply Forall_app; auto].
Qed.

Lemma at_place_spec : forall s p e, In e (at_place s p) <-> e < next s /\ pl (envs s e) = p.
Proof.
  intros. unfold at_place. rewrite filter_In, in_seq. split; intros [A B]; split; try lia; destruct (pl (envs s e)), p; simpl in *; congruence.
Qed.
Lemma at_place_nodup : forall s p, NoDup (at_place s p).
Proof. intros. apply NoDup_filter, seq_NoDup. Qed.

Lemma wake_cleaner_frame : forall s, envs (wake_cleaner s) = envs s /\ hist (wake_cleaner s) = hist s /\ cp (wake_cleaner s) = woken (cp s) /\ ext s (wake_cleaner s).
Proof. intros s. unfold wake_cleaner. destruct (cp s) eqn:E; simpl; rewrite ?E; simpl; repeat split; auto; exists []; auto. Qed.
Lemma wake_timer_frame : forall s, envs (wake_timer s) = envs s /\ hist (wake_timer s) = hist s /\ next (wake_timer s) = next s /\
  cur (wake_timer s) = cur s /\ ccur (wake_timer s) = ccur s /\ clean (wake_timer s) = clean s /\ cp (wake_timer s) = cp s /\
  mp (wake_timer s) = mp s /\ dp (wake_timer s) = dp s /\ (tp (wake_timer s) = match tp s with RWait => RCheck | RWaitU => RTest | x => x end).
Proof. intros s. unfold wake_timer. destruct (tp s) eqn:E; simpl; rewrite ?E; auto 12. Qed.

Lemma EI_tell : forall t s e, EI s -> e < next s -> pl (envs s e) = Normal -> nos (envs s e) = false -> EI (tell t s e).
Proof.
  intros t s e H L P O. pose proof (e_ok _ H _ L) as K. apply EI_change with (s := s) (e := e) (v := VTold t e); auto; simpl.
  - intros i X. now rewrite upd_other.
  - rewrite upd_same. destruct K. constructor; simpl; auto; try (intros; congruence).
    + intros X. split; auto. rewrite O, orb_true_r. auto. now apply o_fin0.
  - rewrite upd_same. split; auto. split; auto. simpl. rewrite P. repeat split; auto. discriminate.
Qed.
Lemma EI_expire : forall s e, EI s -> e < next s -> pl (envs s e) = Normal -> nos (envs s e) = true -> EI (expire s e).
Proof.
  intros s e H L P O. pose proof (e_ok _ H _ L) as K. unfold expire.
  destruct (wake_cleaner_frame (ev (with_env s e (mkE (own (envs s e)) (wrk (envs s e)) (nos (envs s e)) (told (envs s e)) (ph (envs s e)) Expired)) (VExp e)))
    as (A&B&_&[]). destruct (o_nos _ _ K O) as (K1&K2&_).
  apply EI_change with (s := s) (e := e) (v := VExp e); auto; rewrite ?A, ?B, ?x_n0, ?x_cu0, ?x_cc0; simpl; auto.
  - intros i X. now rewrite upd_other.
  - rewrite upd_same. destruct K. constructor; simpl; auto; try congruence.
    + intros _. repeat split; auto. discriminate.
    + intros [X|X]; congruence.
    + intros X. apply o_wrk0 in X as [X _]. congruence.
  - rewrite upd_same. split; auto. split; auto. simpl. unfold out. rewrite P. repeat split; auto; congruence.
Qed.

Lemma sweep1_facts : forall t s e, EI s -> e < next s -> pl (envs s e) = Normal ->
  EI (sweep1 t s e) /\ ext s (sweep1 t s e) /\ envs (sweep1 t s e) e = swept (envs s e) /\
  (forall i, i <> e -> envs (sweep1 t s e) i = envs s i) /\ (cp (sweep1 t s e) = cp s \/ cp (sweep1 t s e) = woken (cp s)).
Proof.
  intros t s e H L P. unfold sweep1, swept. destruct (nos (envs s e)) eqn:O.
  - split; [now apply EI_expire|]. unfold expire.
    destruct (wake_cleaner_frame (ev (with_env s e (mkE (own (envs s e)) (wrk (envs s e)) (nos (envs s e)) (told (envs s e)) (ph (envs s e)) Expired)) (VExp e)))
      as (A&B&C&D). rewrite A, C. split; [eapply ext_trans; [|exact D]; constructor; auto; exists [VExp e]; split; auto; constructor; simpl; auto|].
    simpl. rewrite upd_same. split; [now rewrite O|]. split; auto. intros. now rewrite upd_other.
  - split; [now apply EI_tell|]. unfold tell. simpl. rewrite upd_same, O, orb_true_r.
    split; [constructor; auto; exists [VTold t e]; split; auto; constructor; simpl; auto|]. split; auto. split; auto.
    intros. now rewrite upd_other.
Qed.
Lemma woken_woken : forall c, woken (woken c) = woken c.
Proof. now destruct c. Qed.

Lemma sweep_facts : forall t l s, NoDup l -> (forall e, In e l -> e < next s /\ pl (envs s e) = Normal) -> EI s ->
  let s' := fold_left (sweep1 t) l s in
  EI s' /\ ext s s' /\ (forall i, In i l -> envs s' i = swept (envs s i)) /\ (forall i, ~ In i l -> envs s' i = envs s i) /\
  (cp s' = cp s \/ cp s' = woken (cp s)).
Proof.
  intros t l. induction l as [|e l IH]; intros s D Q H; simpl.
  - split; auto. split; [apply ext_refl|]. repeat split; auto. intros i [].
  - inversion D as [|? ? N D']; subst. destruct (Q e) as [L P]; [now left|].
    destruct (sweep1_facts t s e H L P) as (A&B&C&F&G).
    destruct (IH (sweep1 t s e)) as (A'&B'&C'&F'&G'); auto.
    { intros i I. rewrite (x_n _ _ B), F; [apply Q; now right|]. intros ->. auto. }
    split; auto. split; [eapply ext_trans; eauto|]. split; [|split].
    + intros i [<-|I]; [rewrite F' by auto; auto|rewrite C', F; auto]; intros ->; auto.
    + intros i I. rewrite F', F; auto.
    + destruct G as [G|G], G' as [G'|G']; rewrite G in G'; rewrite ?woken_woken in G'; auto.
Qed.

Lemma drop_facts : forall l s, NoDup l -> (forall e, In e l -> e < next s /\ pl (envs s e) = Normal /\ nos (envs s e) = false) -> EI s ->
  let s' := fold_left drop1 l s in
  EI s' /\ ext s s' /\ (forall i, In i l -> envs s' i = dropped (envs s i)) /\ (forall i, ~ In i l -> envs s' i = envs s i) /\
  cp s' = cp s /\ hist s' = hist s.
Proof.
  induction l as [|e l IH]; intros s D Q H; simpl.
  - split; auto. split; [apply ext_refl|]. repeat split; auto. intros i [].
  - inversion D as [|? ? N D']; subst. destruct (Q e) as (L&P&O); [now left|].
    assert (C : envs (drop1 s e) e = dropped (envs s e)) by (simpl; now rewrite upd_same).
    assert (F : forall i, i <> e -> envs (drop1 s e) i = envs s i) by (intros; simpl; now rewrite upd_other).
    destruct (IH (drop1 s e)) as (A'&B'&C'&F'&G'&G2); auto.
    { intros i I. change (next (drop1 s e)) with (next s). rewrite F; [apply Q; now right|]. intros ->. auto. }
    { now apply EI_drop. }
    split; auto. split; [eapply ext_trans; [|eauto]; constructor; auto; exists []; auto|]. split; [|split; [|auto]].
    + intros i [<-|I]; [rewrite F' by auto; auto|rewrite C', F; auto]; intros ->; auto.
    + intros i I. rewrite F', F; auto.
Qed.

(** What both loops of the cleaner do together. *)
Definition cleared (x : env) : env :=
  if nos x then mkE (own x) (wrk x) (nos x) (told x) (ph x) Expired
  else mkE (own x) (wrk x) (nos x) true (ph x) Dropped.
Lemma clear_facts : forall s, EI s -> cp s = CTest ->
  let s' := drop (sweep TCleaner s) in
  EI s' /\ ext s s' /\ (forall i, i < next s -> pl (envs s i) = Normal -> envs s' i = cleared (envs s i)) /\
  (forall i, ~ (i < next s /\ pl (envs s i) = Normal) -> envs s' i = envs s i) /\ cp s' = CTest.
Proof.
  intros s H P s'. unfold s', drop. set (s1 := sweep TCleaner s).
  destruct (sweep_facts TCleaner (at_place s Normal) s) as (A&B&C&D&E); auto using at_place_nodup.
  { intros e I. now apply at_place_spec. }
  fold (sweep TCleaner s) in A, B, C, D, E. fold s1 in A, B, C, D, E.
  assert (Q : forall e, In e (at_place s1 Normal) -> e < next s1 /\ pl (envs s1 e) = Normal /\ nos (envs s1 e) = false).
  { intros e I. apply at_place_spec in I as [L X]. split; auto. split; auto. rewrite (x_n _ _ B) in L.
    destruct (pl (envs s e)) eqn:Y.
    - rewrite C in X |- * by (now apply at_place_spec). unfold swept in *. destruct (nos (envs s e)) eqn:Z; simpl in *; [discriminate|now rewrite ?Z].
    - rewrite D, Y in X by (rewrite at_place_spec; intuition congruence). discriminate.
    - rewrite D, Y in X by (rewrite at_place_spec; intuition congruence). discriminate.
    - rewrite D, Y in X by (rewrite at_place_spec; intuition congruence). discriminate. }
  destruct (drop_facts (at_place s1 Normal) s1) as (A'&B'&C'&D'&E'&_); auto using at_place_nodup.
  split; auto. split; [eapply ext_trans; eauto|]. split; [|split].
  - intros i L X. assert (I : In i (at_place s Normal)) by now apply at_place_spec.
    unfold cleared. destruct (nos (envs s i)) eqn:Z.
    + assert (Y : envs s1 i = swept (envs s i)) by auto. unfold swept in Y. rewrite Z in Y.
      rewrite D'; [now rewrite Y|]. rewrite at_place_spec, Y. simpl. intuition discriminate.
    + assert (Y : envs s1 i = swept (envs s i)) by auto. unfold swept in Y. rewrite Z in Y.
      rewrite C'; [unfold dropped; now rewrite Y|]. rewrite at_place_spec, Y, (x_n _ _ B). simpl. auto.
  - intros i N. rewrite D'; [apply D; now rewrite at_place_spec|]. rewrite at_place_spec, (x_n _ _ B). rewrite D; [auto|now rewrite at_place_spec].
  - rewrite E'. destruct E as [E|E]; rewrite E, P; auto.
Qed.

Lemma reclaim_facts : forall l s, EI s ->
  let s' := fold_left reclaim1 l s in
  EI s' /\ ext s s' /\ cp s' = cp s /\
  (forall i, envs s' i = envs s i \/ i < next s /\ pl (envs s i) = Normal /\ wrk (envs s i) = true /\ envs s' i = swept (envs s i)).
Proof.
  induction l as [|e l IH]; intros s H; simpl.
  - split; auto. split; [apply ext_refl|]. auto.
  - change (let s' := fold_left reclaim1 l (reclaim1 s e) in EI s' /\ ext s s' /\ cp s' = cp s /\
      (forall i, envs s' i = envs s i \/ i < next s /\ pl (envs s i) = Normal /\ wrk (envs s i) = true /\ envs s' i = swept (envs s i))).
    assert (R : reclaim1 s e = if place_eqb (pl (envs s e)) Normal && wrk (envs s e) && (e <? next s) then tell TMonitor s e else s) by reflexivity.
    rewrite R. clear R. destruct (place_eqb (pl (envs s e)) Normal && wrk (envs s e) && (e <? next s)) eqn:G; [|apply IH; auto].
    apply andb_true_iff in G as [G L]. apply andb_true_iff in G as [P W]. apply Nat.ltb_lt in L.
    assert (P' : pl (envs s e) = Normal) by (destruct (pl (envs s e)); simpl in P; congruence).
    destruct (o_wrk _ _ (e_ok _ H _ L) W) as [O _].
    assert (T : EI (tell TMonitor s e)) by now apply EI_tell.
    destruct (IH _ T) as (A&B&C&D).
    assert (X : ext s (tell TMonitor s e)) by (constructor; auto; exists [VTold TMonitor e]; split; auto; constructor; simpl; auto).
    split; auto. split; [eapply ext_trans; eauto|]. split; [now rewrite C|].
    intros i. destruct (Nat.eq_dec i e) as [->|K].
    + assert (Y : envs (tell TMonitor s e) e = swept (envs s e)) by (simpl; rewrite upd_same; unfold swept; now rewrite O, orb_true_r).
      right. split; auto. split; auto. split; auto. destruct (D e) as [D'|(_&_&_&D')]; rewrite D', Y; auto.
      destruct (envs s e); simpl in *; subst; reflexivity.
    + assert (Y : envs (tell TMonitor s e) i = envs s i) by (simpl; now rewrite upd_other).
      destruct (D i) as [D'|D']; rewrite Y in D'; auto.
Qed.

Lemma EI_use : forall s t e, EI s -> e < next s -> (pl (envs s e) = Freed -> wrk (envs s e) = false /\ own (envs s e) = t) -> EI (ev s (VUse t e)).
Proof.
  intros s t e H L F. apply EI_change with (s := s) (e := e) (v := VUse t e); auto; simpl.
  - now apply (e_ok _ H).
  - repeat split; auto; now apply F.
Qed.
Lemma EI_guard : forall s, EI s -> EI (guard_cleaner s).
Proof.
  intros s H. unfold guard_cleaner. destruct (ccur s) as [e|] eqn:E.
  - destruct (e_cc _ H _ E) as (A&B&C). apply EI_use; auto.
  - apply EI_use; simpl; [|lia|now rewrite upd_same].
    eapply EI_add with (t := TCleaner) (w := false); eauto; simpl; try reflexivity.
    intros i X. injection X as <-. auto.
Qed.
Lemma sinit_EI : EI sinit.
Proof. constructor; simpl; intros; try contradiction; try discriminate; try lia; auto; try (intros; split; [tauto|lia]); try apply always_at_nil.
  split; [tauto|discriminate]. Qed.

Ltac splain := eapply EI_plain; [eassumption|repeat split; reflexivity|reflexivity|exact I].
Lemma EI_step : forall s l s', EI s -> sstep s l = Some s' -> EI s'.
Proof.
  intros s l s' H S. destruct l; simpl in S.
  - destruct (locked s || clean s || negb (maker t)); [discriminate|]. injection S as <-.
    eapply EI_add with (t := t) (w := true); eauto; simpl; auto. discriminate.
  - destruct (cur s n) as [e|] eqn:C.
    + destruct (e_cu _ H _ _ C) as (A&B&D). destruct (ph (envs s e)); try discriminate; injection S as <-; apply EI_use; auto.
    + destruct (locked s); [discriminate|]. injection S as <-. apply EI_use; simpl; [|lia|now rewrite upd_same].
      eapply EI_add with (t := TUser n) (w := false); eauto; simpl; try reflexivity; auto.
      intros m i X. unfold upd in X. destruct (Nat.eqb_spec m n) as [->|K]; auto. injection X as <-. auto.
  - destruct (cur s n) as [e|] eqn:C; [|discriminate]. destruct (nos (envs s e)) eqn:O; [|discriminate]. injection S as <-.
    destruct (e_cu _ H _ _ C) as (A&B&D). destruct (o_nos _ _ (e_ok _ H _ A) O) as (N1&N2&N3). pose proof (e_ok _ H _ A) as K.
    apply EI_change with (s := s) (e := e) (v := VUse (TUser n) e); auto; simpl.
    + intros i X. now rewrite upd_other.
    + rewrite upd_same. destruct K. constructor; simpl; auto; try congruence; try (intros [X|X]; discriminate); try discriminate.
    + rewrite upd_same. simpl. repeat split; auto. right. rewrite N1. split; discriminate.
  - assert (Q : s' = wake_timer s) by (destruct (tp s); congruence). subst s'. destruct (wake_timer_frame s) as (A&B&C&D&E&_).
    eapply EI_same; eauto. repeat split; auto.
  - destruct (ph (envs s e)) eqn:P; try discriminate. destruct (told (envs s e)) eqn:T; try discriminate.
    destruct (locked s); try discriminate. destruct (e <? next s) eqn:L; try discriminate. apply Nat.ltb_lt in L. simpl in S. injection S as <-.
    unfold expire. set (s1 := ev (with_env (with_env s e _) e _) (VExp e)). destruct (wake_cleaner_frame s1) as (A&B&_&X).
    assert (K : EI (wake_cleaner s1)); [|splain].
    apply EI_change with (s := s) (e := e) (v := VExp e); rewrite ?A, ?B, ?(x_n _ _ X), ?(x_cu _ _ X), ?(x_cc _ _ X); auto; unfold s1; simpl.
    + intros i K. now rewrite !upd_other.
    + rewrite !upd_same. simpl. destruct (e_ok _ H _ L). constructor; simpl; auto; try congruence.
      all: intros O; destruct (o_nos0 O); congruence.
    + rewrite !upd_same. simpl. repeat split; auto; try congruence.
      * destruct (o_run _ _ (e_ok _ H _ L) P T) as [K|K]; unfold out; now rewrite K.
      * discriminate.
  - destruct (ph (envs s e)) eqn:P; try discriminate. injection S as S.
    assert (L : e < next s). { destruct (le_lt_dec (next s) e) as [G|G]; auto. rewrite (e_out _ H _ G) in P. discriminate. }
    pose proof (e_ok _ H _ L) as K.
    assert (At : envs s' e = mkE (own (envs s e)) (wrk (envs s e)) (nos (envs s e)) (told (envs s e)) PGone (pl (envs s e)))
      by (subst s'; destruct (own (envs s e)); simpl; now rewrite upd_same).
    apply EI_change with (s := ev s (VUse (own (envs s e)) e)) (e := e) (v := VEnd e); auto; simpl; rewrite ?At.
    + apply EI_use; auto. intros F. split; auto. destruct (wrk (envs s e)) eqn:W; auto. pose proof (o_fre _ _ K W F). congruence.
    + intros i X. subst s'. destruct (own (envs s e)); simpl; now rewrite upd_other.
    + subst s'. destruct (own (envs s e)); auto.
    + intros n i X. subst s'. destruct (own (envs s e)); simpl in X; auto. unfold upd in X. destruct (n =? n0); [discriminate|auto].
    + subst s'. destruct (own (envs s e)); auto.
    + subst s'. destruct (own (envs s e)); auto.
    + destruct K. constructor; simpl; auto; try congruence. intros O; destruct (o_nos0 O); congruence.
    + repeat split; auto.
  - unfold cstep in S. destruct (cp s) eqn:P; try discriminate.
    + injection S as <-. assert (K : EI (ev (with_cp s CTest) VReady)) by splain. splain.
    + destruct (clean s); [|injection S as <-; splain]. destruct (at_place s Normal); injection S as <-; [splain|].
      destruct (clear_facts s H P) as (A&_). splain.
    + injection S as <-; splain.
    + destruct (at_place s Expired); [|discriminate]. injection S as <-. splain.
    + injection S as <-. eapply EI_same; [apply EI_guard; eassumption|repeat split; reflexivity|reflexivity].
  - unfold free in S. destruct (cp s) eqn:P; try discriminate. destruct (pl (envs s e)) eqn:Q; try discriminate.
    destruct ((e <? next s) && _) eqn:G; [|discriminate]. injection S as <-. apply andb_true_iff in G as [L G]. apply Nat.ltb_lt in L.
    assert (W : wrk (envs s e) = true -> ph (envs s e) = PGone).
    { intros W. rewrite W in G. destruct (ph (envs s e)); simpl in G; congruence. }
    apply EI_change with (s := s) (e := e) (v := VFree e); auto; simpl.
    + intros i X. now rewrite upd_other.
    + rewrite upd_same. destruct (e_ok _ H _ L). constructor; simpl; auto; try congruence.
      * intros O. destruct (o_nos0 O) as (?&?&?). repeat split; auto. discriminate.
      * intros R T. destruct (o_run0 R T); congruence.
      * intros R. destruct (o_fin0 R). auto.
    + rewrite upd_same. simpl. repeat split; auto.
  - unfold mstep in S. destruct (mp s); try discriminate.
    + destruct (locked s); [discriminate|]. injection S as <-. splain.
    + injection S as <-. eapply EI_same; [eassumption|repeat split; reflexivity|reflexivity].
    + destruct (locked s); [discriminate|]. injection S as <-. destruct (reclaim_facts l s H) as (A&_). splain.
  - unfold tstep in S. destruct (tp s); try discriminate; injection S as <-; (eapply EI_same; [eassumption|repeat split; reflexivity|reflexivity]).
  - destruct (tp s); try discriminate; injection S as <-; (eapply EI_same; [eassumption|repeat split; reflexivity|reflexivity]).
  - destruct (cp s); try discriminate; injection S as <-; (eapply EI_same; [eassumption|repeat split; reflexivity|reflexivity]).
  - destruct (tp s); try discriminate; injection S as <-; (eapply EI_same; [eassumption|repeat split; reflexivity|reflexivity]).
  - unfold dstep in S. destruct (dp s) eqn:P; try discriminate.
    + destruct (locked s); [discriminate|].
      set (s1 := ev (ev (mkS (envs s) (next s) (cur s) (ccur s) true (cp s) (mp s) (tp s) DCleaner (hist s)) VClean) (VMgr TDestroyer)) in *.
      injection S as <-. assert (K : EI s1).
      { set (s0 := mkS (envs s) (next s) (cur s) (ccur s) true (cp s) (mp s) (tp s) DCleaner (hist s)) in *.
        assert (K0 : EI s0) by (eapply EI_same; [eassumption|repeat split; reflexivity|reflexivity]).
        assert (K1 : EI (ev s0 VClean)) by splain. splain. }
      destruct (sweep_facts TDestroyer (at_place s1 Normal) s1) as (A&_); auto using at_place_nodup.
      { intros e X. now apply at_place_spec. }
      fold (sweep TDestroyer s1) in A. destruct (wake_cleaner_frame (sweep TDestroyer s1)) as (B1&B2&_&B3).
      assert (K2 : EI (wake_cleaner (sweep TDestroyer s1))).
      { eapply EI_same; [exact A| |auto]. split; [auto|]. split; [apply B3|]. split; apply B3. }
      destruct (wake_timer_frame (wake_cleaner (sweep TDestroyer s1))) as (C1&C2&C3&C4&C5&_).
      eapply EI_same; [exact K2|repeat split; auto|auto].
    + destruct (cp s); try discriminate; injection S as <-; splain.
    + destruct (mp s); try discriminate; injection S as <-; splain.
    + destruct (tp s); try discriminate; injection S as <-; splain.
Qed.

(** ** Control *)
Lemma minor_in : forall evs h v, Forall minor evs -> ~ minor v -> In v (evs ++ h) <-> In v h.
Proof.
  intros evs h v F N. rewrite in_app_iff. split; auto. intros [X|X]; auto. destruct N. rewrite Forall_forall in F. auto.
Qed.
Record CI (s : sst) : Prop := {
  c_cl : clean s = true <-> dp s <> DNone;
  c_vc : In VClean (hist s) <-> clean s = true;
  c_vr : In VReturn (hist s) <-> dp s = DRet;
  c_cw : cp s = CWait -> clean s = false;
  c_ce : cp s = CEnd -> clean s = true;
  c_d1 : dp s = DMonitor \/ dp s = DTimer \/ dp s = DRet -> cp s = CEnd;
  c_d2 : dp s = DTimer \/ dp s = DRet -> mp s = MEnd;
  c_d3 : dp s = DRet -> tp s = REnd;
  c_st : cp s = CStart -> ~ In VReady (hist s) /\ ccur s = None;
  c_sd : service_done (hist s) }.

Lemma sinit_CI : CI sinit.
Proof.
  constructor; simpl; try discriminate; try (split; intros; try discriminate; tauto); try tauto.
  - intros [X|[X|X]]; discriminate.
  - intros [X|X]; discriminate.
  - apply always_at_nil.
Qed.

(** Effects on the control part: events [evs] none of which concerns it, and positions of threads. *)
Definition neutral (dr : bool) (v : sev) : Prop :=
  match v with VReady | VClean | VReturn => False | VMgr t => service t = true -> dr = false | _ => True end.
Definition is_ret (d : dpc) : bool := match d with DRet => true | _ => false end.
Lemma CI_neutral : forall s s' evs, CI s -> hist s' = evs ++ hist s -> Forall (neutral (is_ret (dp s))) evs -> clean s' = clean s -> dp s' = dp s ->
  (cp s' = CWait -> clean s = false) -> (cp s' = CEnd -> clean s = true) ->
  (dp s = DMonitor \/ dp s = DTimer \/ dp s = DRet -> cp s' = CEnd) -> (dp s = DTimer \/ dp s = DRet -> mp s' = MEnd) ->
  (dp s = DRet -> tp s' = REnd) -> (cp s' = CStart -> cp s = CStart /\ ccur s' = ccur s) -> CI s'.
Proof.
  intros s s' evs H Hi F Cl Dp A1 A2 A3 A4 A5 A6.
  assert (Q : forall v, ~ (exists b, neutral b v) -> In v (hist s') <-> In v (hist s)).
  { intros v N. rewrite Hi, in_app_iff. split; auto. intros [X|X]; auto. destruct N. exists (is_ret (dp s)). rewrite Forall_forall in F. auto. }
  constructor; rewrite ?Cl, ?Dp; auto.
  - apply (c_cl _ H).
  - rewrite Q; [apply (c_vc _ H)|intros [b X]; exact X].
  - rewrite Q; [apply (c_vr _ H)|intros [b X]; exact X].
  - intros X. destruct (A6 X) as [Y Z]. rewrite Z, Q; [now apply (c_st _ H)|intros [b W]; exact W].
  - rewrite Hi. pose proof (c_sd _ H) as K.
    assert (R : forall t, In (VMgr t) evs -> service t = true -> ~ In VReturn (hist s)).
    { intros t I S. rewrite (c_vr _ H). rewrite Forall_forall in F. specialize (F _ I S). destruct (dp s); simpl in F; congruence. }
    clear -F K R. induction evs as [|v evs IH]; [exact K|]. simpl. inversion F; subst. apply always_at_cons. split; [|apply IH; auto; intros; apply (R t); auto; now right].
    destruct v; auto. intros S I. apply in_app_iff in I as [I|I]; [|apply (R t) in I; auto; now left].
    rewrite Forall_forall in H2. exact (H2 _ I).
Qed.
Lemma minor_neutral : forall d v, minor v -> neutral d v.
Proof. intros d [] M; simpl in *; tauto. Qed.
Lemma app_cons : forall A (e : list A) a h, a :: e ++ h = (a :: e) ++ h.
Proof. reflexivity. Qed.

Ltac ctl := solve [auto | discriminate | congruence | simpl in *; intuition (try congruence)].
Lemma CI_step : forall s l s', EI s -> CI s -> sstep s l = Some s' -> CI s'.
Proof.
  intros s l s' H C S. pose proof C as [c1 c2 c3 c4 c5 c6 c7 c8 c9 c10]. destruct l; simpl in S.
  - destruct (locked s) eqn:LK; [discriminate|]. destruct (clean s) eqn:Cl; [discriminate|]. destruct (maker t); [|discriminate]. simpl in S. injection S as <-.
    apply CI_neutral with (s := s) (evs := [VMake t (next s) true; VMgr t]); auto; simpl; rewrite ?Cl; auto.
    repeat constructor. simpl. intros _. destruct (dp s); auto. assert (DRet <> DNone) by discriminate. apply c1 in H0. discriminate.
  - destruct (cur s n) as [e|] eqn:E.
    + destruct (ph (envs s e)); try discriminate; injection S as <-; apply CI_neutral with (s := s) (evs := [VUse (TUser n) e]); auto; repeat constructor.
    + destruct (locked s); [discriminate|]. injection S as <-.
      apply CI_neutral with (s := s) (evs := [VUse (TUser n) (next s); VMake (TUser n) (next s) false; VMgr (TUser n)]); auto. repeat constructor; simpl; discriminate.
  - destruct (cur s n) as [e|] eqn:E; [|discriminate]. destruct (nos (envs s e)); [|discriminate]. injection S as <-.
    apply CI_neutral with (s := s) (evs := [VUse (TUser n) e]); auto. repeat constructor.
  - assert (Q : s' = wake_timer s) by (destruct (tp s); congruence). subst s'. destruct (wake_timer_frame s) as (A&B&_&_&D&E&F&G&I&J).
    apply CI_neutral with (s := s) (evs := []); rewrite ?A, ?B, ?D, ?E, ?F, ?G, ?I, ?J; auto. intros X. rewrite (c8 X). auto.
  - destruct (ph (envs s e)) eqn:P; try discriminate. destruct (told (envs s e)) eqn:T; try discriminate.
    destruct (locked s) eqn:LK; try discriminate. destruct (e <? next s) eqn:L; try discriminate. apply Nat.ltb_lt in L. simpl in S. injection S as <-.
    unfold expire. set (s1 := ev (with_env (with_env s e _) e _) (VExp e)). destruct (wake_cleaner_frame s1) as (A&B&D&X).
    destruct X as [X1 X2 X3 X4 X5 X6 X7 _].
    apply CI_neutral with (s := s) (evs := [VMgr (own (envs s e)); VExp e]); simpl; rewrite ?B, ?D, ?X3, ?X4, ?X5, ?X6, ?X7; auto; unfold s1; simpl.
    + repeat constructor. simpl. intros Sv. exfalso. pose proof (e_ok _ H _ L) as K. destruct (wrk (envs s e)) eqn:W.
      * destruct (o_wrk _ _ K W) as [_ O]. rewrite O in Sv. discriminate.
      * destruct (o_own _ _ K W) as [O|[n O]]; [|rewrite O in Sv; discriminate]. apply (o_cln _ _ K) in O. apply (o_nos _ _ K) in O as [O _]. congruence.
    + destruct (cp s); simpl; ctl.
    + destruct (cp s); simpl; ctl.
    + intros Y. rewrite (c6 Y). auto.
    + destruct (cp s); simpl; ctl.
  - destruct (ph (envs s e)) eqn:P; try discriminate. injection S as <-.
    apply CI_neutral with (s := s) (evs := [VEnd e; VUse (own (envs s e)) e]); auto; try (destruct (own (envs s e)); auto; fail). repeat constructor.
  - unfold cstep in S. assert (ND : cp s <> CEnd -> is_ret (dp s) = false).
    { intros N. destruct (dp s) eqn:X; auto. destruct N. apply c6; auto. }
    destruct (cp s) eqn:P; try discriminate.
    + injection S as <-. constructor; simpl; try tauto; try (intuition discriminate).
      apply always_at_cons. split.
      * intros _ [X|X]; [discriminate|]. apply c3 in X. assert (X' : CStart = CEnd) by (apply c6; auto). discriminate.
      * apply always_at_cons. split; auto.
    + destruct (clean s) eqn:Cl.
      * destruct (at_place s Normal); injection S as <-.
        -- apply CI_neutral with (s := s) (evs := [VMgr TCleaner]); simpl; auto; try discriminate. repeat constructor. simpl. intros _. apply ND; discriminate.
        -- destruct (clear_facts s H P) as (A&[X1 X2 X3 X4 X5 X6 X7 (evs&X8&X9)]&B&D&E).
           apply CI_neutral with (s := s) (evs := VMgr TCleaner :: evs); simpl; rewrite ?X3, ?X4, ?X5, ?X6, ?X7, ?X8, ?Cl; auto; try discriminate.
           ++ constructor; [simpl; intros _; apply ND; discriminate|]. eapply Forall_impl; [|exact X9]. intros; now apply minor_neutral.
           ++ intros X. apply c6 in X. discriminate.
      * injection S as <-. apply CI_neutral with (s := s) (evs := [VMgr TCleaner]); simpl; rewrite ?Cl; auto; try discriminate.
        -- repeat constructor. simpl. intros _. apply ND; discriminate.
        -- intros X. apply c6 in X. discriminate.
    + injection S as <-. apply CI_neutral with (s := s) (evs := [VMgr TCleaner]); simpl; auto; try discriminate.
      * repeat constructor. simpl. intros _. apply ND; discriminate.
      * intros X. apply c6 in X. discriminate.
    + destruct (at_place s Expired); [|discriminate]. injection S as <-. apply CI_neutral with (s := s) (evs := [VMgr TCleaner]); simpl; auto; try discriminate.
      * repeat constructor. simpl. intros _. apply ND; discriminate.
      * intros X. apply c6 in X. discriminate.
    + injection S as <-. unfold guard_cleaner. destruct (ccur s) as [c|].
      * apply CI_neutral with (s := s) (evs := [VUse TCleaner c]); simpl; auto; try discriminate; [repeat constructor|].
        intros X. apply c6 in X. discriminate.
      * apply CI_neutral with (s := s) (evs := [VUse TCleaner (next s); VMake TCleaner (next s) false; VMgr TCleaner]); simpl; auto; try discriminate.
        -- repeat constructor. simpl. intros _. apply ND; discriminate.
        -- intros X. apply c6 in X. discriminate.
  - unfold free in S. destruct (cp s) eqn:P; try discriminate. destruct (pl (envs s e)); try discriminate.
    destruct ((e <? next s) && _); [|discriminate]. injection S as <-.
    apply CI_neutral with (s := s) (evs := [VFree e]); simpl; auto; try discriminate; [repeat constructor|].
    intros X. apply c6 in X. discriminate.
  - unfold mstep in S. assert (ND : mp s <> MEnd -> dp s <> DTimer /\ dp s <> DRet).
    { intros N. split; intros X; apply N, c7; auto. }
    destruct (mp s) eqn:P; try discriminate.
    + destruct (locked s); [discriminate|]. injection S as <-.
      assert (K : dp s <> DTimer /\ dp s <> DRet) by (apply ND; discriminate).
      apply CI_neutral with (s := s) (evs := [VMgr TMonitor]); simpl; auto.
      * repeat constructor. simpl. intros _. destruct (dp s); simpl; tauto.
      * tauto.
    + injection S as <-. assert (K : dp s <> DTimer /\ dp s <> DRet) by (apply ND; discriminate).
      apply CI_neutral with (s := s) (evs := []); simpl; auto. tauto.
    + destruct (locked s); [discriminate|]. injection S as <-. assert (K : dp s <> DTimer /\ dp s <> DRet) by (apply ND; discriminate).
      destruct (reclaim_facts l s H) as (_&[X1 X2 X3 X4 X5 X6 X7 (evs&X8&X9)]&B&_).
      apply CI_neutral with (s := s) (evs := VMgr TMonitor :: evs); simpl; rewrite ?X3, ?X4, ?X5, ?X6, ?X7, ?X8, ?B; auto.
      * constructor; [simpl; intros _; destruct (dp s); simpl; tauto|]. eapply Forall_impl; [|exact X9]. intros; now apply minor_neutral.
      * tauto.
  - assert (ND : tp s <> REnd -> dp s <> DRet) by auto.
    unfold tstep in S. destruct (tp s) eqn:P; try discriminate; assert (K : dp s <> DRet) by (apply ND; discriminate); injection S as <-;
      (apply CI_neutral with (s := s) (evs := []); simpl; auto; tauto).
  - destruct (tp s) eqn:P; try discriminate; injection S as <-; (apply CI_neutral with (s := s) (evs := []); simpl; auto; intros X; apply c8 in X; discriminate).
  - destruct (cp s) eqn:P; try discriminate; injection S as <-; (apply CI_neutral with (s := s) (evs := []); simpl; auto; try discriminate; intros X; apply c6 in X; discriminate).
  - destruct (tp s) eqn:P; try discriminate; injection S as <-; (apply CI_neutral with (s := s) (evs := []); simpl; auto; intros X; apply c8 in X; discriminate).
  - unfold dstep in S. destruct (dp s) eqn:P; try discriminate.
    + destruct (locked s) eqn:LK; [discriminate|].
      set (s1 := ev (ev (mkS (envs s) (next s) (cur s) (ccur s) true (cp s) (mp s) (tp s) DCleaner (hist s)) VClean) (VMgr TDestroyer)) in *.
      injection S as <-. assert (K : EI s1).
      { set (s0 := mkS (envs s) (next s) (cur s) (ccur s) true (cp s) (mp s) (tp s) DCleaner (hist s)) in *.
        assert (K0 : EI s0) by (eapply EI_same; [eassumption|repeat split; reflexivity|reflexivity]).
        assert (K1 : EI (ev s0 VClean)) by splain. splain. }
      destruct (sweep_facts TDestroyer (at_place s1 Normal) s1) as (_&X&_&_&E); auto using at_place_nodup.
      { intros e X. now apply at_place_spec. }
      fold (sweep TDestroyer s1) in X, E. destruct (wake_cleaner_frame (sweep TDestroyer s1)) as (_&_&E2&Y).
      assert (Z := ext_trans _ _ _ X Y). destruct Z as [Z1 Z2 Z3 Z4 Z5 Z6 Z7 (evs&Z8&Z9)].
      destruct (wake_timer_frame (wake_cleaner (sweep TDestroyer s1))) as (C1&C2&C3&C4&C5&C6&C7&C8&C9&C10).
      assert (CP : cp (wake_cleaner (sweep TDestroyer s1)) = woken (cp s)).
      { rewrite E2. destruct E as [E|E]; rewrite E; unfold s1; simpl; now rewrite ?woken_woken. }
      assert (Nr : ~ In VReturn (hist s)) by (rewrite c3; discriminate).
      assert (Nc : clean s <> true) by (rewrite c1; tauto).
      constructor; rewrite ?C2, ?C5, ?C6, ?C7, ?C8, ?C9, ?C10, ?CP, ?Z3, ?Z4, ?Z5, ?Z6, ?Z7, ?Z8; unfold s1; simpl.
      * split; auto. discriminate.
      * split; auto. intros _. apply in_app_iff. right. simpl. auto.
      * rewrite minor_in; simpl; auto. split; [intros [X0|[X0|X0]]; try discriminate; tauto|discriminate].
      * destruct (cp s); discriminate.
      * auto.
      * intros [X0|[X0|X0]]; discriminate.
      * intros [X0|X0]; discriminate.
      * discriminate.
      * intros X0. assert (Y0 : cp s = CStart) by (destruct (cp s); simpl in X0; congruence). rewrite minor_in; simpl; auto. destruct (c9 Y0).
        split; auto. intros [X1|[X1|X1]]; try discriminate; tauto.
      * clear -Z9 c10 Nr. induction evs as [|v evs IH].
        -- simpl. apply always_at_cons. split; [|apply always_at_cons; split; auto]. intros _ [X|X]; [discriminate|tauto].
        -- simpl. inversion Z9; subst. apply always_at_cons. split; [destruct v; simpl in *; tauto|exact (IH H2)].
    + destruct (cp s) eqn:Q; try discriminate; injection S as <-. constructor; simpl.
      all: try solve [tauto | intuition (try congruence) | split; intros; try discriminate; intuition congruence
        | apply always_at_cons; split; auto; intros _ X; apply c3 in X; discriminate | apply always_at_cons; split; auto].
    + destruct (mp s) eqn:Q; try discriminate; injection S as <-. constructor; simpl.
      all: try solve [tauto | intuition (try congruence) | split; intros; try discriminate; intuition congruence
        | apply always_at_cons; split; auto; intros _ X; apply c3 in X; discriminate | apply always_at_cons; split; auto].
    + destruct (tp s) eqn:Q; try discriminate; injection S as <-. constructor; simpl.
      all: try solve [tauto | intuition (try congruence) | split; intros; try discriminate; intuition congruence
        | apply always_at_cons; split; auto; intros _ X; apply c3 in X; discriminate | apply always_at_cons; split; auto].
Qed.

(** ** The environment of the cleaner itself; environments told to stop or destroyed *)
Definition hot (c : cpc) : bool := match c with CTest | CEnd | CIdle => true | _ => false end.
Record KI (s : sst) : Prop := {
  k_fr : forall e, e < next s -> pl (envs s e) = Freed -> ccur s <> None \/ cp s = CIdle;
  k_use : forall c, ccur s = Some c -> pl (envs s c) = Freed -> cp s = CIdle \/ used_after_free TCleaner c (hist s);
  k_exp : forall c, ccur s = Some c -> cp s = CTest \/ cp s = CEnd -> pl (envs s c) <> Expired;
  k_nor : forall c, ccur s = Some c -> cp s = CEnd -> pl (envs s c) <> Normal;
  k_dr : forall e, pl (envs s e) = Dropped -> clean s = true /\ told (envs s e) = true;
  k_mb : forall e w, made_before e w (hist s) -> (exists t, In (VTold t e) (hist s)) \/ In (VExp e) (hist s);
  k_rd : forall e, ready_before (hist s) -> cp s = CTest \/ cp s = CEnd -> e < next s -> pl (envs s e) = Expired -> told (envs s e) = true }.

Lemma uaf_app : forall t e evs h, used_after_free t e h -> used_after_free t e (evs ++ h).
Proof. intros t e evs h (n&v&o&->&A&B). exists (evs ++ n), v, o. rewrite app_assoc. auto. Qed.
Lemma split_clean : forall evs h newer older, ~ In VClean evs -> evs ++ h = newer ++ VClean :: older -> exists newer', h = newer' ++ VClean :: older.
Proof.
  induction evs as [|v evs IH]; intros h newer older N E; simpl in E; [eauto|].
  destruct newer as [|u newer]; simpl in E; injection E as -> E; [destruct N; now left|].
  eapply IH; eauto. intros X; apply N; now right.
Qed.
Lemma made_before_back : forall evs h e w, ~ In VClean evs -> made_before e w (evs ++ h) -> made_before e w h.
Proof. intros evs h e w N (n&o&t&E&I). apply split_clean in E as [n' ->]; auto. exists n', o, t. auto. Qed.
Lemma ready_before_back : forall evs h, ~ In VClean evs -> ready_before (evs ++ h) -> ready_before h.
Proof. intros evs h N (n&o&E&I). apply split_clean in E as [n' ->]; auto. exists n', o. auto. Qed.
Lemma ready_in : forall h, ready_before h -> In VReady h /\ In VClean h.
Proof. intros h (n&o&->&I). rewrite !in_app_iff. simpl. auto. Qed.
Lemma minor_no_clean : forall evs, Forall minor evs -> ~ In VClean evs.
Proof. intros evs F I. rewrite Forall_forall in F. exact (F _ I). Qed.

Lemma KI_frame : forall s s' evs, EI s -> KI s -> hist s' = evs ++ hist s -> ~ In VClean evs -> ccur s' = ccur s -> clean s' = clean s ->
  (cp s' = cp s \/ hot (cp s) = false /\ hot (cp s') = false) -> next s <= next s' ->
  (forall e, next s <= e -> pl (envs s' e) <> Dropped) -> (forall e, next s <= e < next s' -> pl (envs s' e) = Normal) ->
  (forall e, e < next s -> (told (envs s e) = true -> told (envs s' e) = true) /\
     (pl (envs s' e) = pl (envs s e) \/ pl (envs s' e) = Expired /\ told (envs s' e) = true /\ nos (envs s e) = false)) -> KI s'.
Proof.
  intros s s' evs H K Hi NC Cc Cl Cp Nx N1 N2 Fr.
  assert (Own : forall c, ccur s = Some c -> pl (envs s' c) = pl (envs s c) /\ c < next s).
  { intros c E. destruct (e_cc _ H _ E) as (L&O&_). split; auto. destruct (Fr c L) as [_ [F|(_&_&F)]]; auto.
    rewrite (o_cln _ _ (e_ok _ H _ L) O) in F. discriminate. }
  assert (CpB : cp s' = CTest \/ cp s' = CEnd -> cp s = CTest \/ cp s = CEnd).
  { intros X. destruct Cp as [E|[_ E]]; [rewrite <- E; auto|]. destruct X as [X|X]; rewrite X in E; discriminate. }
  constructor.
  - intros e L F. rewrite Cc. assert (e < next s) by (destruct (le_lt_dec (next s) e); [rewrite N2 in F by lia; discriminate|auto]).
    destruct (Fr e) as [_ [G|(G&_)]]; auto; [|congruence]. rewrite G in F. destruct (k_fr _ K e) as [A|A]; auto.
    destruct Cp as [B|[B _]]; [right; congruence|]. rewrite A in B. discriminate.
  - intros c E F. rewrite Cc in E. destruct (Own c E) as [G L]. rewrite G in F. destruct (k_use _ K c E F) as [A|A].
    + destruct Cp as [B|[B _]]; [left; congruence|]. rewrite A in B. discriminate.
    + right. rewrite Hi. now apply uaf_app.
  - intros c E X. rewrite Cc in E. destruct (Own c E) as [G L]. rewrite G. apply (k_exp _ K); auto.
  - intros c E X. rewrite Cc in E. destruct (Own c E) as [G L]. rewrite G. apply (k_nor _ K); auto.
    destruct Cp as [B|[_ B]]; [congruence|]. rewrite X in B. discriminate.
  - intros e D. rewrite Cl. destruct (le_lt_dec (next s) e) as [L|L]; [destruct (N1 e L D)|].
    destruct (Fr e L) as [T [G|(G&_)]]; [|congruence]. rewrite G in D. apply (k_dr _ K) in D as [A B]. auto.
  - intros e w M. rewrite Hi in *. apply made_before_back in M; auto. destruct (k_mb _ K _ _ M) as [[t A]|A]; [left; exists t|right]; apply in_app_iff; auto.
  - intros e R X L P. rewrite Hi in R. apply ready_before_back in R; auto.
    destruct (le_lt_dec (next s) e) as [Le|Le]; [rewrite N2 in P by lia; discriminate|].
    destruct (Fr e Le) as [T [G|(_&G&_)]]; auto. rewrite G in P. apply T, (k_rd _ K); auto.
Qed.

Lemma KI_same : forall s s' evs, EI s -> KI s -> hist s' = evs ++ hist s -> ~ In VClean evs -> ccur s' = ccur s -> clean s' = clean s ->
  (cp s' = cp s \/ hot (cp s) = false /\ hot (cp s') = false) -> next s' = next s ->
  (forall e, pl (envs s' e) = pl (envs s e) /\ told (envs s' e) = told (envs s e)) -> KI s'.
Proof.
  intros s s' evs H K Hi NC Cc Cl Cp Nx Q. eapply KI_frame; eauto.
  - lia.
  - intros e L. destruct (Q e) as [A _]. rewrite A, (e_out _ H); [discriminate|auto].
  - intros e L. lia.
  - intros e L. destruct (Q e) as [A B]. rewrite A, B. auto.
Qed.

Lemma sinit_KI : KI sinit.
Proof. constructor; simpl; intros; try discriminate; try lia. destruct H as (n&o&t&E&_). destruct n; discriminate. Qed.

Ltac nocl := simpl; intros XX; repeat (destruct XX as [XX|XX]; try discriminate); try exact XX.
Ltac sameenv e := let i := fresh in intros i; simpl; unfold upd; destruct (Nat.eqb_spec i e) as [->|]; simpl; auto.
Lemma KI_step : forall s l s', EI s -> CI s -> KI s -> sstep s l = Some s' -> KI s'.
Proof.
  intros s l s' H C K S. destruct l; simpl in S.
  - destruct (locked s) eqn:LK; [discriminate|]. destruct (clean s) eqn:Cl; [discriminate|]. destruct (maker t); [|discriminate]. simpl in S. injection S as <-.
    apply KI_frame with (s := s) (evs := [VMake t (next s) true; VMgr t]); auto; simpl; auto.
    + nocl.
    + intros e L. unfold upd. destruct (Nat.eqb_spec e (next s)); [discriminate|]. rewrite (e_out _ H); [discriminate|lia].
    + intros e L. assert (e = next s) as -> by lia. now rewrite upd_same.
    + intros e L. rewrite upd_other by lia. auto.
  - destruct (cur s n) as [e|] eqn:E.
    + destruct (ph (envs s e)); try discriminate; injection S as <-; apply KI_same with (s := s) (evs := [VUse (TUser n) e]); auto; nocl.
    + destruct (locked s); [discriminate|]. injection S as <-.
      apply KI_frame with (s := s) (evs := [VUse (TUser n) (next s); VMake (TUser n) (next s) false; VMgr (TUser n)]); auto; simpl; auto.
      * nocl.
      * intros e L. unfold upd. destruct (Nat.eqb_spec e (next s)); [discriminate|]. rewrite (e_out _ H); [discriminate|lia].
      * intros e L. assert (e = next s) as -> by lia. now rewrite upd_same.
      * intros e L. rewrite upd_other by lia. auto.
  - destruct (cur s n) as [e|] eqn:E; [|discriminate]. destruct (nos (envs s e)); [|discriminate]. injection S as <-.
    apply KI_same with (s := s) (evs := [VUse (TUser n) e]); auto; [nocl|]. sameenv e.
  - assert (Q : s' = wake_timer s) by (destruct (tp s); congruence). subst s'. destruct (wake_timer_frame s) as (A&B&D0&_&D&E&F&G&I&J).
    apply KI_same with (s := s) (evs := []); rewrite ?A; auto.
  - destruct (ph (envs s e)) eqn:P; try discriminate. destruct (told (envs s e)) eqn:T; try discriminate.
    destruct (locked s) eqn:LK; try discriminate. destruct (e <? next s) eqn:L; try discriminate. apply Nat.ltb_lt in L. simpl in S. injection S as <-.
    unfold expire. set (s1 := ev (with_env (with_env s e _) e _) (VExp e)). destruct (wake_cleaner_frame s1) as (A&B&D&X).
    destruct X as [X1 X2 X3 X4 X5 X6 X7 _].
    apply KI_frame with (s := s) (evs := [VMgr (own (envs s e)); VExp e]); simpl; rewrite ?A, ?B, ?D, ?X1, ?X3, ?X4, ?X5, ?X6, ?X7; auto; unfold s1; simpl; auto.
    + nocl.
    + unfold locked in LK. destruct (cp s); simpl; auto.
    + intros i Li. rewrite !upd_other by lia. rewrite (e_out _ H); [discriminate|lia].
    + intros i Li. lia.
    + intros i Li. unfold upd. destruct (Nat.eqb_spec i e) as [->|]; auto. simpl. rewrite Nat.eqb_refl. simpl. split; auto. right. repeat split; auto.
      destruct (nos (envs s e)) eqn:O; auto. destruct (o_nos _ _ (e_ok _ H _ L) O). congruence.
  - destruct (ph (envs s e)) eqn:P; try discriminate. injection S as <-.
    apply KI_same with (s := s) (evs := [VEnd e; VUse (own (envs s e)) e]); auto; try (destruct (own (envs s e)); auto; fail); [nocl|].
    intros i. destruct (own (envs s e)); simpl; unfold upd; destruct (Nat.eqb_spec i e) as [->|]; auto.
  - unfold cstep in S. destruct (cp s) eqn:P; try discriminate.
    + injection S as <-. destruct (c_st _ C P) as [R CC]. constructor; simpl; rewrite ?CC; try discriminate; try apply K.
      * intros e L F. destruct (k_fr _ K e L F); [tauto|congruence].
      * intros e w M. assert (M' : made_before e w (hist s)) by (apply made_before_back with (evs := [VMgr TCleaner; VReady]); [nocl|exact M]).
        destruct (k_mb _ K _ _ M') as [[t A]|A]; [left; exists t|right]; auto.
      * intros e Rb. exfalso. apply R. assert (Rb' : ready_before (hist s)) by (apply ready_before_back with (evs := [VMgr TCleaner; VReady]); [nocl|exact Rb]).
        now apply ready_in.
    + destruct (clean s) eqn:Cl.
      * destruct (at_place s Normal) eqn:AN; injection S as <-.
        -- constructor; simpl; try (apply K).
           ++ intros e L F. destruct (k_fr _ K e L F); [auto|congruence].
           ++ intros c E F. destruct (k_use _ K c E F) as [A|A]; [congruence|]. right. now apply (uaf_app _ _ [VMgr TCleaner]).
           ++ intros c E _. apply (k_exp _ K); auto.
           ++ intros c E _ F. destruct (e_cc _ H _ E) as (L&_). assert (I : In c (at_place s Normal)) by now apply at_place_spec. now rewrite AN in I.
           ++ intros e w M. assert (M' : made_before e w (hist s)) by (apply made_before_back with (evs := [VMgr TCleaner]); [nocl|exact M]).
              destruct (k_mb _ K _ _ M') as [[t A]|A]; [left; exists t|right]; auto.
           ++ intros e R _ L E. apply (k_rd _ K); auto. apply ready_before_back with (evs := [VMgr TCleaner]); [nocl|exact R].
        -- destruct (clear_facts s H P) as (A&[X1 X2 X3 X4 X5 X6 X7 (evs&X8&X9)]&B&D&E).
           set (s1 := drop (sweep TCleaner s)) in *.
           assert (Ch : forall e, pl (envs s1 e) <> Normal /\ (pl (envs s1 e) = Freed -> pl (envs s e) = Freed) /\
                          (pl (envs s1 e) = Dropped -> pl (envs s e) = Dropped /\ told (envs s1 e) = told (envs s e) \/ told (envs s1 e) = true)).
           { intros e. destruct (le_lt_dec (next s) e) as [Le|Le].
             - rewrite D by lia. rewrite (e_out _ H) by auto. simpl. repeat split; auto; discriminate.
             - destruct (pl (envs s e)) eqn:Pe.
               + rewrite B by auto. unfold cleared. destruct (nos (envs s e)); simpl; repeat split; auto; discriminate.
               + rewrite D, Pe by intuition congruence. repeat split; auto; discriminate.
               + rewrite D, Pe by intuition congruence. repeat split; auto; discriminate.
               + rewrite D, Pe by intuition congruence. repeat split; auto; discriminate. }
           constructor; simpl; rewrite ?X1, ?X3, ?X4, ?X8; try (intuition discriminate).
           ++ intros e L F. destruct (k_fr _ K e L); [now apply Ch|auto|congruence].
           ++ intros c Ec F. destruct (k_use _ K c Ec) as [U|U]; [now apply Ch|congruence|]. right. now apply (uaf_app _ _ (VMgr TCleaner :: evs)).
           ++ intros e F. split; auto. destruct (Ch e) as (_&_&G). destruct (G F) as [[G1 G2]|G1]; auto. rewrite G2. now apply (k_dr _ K).
           ++ intros e w M. assert (M' : made_before e w (hist s)).
              { apply made_before_back with (evs := VMgr TCleaner :: evs); [|exact M]. intros [Y|Y]; [discriminate|]. now apply (minor_no_clean _ X9). }
              destruct (k_mb _ K _ _ M') as [[t Y]|Y]; [left; exists t|right]; right; apply in_app_iff; auto.
      * injection S as <-. constructor; simpl; try (intuition discriminate); try (apply K).
        -- intros e L F. destruct (k_fr _ K e L F); [auto|congruence].
        -- intros c E F. destruct (k_use _ K c E F) as [A|A]; [congruence|]. right. now apply (uaf_app _ _ [VMgr TCleaner]).
        -- intros e w M. assert (M' : made_before e w (hist s)) by (apply made_before_back with (evs := [VMgr TCleaner]); [nocl|exact M]).
           destruct (k_mb _ K _ _ M') as [[t A]|A]; [left; exists t|right]; auto.
    + injection S as <-. apply KI_same with (s := s) (evs := [VMgr TCleaner]); simpl; auto; [nocl|rewrite P; auto].
    + destruct (at_place s Expired) eqn:AE; [|discriminate]. injection S as <-.
      assert (NE : forall e, e < next s -> pl (envs s e) <> Expired).
      { intros e L F. assert (I : In e (at_place s Expired)) by now apply at_place_spec. now rewrite AE in I. }
      constructor; simpl; try (intuition discriminate); try (apply K).
      * intros e L F. destruct (k_fr _ K e L F); [auto|congruence].
      * intros c E F. destruct (k_use _ K c E F) as [A|A]; [congruence|]. right. now apply (uaf_app _ _ [VMgr TCleaner]).
      * intros c E _. apply NE. now destruct (e_cc _ H _ E).
      * intros e w M. assert (M' : made_before e w (hist s)) by (apply made_before_back with (evs := [VMgr TCleaner]); [nocl|exact M]).
        destruct (k_mb _ K _ _ M') as [[t A]|A]; [left; exists t|right]; auto.
      * intros e _ _ L F. destruct (NE e L F).
    + injection S as <-. unfold guard_cleaner. destruct (ccur s) as [c|] eqn:CC; simpl.
      * constructor; simpl; try (intuition discriminate); try (apply K).
        -- intros e L F. left. rewrite CC. discriminate.
        -- intros c' E F. rewrite CC in E. injection E as <-. right. exists [], (VUse TCleaner c), (hist s). repeat split; auto.
           apply (e_fr _ H). split; auto. now destruct (e_cc _ H _ CC).
        -- intros e w M. assert (M' : made_before e w (hist s)) by (apply made_before_back with (evs := [VUse TCleaner c]); [nocl|exact M]).
           destruct (k_mb _ K _ _ M') as [[t A]|A]; [left; exists t|right]; auto.
      * constructor; simpl; try (intuition discriminate).
        -- intros c E F. injection E as <-. rewrite upd_same in F. discriminate.
        -- intros e D. unfold upd in *. destruct (Nat.eqb_spec e (next s)); [discriminate|]. now apply (k_dr _ K).
        -- intros e w M. assert (M' : made_before e w (hist s)).
           { apply made_before_back with (evs := [VUse TCleaner (next s); VMake TCleaner (next s) false; VMgr TCleaner]); [nocl|exact M]. }
           destruct (k_mb _ K _ _ M') as [[t A]|A]; [left; exists t|right]; auto.
  - unfold free in S. destruct (cp s) eqn:P; try discriminate. destruct (pl (envs s e)) eqn:Pe; try discriminate.
    destruct ((e <? next s) && _) eqn:G; [|discriminate]. injection S as <-. constructor; simpl; try (intuition discriminate); try (intros; auto; fail).
    + intros i D. unfold upd in *. destruct (Nat.eqb_spec i e) as [X|]; [subst i; discriminate|now apply (k_dr _ K)].
    + intros i w M. assert (M' : made_before i w (hist s)) by (apply made_before_back with (evs := [VFree e]); [nocl|exact M]).
      destruct (k_mb _ K _ _ M') as [[t A]|A]; [left; exists t|right]; auto.
  - unfold mstep in S. destruct (mp s) eqn:P; try discriminate.
    + destruct (locked s); [discriminate|]. injection S as <-. apply KI_same with (s := s) (evs := [VMgr TMonitor]); simpl; auto. nocl.
    + injection S as <-. apply KI_same with (s := s) (evs := []); simpl; auto.
    + destruct (locked s); [discriminate|]. injection S as <-.
      destruct (reclaim_facts l s H) as (_&[X1 X2 X3 X4 X5 X6 X7 (evs&X8&X9)]&B&D).
      apply KI_frame with (s := s) (evs := VMgr TMonitor :: evs); simpl; rewrite ?X1, ?X3, ?X4, ?X5, ?X6, ?X7, ?X8, ?B; auto.
      * intros [Y|Y]; [discriminate|]. now apply (minor_no_clean _ X9).
      * intros e L. destruct (D e) as [D'|(L'&_)]; [rewrite D', (e_out _ H); auto; discriminate|lia].
      * intros e L. lia.
      * intros e L. destruct (D e) as [D'|(_&_&W&D')]; rewrite D'; auto. destruct (o_wrk _ _ (e_ok _ H _ L) W) as [O _]. unfold swept. rewrite O. simpl. auto.
  - unfold tstep in S. destruct (tp s); try discriminate; injection S as <-; (apply KI_same with (s := s) (evs := []); simpl; auto).
  - destruct (tp s); try discriminate; injection S as <-; (apply KI_same with (s := s) (evs := []); simpl; auto).
  - destruct (cp s) eqn:P; try discriminate; injection S as <-; (apply KI_same with (s := s) (evs := []); simpl; auto; rewrite P; auto).
  - destruct (tp s); try discriminate; injection S as <-; (apply KI_same with (s := s) (evs := []); simpl; auto).
  - unfold dstep in S. destruct (dp s) eqn:P; try discriminate.
    + destruct (locked s) eqn:LK; [discriminate|].
      set (s1 := ev (ev (mkS (envs s) (next s) (cur s) (ccur s) true (cp s) (mp s) (tp s) DCleaner (hist s)) VClean) (VMgr TDestroyer)) in *.
      injection S as <-. assert (K1 : EI s1).
      { set (s0 := mkS (envs s) (next s) (cur s) (ccur s) true (cp s) (mp s) (tp s) DCleaner (hist s)) in *.
        assert (K0 : EI s0) by (eapply EI_same; [eassumption|repeat split; reflexivity|reflexivity]).
        assert (K1 : EI (ev s0 VClean)) by splain. splain. }
      destruct (sweep_facts TDestroyer (at_place s1 Normal) s1) as (K2&X&F1&F2&E); auto using at_place_nodup.
      { intros e X. now apply at_place_spec. }
      fold (sweep TDestroyer s1) in K2, X, F1, F2, E. destruct (wake_cleaner_frame (sweep TDestroyer s1)) as (B1&B2&E2&Y).
      assert (Z := ext_trans _ _ _ X Y). destruct Z as [Z1 Z2 Z3 Z4 Z5 Z6 Z7 (evs&Z8&Z9)].
      destruct (wake_timer_frame (wake_cleaner (sweep TDestroyer s1))) as (C1&C2&C3&C4&C5&C6&C7&C8&C9&C10).
      assert (CP : cp (wake_cleaner (sweep TDestroyer s1)) = woken (cp s)).
      { rewrite E2. destruct E as [E|E]; rewrite E; unfold s1; simpl; now rewrite ?woken_woken. }
      assert (Nc : clean s = false). { destruct (clean s) eqn:Cl; auto. apply (c_cl _ C) in Cl. tauto. }
      assert (Ht : hot (woken (cp s)) = false).
      { unfold locked in LK. destruct (cp s) eqn:Pc; try discriminate; auto. rewrite (c_ce _ C Pc) in Nc. discriminate. }
      set (s2 := wake_timer (wake_cleaner (sweep TDestroyer s1))) in *.
      assert (En : forall e, envs s2 e = envs s e \/ e < next s /\ pl (envs s e) = Normal /\ envs s2 e = swept (envs s e)).
      { intros e. rewrite C1, B1. destruct (in_dec Nat.eq_dec e (at_place s1 Normal)) as [I|I].
        - right. pose proof I as I'. apply at_place_spec in I' as [L N]. rewrite F1 by auto. auto.
        - left. now rewrite F2. }
      assert (Sw : forall e, e < next s -> pl (envs s e) = Normal -> envs s2 e = swept (envs s e)).
      { intros e L N. rewrite C1, B1. apply F1. now apply at_place_spec. }
      assert (K3 : EI s2).
      { eapply EI_same with (s := sweep TDestroyer s1); [exact K2| |congruence].
        split; [congruence|]. split; [rewrite C3; apply Y|]. split; [rewrite C4; apply Y|rewrite C5; apply Y]. }
      constructor; rewrite ?C2, ?C3, ?C5, ?C6, ?C7, ?CP, ?Z1, ?Z3, ?Z4, ?Z8.
      * intros e L F. left. destruct (En e) as [D|(_&_&D)]; rewrite D in F.
        -- destruct (k_fr _ K e L F) as [A|A]; auto. unfold locked in LK. rewrite A in LK. discriminate.
        -- unfold swept in F. destruct (nos (envs s e)) eqn:O; simpl in F; [discriminate|]. destruct (k_fr _ K e L F) as [A|A]; auto. unfold locked in LK. rewrite A in LK. discriminate.
      * intros c Ec F. right. assert (F' : pl (envs s c) = Freed).
        { destruct (En c) as [D|(_&N&D)]; rewrite D in F; auto. unfold swept in F. destruct (nos (envs s c)); simpl in F; congruence. }
        destruct (k_use _ K c Ec F') as [A|A]; [unfold locked in LK; rewrite A in LK; discriminate|].
        apply uaf_app. unfold s1. simpl. now apply (uaf_app _ _ [VMgr TDestroyer; VClean]).
      * intros c Ec [A|A]; rewrite A in Ht; discriminate.
      * intros c Ec A. rewrite A in Ht. discriminate.
      * intros e D. exfalso. assert (D' : pl (envs s e) = Dropped).
        { destruct (En e) as [G|(_&N&G)]; rewrite G in D; auto. unfold swept in D. destruct (nos (envs s e)); simpl in D; congruence. }
        apply (k_dr _ K) in D' as [D' _]. congruence.
      * intros e w M. assert (Le : e < next s).
        { destruct M as (n&o&t&E0&I). assert (I' : In (VMake t e w) (hist s2)).
          { rewrite C2, Z8. rewrite E0. apply in_app_iff. right. now right. }
          apply (e_mk _ K3) in I' as [I' _]. rewrite C3, Z1 in I'. exact I'. }
        assert (HS : hist s2 = evs ++ hist s1) by (now rewrite C2, Z8). rewrite <- HS.
        destruct (pl (envs s e)) eqn:Pe.
        -- specialize (Sw e Le Pe). unfold swept in Sw. destruct (nos (envs s e)) eqn:O.
           ++ right. apply (e_ex _ K3). rewrite C3, Z1. split; auto. rewrite Sw. auto.
           ++ left. apply (e_td _ K3). rewrite Sw. auto.
        -- right. rewrite HS. apply in_app_iff. right. unfold s1. simpl. right. right. apply (e_ex _ H). auto.
        -- apply (k_dr _ K) in Pe as [Pe _]. congruence.
        -- right. rewrite HS. apply in_app_iff. right. unfold s1. simpl. right. right. apply (e_ex _ H). auto.
      * intros e _ [A|A]; rewrite A in Ht; discriminate.
    + destruct (cp s) eqn:Q; try discriminate; injection S as <-. apply KI_same with (s := s) (evs := [VMgr TDestroyer]); simpl; auto. nocl.
    + destruct (mp s) eqn:Q; try discriminate; injection S as <-. apply KI_same with (s := s) (evs := [VMgr TDestroyer]); simpl; auto. nocl.
    + destruct (tp s) eqn:Q; try discriminate; injection S as <-. apply KI_same with (s := s) (evs := [VReturn]); simpl; auto. nocl.
Qed.
