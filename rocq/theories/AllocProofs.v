(** Proofs about creation and destruction (C85, C86). *)
From Coq Require Import List Arith Bool Lia Permutation.
From Verif Require Import Base AllocSpec AllocModel.
Import ListNotations.

(** What belongs to a stack, a coroutine, an environment, to the manager. *)
Definition stk_res (s : ast) (k : nat) : list res :=
  RStk k :: (if ssize (sk s k) =? 0 then [] else [RMap (smem (sk s k)) (ssize (sk s k))]).
Definition ctx_res (s : ast) (c : nat) : list res :=
  RCtx c :: (if cshared (cx s c) then [] else match cstk (cx s c) with Some k => stk_res s k | None => [] end).
Definition sh_res (s : ast) (o : option nat) : list res := match o with Some k => stk_res s k | None => [] end.
Definition env_res (s : ast) (e : nat) : list res :=
  REnv e :: ctx_res s (eidle (en s e)) ++ sh_res s (eshared (en s e)) ++ flat_map (ctx_res s) (equeue (en s e)).
Definition own (s : ast) : list res := flat_map (env_res s) (envs s).

Definition addr (r : res) : nat := match r with RMap m _ => m | RStk k => k | RCtx c => c | REnv e => e end.
Record good (s : ast) (L : list res) : Prop := {
  g_nd : NoDup (live s);
  g_lt : forall r, In r (live s) -> addr r < nx s;
  g_pm : Permutation (live s) (own s ++ L);
  g_err : err s = false;
  g_q : forall e, In e (envs s) -> ephase (en s e) = PEnded \/ ephase (en s e) = PCreated -> equeue (en s e) = []
}.
(** What code that may throw does at most. *)
Record ext (s s1 : ast) : Prop := {
  x_nx : nx s <= nx s1;
  x_live : exists X, live s1 = X ++ live s;
  x_out : out s1 = out s;
  x_en : forall e, e < nx s -> equeue (en s1 e) = equeue (en s e) /\ ephase (en s1 e) = ephase (en s e) /\ eidle (en s1 e) = eidle (en s e)
           /\ (eshared (en s e) <> None -> eshared (en s1 e) = eshared (en s e));
  x_envs : incl (envs s) (envs s1)
}.
Lemma ext_refl : forall s, ext s s.
Proof. intros s. constructor; auto; [exists []; reflexivity|apply incl_refl]. Qed.
Lemma ext_trans : forall a b c, ext a b -> ext b c -> ext a c.
Proof.
  intros a b c [A1 [XA A2] A3 A4 A5] [B1 [XB B2] B3 B4 B5]. constructor.
  - lia.
  - exists (XB ++ XA). now rewrite B2, A2, app_assoc.
  - congruence.
  - intros e H. destruct (A4 e H) as (P&Q&R&S). destruct (B4 e) as (P'&Q'&R'&S'); [lia|]. rewrite P', Q', R', P, Q, R. repeat split; auto.
    intros N. rewrite S'; [auto|]. rewrite (S N). exact N.
  - eauto using incl_tran.
Qed.
Lemma good_perm : forall s L L', good s L -> Permutation L L' -> good s L'.
Proof. intros s L L' [A B C D E] P. constructor; auto. now rewrite <- P. Qed.
Lemma good_in : forall s L r, good s L -> In r L -> In r (live s) /\ ~ In r (own s).
Proof.
  intros s L r [A B C D E] I. split; [apply (Permutation_in r (Permutation_sym C)), in_or_app; auto|].
  intros J. assert (N : NoDup (own s ++ L)) by (eapply Permutation_NoDup; eauto).
  apply in_split in J as (l1&l2&X). rewrite X in N. rewrite <- app_assoc in N. cbn in N. apply NoDup_remove_2 in N. apply N.
  apply in_or_app. right. apply in_or_app. auto.
Qed.
Lemma good_own : forall s L r, good s L -> In r (own s) -> In r (live s).
Proof. intros s L r G I. apply (Permutation_in r (Permutation_sym (g_pm _ _ G))), in_or_app. auto. Qed.
Lemma good_nd : forall s L, good s L -> NoDup (own s ++ L).
Proof. intros s L G. eapply Permutation_NoDup; [apply (g_pm _ _ G)|apply (g_nd _ _ G)]. Qed.

(** What the lists depend on. *)
Lemma stk_res_eq : forall s s' k, sk s' k = sk s k -> stk_res s' k = stk_res s k.
Proof. intros s s' k E. unfold stk_res. now rewrite E. Qed.
Lemma ctx_res_eq : forall s s' c, cx s' c = cx s c -> (forall k, In (RStk k) (ctx_res s c) -> sk s' k = sk s k) -> ctx_res s' c = ctx_res s c.
Proof.
  intros s s' c E H. unfold ctx_res in *. rewrite E. destruct (cshared (cx s c)); auto. destruct (cstk (cx s c)) as [k|]; auto.
  rewrite (stk_res_eq s s' k); auto. apply H. cbn. auto.
Qed.
Lemma env_res_eq : forall s s' e, en s' e = en s e -> (forall c, In (RCtx c) (env_res s e) -> cx s' c = cx s c) ->
  (forall k, In (RStk k) (env_res s e) -> sk s' k = sk s k) -> env_res s' e = env_res s e.
Proof.
  intros s s' e E C K. unfold env_res in *. rewrite E. f_equal. f_equal; [|f_equal].
  - apply ctx_res_eq; [apply C; cbn; auto|]. intros k I. apply K. right. apply in_or_app. auto.
  - destruct (eshared (en s e)) as [k|]; auto. cbn. apply stk_res_eq. apply K. right. apply in_or_app. right. apply in_or_app. left. cbn. auto.
  - assert (H : forall c, In c (equeue (en s e)) -> ctx_res s' c = ctx_res s c).
    { intros c I. apply ctx_res_eq.
      - apply C. right. apply in_or_app. right. apply in_or_app. right. apply in_flat_map. exists c. split; auto. cbn. auto.
      - intros k J. apply K. right. apply in_or_app. right. apply in_or_app. right. apply in_flat_map. eauto. }
    induction (equeue (en s e)) as [|c q IH]; auto. cbn [flat_map]. apply f_equal2; [apply H; now left|]. apply IH.
    + intros c' I. apply C. cbn [In flat_map] in *. rewrite !in_app_iff in *. tauto.
    + intros k I. apply K. cbn [In flat_map] in *. rewrite !in_app_iff in *. tauto.
    + intros c' I. apply H. now right.
Qed.
Lemma own_eq : forall s s', envs s' = envs s -> (forall e, In (REnv e) (own s) -> en s' e = en s e) ->
  (forall c, In (RCtx c) (own s) -> cx s' c = cx s c) -> (forall k, In (RStk k) (own s) -> sk s' k = sk s k) -> own s' = own s.
Proof.
  intros s s' V E C K. unfold own in *. rewrite V. clear V. induction (envs s) as [|e l IH]; auto. cbn [flat_map] in *. apply f_equal2.
  - apply env_res_eq; [apply E, in_or_app; left; now left| |]; intros x I; [apply C|apply K]; apply in_or_app; auto.
  - apply IH; intros x I; [apply E|apply C|apply K]; apply in_or_app; auto.
Qed.

(** Elementary steps. *)
Lemma good_acquire : forall s L r, good s L -> (forall m, addr (r m) = m) ->
  good (mkA (r (nx s) :: live s) (S (nx s)) (sk s) (cx s) (en s) (envs s) (err s) (out s)) (r (nx s) :: L).
Proof.
  intros s L r G A. constructor; cbn.
  - constructor; [|apply (g_nd _ _ G)]. intros I. apply (g_lt _ _ G) in I. rewrite A in I. lia.
  - intros x [<-|I]; [rewrite A; lia|]. apply (g_lt _ _ G) in I. lia.
  - change (own _) with (own s). rewrite <- Permutation_middle. constructor. apply (g_pm _ _ G).
  - apply (g_err _ _ G).
  - apply (g_q _ _ G).
Qed.
Lemma good_own_same : forall s s' L, good s L -> live s' = live s -> nx s' = nx s -> err s' = err s -> envs s' = envs s -> own s' = own s ->
  (forall e, In e (envs s) -> en s' e = en s e) -> good s' L.
Proof.
  intros s s' L G A B C D E F. constructor.
  - rewrite A. apply (g_nd _ _ G).
  - rewrite A, B. apply (g_lt _ _ G).
  - rewrite A, E. apply (g_pm _ _ G).
  - rewrite C. apply (g_err _ _ G).
  - rewrite D. intros e I. rewrite (F e I). now apply (g_q _ _ G).
Qed.
Definition with_sk s k x := mkA (live s) (nx s) (upd (sk s) k x) (cx s) (en s) (envs s) (err s) (out s).
Definition with_cx s c x := mkA (live s) (nx s) (sk s) (upd (cx s) c x) (en s) (envs s) (err s) (out s).
Lemma good_set_sk : forall s L k x, good s L -> In (RStk k) L -> good (with_sk s k x) L.
Proof.
  intros s L k x G I. apply good_own_same with s; auto. apply own_eq; auto. intros j J. cbn. apply upd_other. intros ->.
  now apply (good_in s L (RStk k) G).
Qed.
Lemma good_set_cx : forall s L c x, good s L -> In (RCtx c) L -> good (with_cx s c x) L.
Proof.
  intros s L k x G I. apply good_own_same with s; auto. apply own_eq; auto. intros j J. cbn. apply upd_other. intros ->.
  now apply (good_in s L (RCtx k) G).
Qed.
Lemma env_in_own : forall s e, In e (envs s) -> In (REnv e) (own s).
Proof. intros s e I. unfold own. apply in_flat_map. exists e. split; auto. now left. Qed.
Lemma good_new_en : forall s L e x, good s L -> In (REnv e) L -> good (put_en s e x) L.
Proof.
  intros s L e x G I. assert (N : forall j, In (REnv j) (own s) -> j <> e) by (intros j J ->; now apply (good_in s L (REnv e) G)).
  apply good_own_same with s; auto.
  - apply own_eq; auto. intros j J. cbn. apply upd_other. auto.
  - intros j J. cbn. apply upd_other. apply N. now apply env_in_own.
Qed.
Lemma free_ok : forall s L r, good s (r :: L) -> good (free s r) L /\ sk (free s r) = sk s /\ cx (free s r) = cx s /\ en (free s r) = en s /\ envs (free s r) = envs s
  /\ nx (free s r) = nx s /\ out (free s r) = out s.
Proof.
  intros s L r G. unfold free. destruct (good_in s (r :: L) r G (or_introl eq_refl)) as (I&_). destruct (in_dec res_eq r (live s)); [|contradiction].
  split; [|auto 10]. pose proof (good_nd _ _ G) as N. rewrite <- Permutation_middle in N. inversion N as [|? ? N1 N2]; subst.
  assert (ND : NoDup (remove res_eq r (live s))).
  { clear -G. pose proof (g_nd _ _ G) as N. induction (live s) as [|x l IH]; cbn; auto. inversion N; subst. destruct (res_eq r x); auto. constructor; auto.
    intros J. apply in_remove in J as [J _]. auto. }
  constructor; cbn.
  - exact ND.
  - intros x J. apply in_remove in J as [J _]. now apply (g_lt _ _ G).
  - change (own _) with (own s). apply NoDup_Permutation; auto. intros x. split.
    + intros J. apply in_remove in J as [J Nx]. apply (Permutation_in x (g_pm _ _ G)) in J. apply in_app_iff in J as [J|[J|J]]; [| |]; try (apply in_or_app; auto; fail).
      congruence.
    + intros J. apply in_in_remove; [intros ->; contradiction|]. apply (Permutation_in x (Permutation_sym (g_pm _ _ G))).
      apply in_app_iff in J as [J|J]; apply in_or_app; [auto|right; now right].
  - apply (g_err _ _ G).
  - apply (g_q _ _ G).
Qed.
(** Frame: everything that is not about what is held. *)
Definition same (s s' : ast) : Prop := sk s' = sk s /\ cx s' = cx s /\ en s' = en s /\ envs s' = envs s /\ nx s' = nx s /\ out s' = out s.
Lemma same_trans : forall a b c, same a b -> same b c -> same a c.
Proof. intros a b c (A&B&C&D&E&F) (A'&B'&C'&D'&E'&F'). unfold same. repeat split; congruence. Qed.
Lemma same_res : forall s s', same s s' -> (forall k, stk_res s' k = stk_res s k) /\ (forall c, ctx_res s' c = ctx_res s c) /\ (forall e, env_res s' e = env_res s e) /\ own s' = own s.
Proof.
  intros s s' (A&B&C&D&_). assert (K : forall k, stk_res s' k = stk_res s k) by (intros; unfold stk_res; now rewrite A).
  assert (X : forall c, ctx_res s' c = ctx_res s c) by (intros; unfold ctx_res; rewrite B; destruct (cshared _); auto; destruct (cstk _); auto; now rewrite K).
  assert (Y : forall e, env_res s' e = env_res s e).
  { intros. unfold env_res, sh_res. rewrite C, X. f_equal. f_equal. f_equal; [destruct (eshared _); auto|]. apply flat_map_ext. auto. }
  split; [auto|split; [auto|split; [auto|]]]. unfold own. rewrite D. now apply flat_map_ext.
Qed.
Lemma destroy_stack_ok : forall s L k, good s (stk_res s k ++ L) -> good (destroy_stack s k) L /\ same s (destroy_stack s k).
Proof.
  intros s L k G. unfold destroy_stack, stk_res in *. cbn [app] in G. destruct (ssize (sk s k) =? 0).
  - destruct (free_ok s L (RStk k) G) as (A&B). split; auto.
  - cbn [app] in G. assert (G1 : good s (RMap (smem (sk s k)) (ssize (sk s k)) :: RStk k :: L)) by (eapply good_perm; [exact G|constructor]).
    destruct (free_ok _ _ _ G1) as (A&B). destruct (free_ok _ _ _ A) as (C&D). split; auto. eapply same_trans; [exact B|exact D].
Qed.
Lemma destroy_ctx_ok : forall s L c, good s (ctx_res s c ++ L) -> good (destroy_ctx s c) L /\ same s (destroy_ctx s c).
Proof.
  intros s L c G. unfold destroy_ctx, ctx_res in *. cbn [app] in G. destruct (free_ok _ _ _ G) as (A&B). destruct (cshared (cx s c)); [split; auto|].
  destruct (cstk (cx s c)) as [k|]; [|split; auto]. rewrite <- (proj1 (same_res _ _ B)) in A. destruct (destroy_stack_ok _ _ _ A) as (C&D).
  split; auto. eapply same_trans; [exact B|exact D].
Qed.
Lemma destroy_all_ok : forall q s L, good s (flat_map (ctx_res s) q ++ L) -> good (fold_left destroy_ctx q s) L /\ same s (fold_left destroy_ctx q s).
Proof.
  induction q as [|c q IH]; intros s L G; cbn in *; [split; [auto|repeat split]|]. rewrite <- app_assoc in G. destruct (destroy_ctx_ok _ _ _ G) as (A&B).
  destruct (same_res _ _ B) as (_&X&_). rewrite <- (flat_map_ext _ _ X) in A. destruct (IH _ _ A) as (C&D). split; auto. eapply same_trans; eauto.
Qed.

(** One environment changes. *)
Lemma nodup_app : forall A (a b : list A), NoDup (a ++ b) -> NoDup a /\ NoDup b /\ forall x, In x a -> In x b -> False.
Proof.
  intros A a b. induction a as [|x a IH]; intros N; cbn in *; [split; [constructor|auto]|]. inversion N as [|? ? N1 N2]; subst. destruct (IH N2) as (P&Q&R).
  split; [constructor; auto; intros I; apply N1; apply in_or_app; auto|]. split; auto. intros y [<-|I] J; [apply N1; apply in_or_app; auto|eauto].
Qed.
Lemma nodup_envs : forall s L, good s L -> NoDup (envs s).
Proof.
  intros s L G. pose proof (proj1 (nodup_app _ _ _ (good_nd _ _ G))) as N. unfold own in N. induction (envs s) as [|e l IH]; [constructor|]. cbn [flat_map] in N.
  destruct (nodup_app _ _ _ N) as (_&P&R). constructor; auto. intros I. apply (R (REnv e)); [now left|]. apply in_flat_map. exists e. split; auto. now left.
Qed.
Lemma env_res_upd : forall s e x j, j <> e -> env_res (put_en s e x) j = env_res s j.
Proof. intros s e x j N. unfold env_res. cbn. rewrite upd_other by auto. reflexivity. Qed.
Lemma own_put : forall s e x A B, In e (envs s) -> NoDup (envs s) -> Permutation (env_res (put_en s e x) e ++ A) (env_res s e ++ B) ->
  Permutation (own (put_en s e x) ++ A) (own s ++ B).
Proof.
  intros s e x A B I N P. unfold own. change (envs (put_en s e x)) with (envs s). apply in_split in I as (l1&l2&E). rewrite E in *.
  assert (N1 : ~ In e l1 /\ ~ In e l2) by (apply NoDup_remove_2 in N; rewrite in_app_iff in N; tauto). destruct N1 as (N1&N2).
  rewrite !flat_map_app. cbn [flat_map].
  assert (Q : forall l, ~ In e l -> flat_map (env_res (put_en s e x)) l = flat_map (env_res s) l).
  { intros l. induction l as [|j l IH]; intros H; auto. cbn [flat_map]. rewrite env_res_upd by (intros ->; apply H; now left). rewrite IH; auto. intros J. apply H. now right. }
  rewrite (Q l1 N1), (Q l2 N2). set (F := flat_map (env_res s)). rewrite <- !app_assoc. apply Permutation_app_head.
  rewrite (Permutation_app_comm (F l2) A), (Permutation_app_comm (F l2) B), !app_assoc. apply Permutation_app_tail. exact P.
Qed.
Lemma good_put : forall s L L' e x, good s L -> In e (envs s) -> Permutation (env_res (put_en s e x) e ++ L') (env_res s e ++ L) ->
  (ephase x = PEnded \/ ephase x = PCreated -> equeue x = []) -> good (put_en s e x) L'.
Proof.
  intros s L L' e x G I P Q. constructor; cbn.
  - apply (g_nd _ _ G).
  - apply (g_lt _ _ G).
  - rewrite (own_put s e x L' L I (nodup_envs _ _ G) P). apply (g_pm _ _ G).
  - apply (g_err _ _ G).
  - intros j J. destruct (Nat.eq_dec j e) as [->|N]; [rewrite upd_same; auto|rewrite upd_other by auto]. now apply (g_q _ _ G).
Qed.

(** Code that may throw: what it holds when it returns and what remains when it throws. *)
Definition fresh (s : ast) (L : list res) : Prop := forall r, In r L -> nx s <= addr r.
Definition lost (s s1 : ast) (L : list res) (b : nat) : Prop := exists X, good s1 (X ++ L) /\ fresh s X /\ length X <= b.
Lemma lost_none : forall s L b, good s L -> lost s s L b.
Proof. intros s L b G. exists []. split; [auto|split; [intros r []|cbn; lia]]. Qed.
Lemma lost_of : forall s s1 L X b, good s1 (X ++ L) -> fresh s X -> length X <= b -> lost s s1 L b.
Proof. intros. exists X. auto. Qed.
Lemma fresh_le : forall s s1 X, nx s <= nx s1 -> fresh s1 X -> fresh s X.
Proof. intros s s1 X H F r I. specialize (F r I). lia. Qed.
Lemma attempt_eq : forall s t r s1 t1, attempt s t = (r, s1, t1) -> s1 = s.
Proof. intros s [|[|] t] r s1 t1 E; injection E; auto. Qed.

Lemma create_stack_ok : forall n s t r s1 t1 L, good s L -> create_stack n s t = (r, s1, t1) -> ext s s1 /\ en s1 = en s /\ envs s1 = envs s /\ cx s1 = cx s /\ 
  match r with Some k => good s1 (stk_res s1 k ++ L) /\ fresh s (stk_res s1 k) /\ length (stk_res s1 k) <= 2 | None => lost s s1 L 1 end.
Proof.
  intros n s t r s1 t1 L G E. unfold create_stack, bind, ret, acquire, set_sk in E. destruct (n =? 0) eqn:N0.
  - destruct (attempt s t) as [[[u|] sa] ta] eqn:A; pose proof (attempt_eq _ _ _ _ _ A); subst sa; injection E as <- <- <-.
    + set (s0 := mkA (RStk (nx s) :: live s) (S (nx s)) (sk s) (cx s) (en s) (envs s) (err s) (out s)).
      pose proof (good_acquire s L RStk G (fun m => eq_refl)) as G1. fold s0 in G1.
      split; [constructor; cbn; auto; [exists [RStk (nx s)]; reflexivity|apply incl_refl]|]. split; [reflexivity|]. split; [reflexivity|]. split; [reflexivity|].
      unfold stk_res. cbn. rewrite upd_same. cbn. rewrite N0. split; [|split; [intros x [<-|[]]; auto|cbn; auto]].
      apply (good_set_sk s0 _ (nx s)); [exact G1|now left].
    + split; [apply ext_refl|repeat split; auto]. now apply lost_none.
  - destruct (attempt s t) as [[[u|] sa] ta] eqn:A; pose proof (attempt_eq _ _ _ _ _ A); subst sa; cbv beta iota in E.
    + set (sm := mkA (RMap (nx s) n :: live s) (S (nx s)) (sk s) (cx s) (en s) (envs s) (err s) (out s)) in *.
      pose proof (good_acquire s L (fun m => RMap m n) G (fun m => eq_refl)) as G1. cbn beta in G1. fold sm in G1.
      destruct (attempt sm ta) as [[[u'|] sa'] ta'] eqn:A'; pose proof (attempt_eq _ _ _ _ _ A'); subst sa'; injection E as <- <- <-.
      * pose proof (good_acquire sm _ RStk G1 (fun m => eq_refl)) as G2.
        split; [constructor; cbn; auto; [exists [RStk (S (nx s)); RMap (nx s) n]; reflexivity|apply incl_refl]|]. split; [reflexivity|]. split; [reflexivity|]. split; [reflexivity|].
        unfold stk_res. cbn. rewrite upd_same. cbn. rewrite N0. split; [|split; [intros x [<-|[<-|[]]]; cbn; auto|cbn; auto]].
        apply (good_set_sk _ _ (S (nx s)) _ G2). now left.
      * split; [constructor; cbn; auto; [exists [RMap (nx s) n]; reflexivity|apply incl_refl]|]. split; [reflexivity|]. split; [reflexivity|]. split; [reflexivity|].
        exists [RMap (nx s) n]. split; [exact G1|]. split; [intros x [<-|[]]; cbn; auto|cbn; auto].
    + injection E as <- <- <-. split; [apply ext_refl|repeat split; auto]. now apply lost_none.
Qed.
Lemma create_ctx_ok : forall n sh s t r s1 t1 L, good s L -> create_ctx n sh s t = (r, s1, t1) -> ext s s1 /\ en s1 = en s /\ envs s1 = envs s /\
  match r with Some c => good s1 (ctx_res s1 c ++ L) /\ fresh s (ctx_res s1 c) /\ length (ctx_res s1 c) <= (if n =? 0 then 2 else 3) /\ cshared (cx s1 c) = sh
  | None => lost s s1 L (if n =? 0 then 2 else 3) end.
Proof.
  intros n sh s t r s1 t1 L G E. unfold create_ctx, bind, ret in E.
  destruct (attempt s t) as [[[u|] sa] ta] eqn:A; pose proof (attempt_eq _ _ _ _ _ A); subst sa; cbv beta iota in E.
  2: { injection E as <- <- <-. split; [apply ext_refl|repeat split; auto]. now apply lost_none. }
  destruct sh.
  - cbv beta iota in E. destruct (attempt s ta) as [[[u'|] sa'] ta'] eqn:A'; pose proof (attempt_eq _ _ _ _ _ A'); subst sa'; cbv beta iota in E.
    + unfold acquire, set_cx in E. injection E as <- <- <-. pose proof (good_acquire s L RCtx G (fun m => eq_refl)) as G1.
      split; [constructor; cbn; auto; [exists [RCtx (nx s)]; reflexivity|apply incl_refl]|]. split; [reflexivity|]. split; [reflexivity|].
      unfold ctx_res. cbn. rewrite !upd_same. cbn. split; [|split; [intros x [<-|[]]; auto|split; [destruct (n =? 0); cbn; auto|auto]]].
      apply (good_set_cx _ _ (nx s) _ G1). now left.
    + injection E as <- <- <-. split; [apply ext_refl|repeat split; auto]. now apply lost_none.
  - destruct (create_stack n s ta) as [[[k|] s2] t2] eqn:CS; cbv beta iota in E.
    2: { injection E as <- <- <-. destruct (create_stack_ok _ _ _ _ _ _ _ G CS) as (X&E1&E2&_&(Y&Z1&Z2&Z3)). split; auto. split; auto. split; auto.
      exists Y. split; auto. split; auto. destruct (n =? 0); lia. }
    destruct (create_stack_ok _ _ _ _ _ _ _ G CS) as (X&E1&E2&E3&Z1&Z2&Z3).
    destruct (attempt s2 t2) as [[[u'|] sa'] ta'] eqn:A'; pose proof (attempt_eq _ _ _ _ _ A'); subst sa'; cbv beta iota in E.
    + unfold acquire, set_cx in E. injection E as <- <- <-. pose proof (good_acquire s2 _ RCtx Z1 (fun m => eq_refl)) as G1.
      split. { eapply ext_trans; [exact X|]. constructor; cbn; auto; [exists [RCtx (nx s2)]; reflexivity|apply incl_refl]. }
      split; [exact E1|]. split; [exact E2|]. unfold ctx_res. cbn. rewrite !upd_same. cbn [cshared cstk].
      match goal with |- context [stk_res ?a k] => change (stk_res a k) with (stk_res s2 k) end.
      split; [|split; [|split; [|reflexivity]]].
      * apply (good_set_cx _ _ (nx s2) _ G1). now left.
      * intros x [<-|I]; [cbn; apply (x_nx _ _ X)|auto].
      * cbn [length]. destruct (n =? 0) eqn:N0; [|lia]. unfold create_stack in CS. rewrite N0 in CS. unfold bind, ret, acquire, set_sk in CS.
        destruct (attempt s ta) as [[[w|] sb] tb] eqn:B; [|discriminate]. injection CS as <- <- <-. unfold stk_res. cbn. rewrite upd_same. cbn. rewrite N0. cbn. auto.
    + injection E as <- <- <-. split; auto. split; auto. split; auto. exists (stk_res s2 k). split; auto. split; auto. destruct (n =? 0); lia.
Qed.
Lemma create_env_ok : forall b s t r s1 t1 L, good s L -> create_env b s t = (r, s1, t1) -> ext s s1 /\ envs s1 = envs s /\
  match r with Some e => nx s <= e /\ good s1 (env_res s1 e ++ L) /\ fresh s (env_res s1 e) /\ length (env_res s1 e) <= 3 /\ equeue (en s1 e) = [] /\
                         ephase (en s1 e) = (if b then POn else PCreated) /\ (forall j, j <> e -> en s1 j = en s j)
  | None => lost s s1 L 2 /\ en s1 = en s end.
Proof.
  intros b s t r s1 t1 L G E. unfold create_env, bind, ret in E. destruct (create_ctx 0 false s t) as [[[i|] s2] t2] eqn:CC; cbv beta iota in E.
  2: { injection E as <- <- <-. destruct (create_ctx_ok _ _ _ _ _ _ _ _ G CC) as (X&E1&E2&Z). auto. }
  destruct (create_ctx_ok _ _ _ _ _ _ _ _ G CC) as (X&E1&E2&Z1&Z2&Z3&_). cbn [Nat.eqb] in Z3.
  destruct (attempt s2 t2) as [[[u'|] sa'] ta'] eqn:A'; pose proof (attempt_eq _ _ _ _ _ A'); subst sa'; cbv beta iota in E.
  - unfold acquire, set_en in E. injection E as <- <- <-. pose proof (good_acquire s2 _ REnv Z1 (fun m => eq_refl)) as G1. pose proof (x_nx _ _ X) as XN.
    split. { eapply ext_trans; [exact X|]. constructor; cbn; auto; [exists [REnv (nx s2)]; reflexivity| |apply incl_refl].
      intros e H. rewrite upd_other by lia. auto. }
    split; [exact E2|]. split; [lia|]. unfold env_res. cbn [en]. rewrite !upd_same. cbn [eidle eshared equeue sh_res flat_map app ephase]. rewrite app_nil_r.
    match goal with |- context [ctx_res ?a i] => change (ctx_res a i) with (ctx_res s2 i) end.
    split; [|split; [|split; [|split; [|split]]]]; auto.
    + apply (good_new_en _ _ (nx s2) _ G1). now left.
    + intros x [<-|I]; [cbn; lia|auto].
    + cbn [length]. lia.
    + intros j N. rewrite upd_other by auto. now rewrite E1.
  - injection E as <- <- <-. split; auto. split; auto. split; auto. exists (ctx_res s2 i). auto.
Qed.
Lemma manager_env_ok : forall b s t r s1 t1 L, good s L -> manager_env b s t = (r, s1, t1) -> ext s s1 /\
  (forall e, In e (envs s1) -> ephase (en s1 e) = PCreated \/ ephase (en s1 e) = POn \/ In e (envs s)) /\ incl (envs s) (envs s1) /\
  match r with Some e => In e (envs s1) /\ good s1 L /\ ephase (en s1 e) = (if b then POn else PCreated) | None => lost s s1 L 3 end.
Proof.
  intros b s t r s1 t1 L G E. unfold manager_env, bind, ret in E. destruct (create_env b s t) as [[[e|] s2] t2] eqn:CE; cbv beta iota in E.
  2: { injection E as <- <- <-. destruct (create_env_ok _ _ _ _ _ _ _ G CE) as (X&E2&((Y&Z1&Z2&Z3)&E3)). split; auto. rewrite E2. split; [auto|]. split; [apply incl_refl|].
       exists Y. split; auto. }
  destruct (create_env_ok _ _ _ _ _ _ _ G CE) as (X&E2&H1&Z1&Z2&Z3&Q&P&En).
  assert (F : forall sx tx, (@None nat, sx, tx) = (r, s1, t1) -> sx = s2 -> ext s s1 /\ (forall j, In j (envs s1) -> ephase (en s1 j) = PCreated \/ ephase (en s1 j) = POn \/ In j (envs s)) /\
     incl (envs s) (envs s1) /\ match r with Some e => In e (envs s1) /\ good s1 L /\ ephase (en s1 e) = (if b then POn else PCreated) | None => lost s s1 L 3 end).
  { intros sx tx F ->. injection F as <- <- <-. split; auto. rewrite E2. split; [auto|]. split; [apply incl_refl|]. exists (env_res s2 e). auto. }
  destruct (attempt s2 t2) as [[[u'|] sa'] ta'] eqn:A'; pose proof (attempt_eq _ _ _ _ _ A') as Q1; cbv beta iota in E; [|eapply F; eauto]. subst sa'.
  destruct (attempt s2 ta') as [[[u''|] sa''] ta''] eqn:A''; pose proof (attempt_eq _ _ _ _ _ A'') as Q2; cbv beta iota in E; [|eapply F; eauto]. subst sa''.
  clear F. injection E as <- <- <-. split; [|split; [|split]].
  - eapply ext_trans; [exact X|]. constructor; cbn; auto; [exists []; reflexivity|]. intros x I. now right.
  - intros j [<-|J]; [|right; right; now rewrite <- E2]. cbn. rewrite P. destruct b; auto.
  - cbn. rewrite E2. intros x I. now right.
  - split; [now left|]. split; [|exact P]. constructor; cbn [live nx err envs en].
    + apply (g_nd _ _ Z1).
    + apply (g_lt _ _ Z1).
    + match goal with |- Permutation _ (?a ++ L) => change a with (env_res s2 e ++ own s2) end.
      eapply Permutation_trans; [apply (g_pm _ _ Z1)|]. rewrite app_assoc. apply Permutation_app_tail, Permutation_app_comm.
    + apply (g_err _ _ Z1).
    + intros j [<-|J]; [auto|now apply (g_q _ _ Z1)].
Qed.
Lemma add_ctx_ok : forall sz e c s t r s1 t1 L, good s (ctx_res s c ++ L) -> In e (envs s) -> add_ctx sz e c s t = (r, s1, t1) ->
  match r with Some _ => good s1 L /\ out s1 = out s /\ In e (envs s1) /\ In c (equeue (en s1 e)) /\ takes_nothing _ (live s) (live s1) /\ incl (envs s) (envs s1)
  | None => exists X, good s1 (ctx_res s c ++ X ++ L) /\ fresh s X /\ length X <= 1 /\ ext s s1 end.
Proof.
  intros sz e c s t r s1 t1 L G I E. unfold add_ctx, bind, ret, get_en, get_cx, throw in E.
  assert (K0 : lost s s (ctx_res s c ++ L) 1) by now apply lost_none.
  assert (F : forall sx tx, (@None unit, sx, tx) = (r, s1, t1) -> sx = s -> match r with Some _ => good s1 L /\ out s1 = out s /\ In e (envs s1) /\ In c (equeue (en s1 e)) /\ takes_nothing _ (live s) (live s1) /\ incl (envs s) (envs s1)
     | None => exists X, good s1 (ctx_res s c ++ X ++ L) /\ fresh s X /\ length X <= 1 /\ ext s s1 end).
  { intros sx tx F ->. injection F as <- <- <-. exists []. split; [exact G|]. split; [intros x []|]. split; [cbn; auto|apply ext_refl]. }
  destruct (ephase (en s e)) eqn:Ph; try (eapply F; eauto; fail). clear K0.
  (** the insertion into the queue *)
  assert (Push : forall s2, good s2 (ctx_res s c ++ L) -> ctx_res s2 c = ctx_res s c -> In e (envs s2) -> ephase (en s2 e) = POn ->
     good (put_en s2 e (mkE (eidle (en s2 e)) (eshared (en s2 e)) (equeue (en s2 e) ++ [c]) (ephase (en s2 e)))) L).
  { intros s2 G2 C2 I2 P2. apply good_put with (ctx_res s c ++ L); auto; [|cbn; rewrite P2; intros [Q|Q]; discriminate].
    unfold env_res. cbn [put_en en]. rewrite !upd_same. cbn [eidle eshared equeue].
    assert (Q : flat_map (ctx_res (put_en s2 e (mkE (eidle (en s2 e)) (eshared (en s2 e)) (equeue (en s2 e) ++ [c]) (ephase (en s2 e))))) (equeue (en s2 e) ++ [c]) =
      flat_map (ctx_res s2) (equeue (en s2 e)) ++ ctx_res s2 c) by (rewrite flat_map_app; cbn [flat_map]; now rewrite app_nil_r).
    rewrite Q, C2. clear Q. cbn [app]. constructor. rewrite <- !app_assoc. reflexivity. }
  destruct (cshared (cx s c)) eqn:Sh.
  - destruct (eshared (en s e)) as [k|] eqn:Es; cbv beta iota in E.
    + destruct (attempt s t) as [[[u|] sa] ta] eqn:A; pose proof (attempt_eq _ _ _ _ _ A) as Q; cbv beta iota in E; [|eapply F; eauto]. subst sa.
      unfold set_en in E. injection E as <- <- <-. split; [|split; [reflexivity|split; [exact I|split; [cbn; rewrite upd_same; apply in_or_app; right; now left|split; [intros x J; exact J|apply incl_refl]]]]]. exact (Push s G eq_refl I Ph).
    + destruct (create_stack sz s t) as [[[k|] s2] t2] eqn:CS; cbv beta iota in E; destruct (create_stack_ok _ _ _ _ _ _ _ G CS) as (X&E1&E2&E3&Z).
      2: { injection E as <- <- <-. destruct Z as (Y&Z1&Z2&Z3). exists Y. split; [|auto]. eapply good_perm; [exact Z1|]. rewrite !app_assoc. apply Permutation_app_tail, Permutation_app_comm. }
      destruct Z as (Z1&Z2&Z3). unfold set_en at 1 in E. cbv beta iota in E.
      assert (C2 : ctx_res s2 c = ctx_res s c).
      { unfold ctx_res. rewrite E3, Sh. reflexivity. }
      match type of E with context [attempt ?a t2] => set (s3 := a) in * end.
      assert (G3 : good s3 (ctx_res s c ++ L)).
      { change s3 with (put_en s2 e (mkE (eidle (en s e)) (Some k) (equeue (en s e)) POn)). apply good_put with (stk_res s2 k ++ ctx_res s c ++ L); auto.
        - now rewrite E2.
        - unfold env_res. cbn [put_en en]. rewrite !upd_same, E1, Es. cbn [eidle eshared equeue sh_res app]. constructor.
          change (ctx_res (put_en s2 e _)) with (ctx_res s2). change (stk_res (put_en s2 e _)) with (stk_res s2).
          rewrite <- !app_assoc. apply Permutation_app_head. rewrite !app_assoc. apply Permutation_app_tail. rewrite <- app_assoc. 
          rewrite (Permutation_app_comm (flat_map _ _) (stk_res s2 k)), app_assoc. reflexivity || (rewrite app_assoc; reflexivity).
        - cbn. intros [Q|Q]; discriminate. }
      destruct (attempt s3 t2) as [[[u|] sa] ta] eqn:A; pose proof (attempt_eq _ _ _ _ _ A) as Q; subst sa; cbv beta iota in E.
      * unfold set_en in E. injection E as <- <- <-. destruct (x_live _ _ X) as (Y&XL).
        split; [|split; [apply (x_out _ _ X)|split; [cbn; now rewrite E2|split; [cbn; rewrite upd_same; apply in_or_app; right; now left|split]]]].
        3: cbn; rewrite E2; apply incl_refl.
        2: intros x J; cbn; rewrite XL; apply in_or_app; auto.
        apply (Push s3 G3); auto.
        -- change (In e (envs s2)). now rewrite E2.
        -- unfold s3. cbn. now rewrite upd_same.
      * injection E as <- <- <-. exists []. split; [exact G3|]. split; [intros x []|]. split; [cbn; auto|].
        eapply ext_trans; [exact X|]. unfold s3. constructor; cbn; auto; [exists []; reflexivity| |apply incl_refl].
        intros j H. destruct (Nat.eq_dec j e) as [->|N]; [rewrite upd_same; cbn; rewrite E1|rewrite upd_other by auto; auto].
        repeat split; auto. intros N. now rewrite Es in N.
  - cbv beta iota in E. destruct (attempt s t) as [[[u|] sa] ta] eqn:A; pose proof (attempt_eq _ _ _ _ _ A) as Q; cbv beta iota in E; [|eapply F; eauto]. subst sa.
    unfold set_en in E. injection E as <- <- <-. split; [|split; [reflexivity|split; [exact I|split; [cbn; rewrite upd_same; apply in_or_app; right; now left|split; [intros x J; exact J|apply incl_refl]]]]]. exact (Push s G eq_refl I Ph).
Qed.

(** co_manager::create_and_schedule_ctx as a whole. *)
Definition place_ok (s : ast) (p : place) : Prop := match p with AtEnv e => In e (envs s) | AtNew => True end.
Lemma fresh_app : forall s X Y, fresh s X -> fresh s Y -> fresh s (X ++ Y).
Proof. intros s X Y A B r I. apply in_app_iff in I as [I|I]; auto. Qed.
Lemma ext_takes : forall s s1, ext s s1 -> takes_nothing _ (live s) (live s1).
Proof. intros s s1 X r I. destruct (x_live _ _ X) as (Y&E). rewrite E. apply in_or_app. auto. Qed.
(** Everything that an unregistered object consists of is below the next address and not written by others. *)
Lemma ctx_res_live : forall s L c, good s (ctx_res s c ++ L) -> forall r, In r (ctx_res s c) -> addr r < nx s.
Proof. intros s L c G r I. apply (g_lt _ _ G). apply (good_in s _ r G). apply in_or_app. auto. Qed.
Lemma create_stack_frame : forall n s t r s1 t1, create_stack n s t = (r, s1, t1) -> (forall k, k < nx s -> sk s1 k = sk s k) /\ cx s1 = cx s /\ nx s <= nx s1.
Proof.
  intros n s t r s1 t1 E. unfold create_stack, bind, ret, acquire, set_sk in E. destruct (n =? 0).
  - destruct (attempt s t) as [[[u|] sa] ta] eqn:A; pose proof (attempt_eq _ _ _ _ _ A); subst sa; injection E as <- <- <-; cbn; split; auto.
    intros k H. apply upd_other. lia.
  - destruct (attempt s t) as [[[u|] sa] ta] eqn:A; pose proof (attempt_eq _ _ _ _ _ A); subst sa; cbv beta iota in E; [|injection E as <- <- <-; auto].
    match type of E with context [attempt ?a ta] => destruct (attempt a ta) as [[[u'|] sa'] ta'] eqn:A'; pose proof (attempt_eq _ _ _ _ _ A'); subst sa' end;
      injection E as <- <- <-; cbn; split; auto; intros k H; apply upd_other; lia.
Qed.
Lemma create_ctx_frame : forall n sh s t r s1 t1, create_ctx n sh s t = (r, s1, t1) ->
  (forall k, k < nx s -> sk s1 k = sk s k) /\ (forall c, c < nx s -> cx s1 c = cx s c) /\ nx s <= nx s1.
Proof.
  intros n sh s t r s1 t1 E. unfold create_ctx, bind, ret, acquire, set_cx in E.
  destruct (attempt s t) as [[[u|] sa] ta] eqn:A; pose proof (attempt_eq _ _ _ _ _ A); subst sa; cbv beta iota in E; [|injection E as <- <- <-; auto].
  destruct sh; cbv beta iota in E.
  - destruct (attempt s ta) as [[[u'|] sa'] ta'] eqn:A'; pose proof (attempt_eq _ _ _ _ _ A'); subst sa'; injection E as <- <- <-; cbn; repeat split; auto.
    intros c H. apply upd_other. lia.
  - destruct (create_stack n s ta) as [[[k|] s2] t2] eqn:CS; cbv beta iota in E; destruct (create_stack_frame _ _ _ _ _ _ CS) as (P&Q&R).
    + destruct (attempt s2 t2) as [[[u'|] sa'] ta'] eqn:A'; pose proof (attempt_eq _ _ _ _ _ A'); subst sa'; injection E as <- <- <-; cbn; repeat split; auto.
      * intros c H. rewrite upd_other by lia. now rewrite Q.
      * intros c H. now rewrite Q.
    + injection E as <- <- <-. repeat split; auto. intros c H. now rewrite Q.
Qed.
Lemma manager_env_frame : forall b s t r s1 t1, manager_env b s t = (r, s1, t1) ->
  (forall k, k < nx s -> sk s1 k = sk s k) /\ (forall c, c < nx s -> cx s1 c = cx s c) /\ nx s <= nx s1.
Proof.
  intros b s t r s1 t1 E. unfold manager_env, create_env, bind, ret, acquire, set_en in E.
  destruct (create_ctx 0 false s t) as [[[i|] s2] t2] eqn:CC; cbv beta iota in E; pose proof (create_ctx_frame _ _ _ _ _ _ _ CC) as (P&Q&R); [|injection E as <- <- <-; auto].
  destruct (attempt s2 t2) as [[[u'|] sa'] ta'] eqn:A'; pose proof (attempt_eq _ _ _ _ _ A'); subst sa'; cbv beta iota in E; [|injection E as <- <- <-; auto].
  match type of E with context [attempt ?a ta'] => destruct (attempt a ta') as [[[u2|] sb] tb] eqn:B; pose proof (attempt_eq _ _ _ _ _ B); subst sb end; cbv beta iota in E;
    [|injection E as <- <- <-; cbn; auto].
  match type of E with context [attempt ?a tb] => destruct (attempt a tb) as [[[u3|] sc] tc] eqn:C; pose proof (attempt_eq _ _ _ _ _ C); subst sc end; cbv beta iota in E;
    injection E as <- <- <-; cbn; auto.
Qed.
Lemma ctx_res_keep : forall s s1 L c, good s (ctx_res s c ++ L) -> (forall k, k < nx s -> sk s1 k = sk s k) -> (forall c, c < nx s -> cx s1 c = cx s c) ->
  ctx_res s1 c = ctx_res s c.
Proof.
  intros s s1 L c G A B. pose proof (ctx_res_live _ _ _ G) as H. apply ctx_res_eq.
  - apply B. apply (H (RCtx c)). now left.
  - intros k I. apply A. apply (H (RStk k) I).
Qed.
Lemma create_and_schedule_ok : forall sz n sh p s t r s1 t1 L, good s L -> place_ok s p -> create_and_schedule sz n sh p s t = (r, s1, t1) ->
  takes_nothing _ (live s) (live s1) /\ out s1 = out s /\
  match r with
  | Some c => good s1 L /\ exists e, In e (envs s1) /\ In c (equeue (en s1 e)) /\ (forall e0, p = AtEnv e0 -> e = e0)
  | None => lost s s1 L 6 /\ ext s s1
  end.
Proof.
  intros sz n sh p s t r s1 t1 L G I E. unfold create_and_schedule, bind, ret in E.
  destruct (create_ctx n sh s t) as [[[c|] s2] t2] eqn:CC; cbv beta iota in E; destruct (create_ctx_ok _ _ _ _ _ _ _ _ G CC) as (X&E1&E2&Z).
  2: { injection E as <- <- <-. split; [now apply ext_takes|]. split; [apply (x_out _ _ X)|]. split; auto. destruct Z as (Y&Z1&Z2&Z3). exists Y. split; auto. split; auto.
       destruct (n =? 0); lia. }
  destruct Z as (Z1&Z2&Z3&_). assert (Z4 : length (ctx_res s2 c) <= 3) by (destruct (n =? 0); lia). clear Z3.
  destruct (attempt s2 t2) as [[[u|] sa] ta] eqn:A; pose proof (attempt_eq _ _ _ _ _ A); subst sa; cbv beta iota in E.
  2: { injection E as <- <- <-. split; [now apply ext_takes|]. split; [apply (x_out _ _ X)|]. split; auto. exists (ctx_res s2 c). split; auto. }
  (** the place *)
  assert (Hp : forall e s3 t3, ext s2 s3 -> good s3 (ctx_res s3 c ++ L) -> ctx_res s3 c = ctx_res s2 c -> In e (envs s3) -> (forall e0, p = AtEnv e0 -> e = e0) ->
     match add_ctx sz e c s3 t3 with (Some _, s4, t4) => (Some c, s4, t4) | (None, s4, t4) => (None, s4, t4) end = (r, s1, t1) ->
     takes_nothing _ (live s) (live s1) /\ out s1 = out s /\
     match r with Some c => good s1 L /\ exists e, In e (envs s1) /\ In c (equeue (en s1 e)) /\ (forall e0, p = AtEnv e0 -> e = e0) | None => lost s s1 L 6 /\ ext s s1 end).
  { intros e s3 t3 X3 G3 C3 I3 I4 E3. assert (X13 : ext s s3) by (eapply ext_trans; eauto).
    destruct (add_ctx sz e c s3 t3) as [[[u'|] s4] t4] eqn:AC; pose proof (add_ctx_ok _ _ _ _ _ _ _ _ _ G3 I3 AC) as H; injection E3 as <- <- <-; cbv beta iota in H.
    - destruct H as (H1&H2&H3&H4&H5&H6). split; [intros x J; apply H5, (ext_takes _ _ X13), J|]. split; [rewrite H2; apply (x_out _ _ X13)|]. split; eauto.
    - destruct H as (Y&H1&H2&H3&H4). assert (X14 : ext s s4) by (eapply ext_trans; eauto). split; [now apply ext_takes|]. split; [apply (x_out _ _ X14)|]. split; auto.
      exists (ctx_res s3 c ++ Y). rewrite app_assoc in H1. split; auto. split.
      + apply fresh_app; [rewrite C3; exact Z2|]. eapply fresh_le; [apply (x_nx _ _ X13)|exact H2].
      + rewrite app_length, C3. lia. }
  destruct p as [e|].
  - cbv beta iota in E. apply (Hp e s2 ta); auto; [apply ext_refl| |intros e0 Q; congruence]. cbn in I. now rewrite E2.
  - destruct (manager_env true s2 ta) as [[[e|] s3] t3] eqn:ME; cbv beta iota in E; destruct (manager_env_ok _ _ _ _ _ _ _ Z1 ME) as (X3&_&_&H);
      destruct (manager_env_frame _ _ _ _ _ _ ME) as (F1&F2&_); pose proof (ctx_res_keep _ _ _ _ Z1 F1 F2) as C3.
    + destruct H as (H1&H2&_). rewrite <- C3 in H2. apply (Hp e s3 t3); auto. discriminate.
    + assert (X13 : ext s s3) by (eapply ext_trans; eauto). injection E as <- <- <-. split; [now apply ext_takes|]. split; [apply (x_out _ _ X13)|]. split; auto.
      destruct H as (Y&H1&H2&H3). exists (Y ++ ctx_res s2 c). rewrite app_assoc in H1. split; auto. split.
      * apply fresh_app; [|exact Z2]. eapply fresh_le; [apply (x_nx _ _ X)|exact H2].
      * rewrite app_length. lia.
Qed.

(** Destruction of an environment. *)
Definition setenvs (s : ast) (l : list nat) : ast := mkA (live s) (nx s) (sk s) (cx s) (en s) l (err s) (out s).
Lemma free_setenvs : forall s l r, free (setenvs s l) r = setenvs (free s r) l.
Proof. intros s l r. unfold free, setenvs. cbn [live nx sk cx en envs err out]. destruct (in_dec res_eq r (live s)); reflexivity. Qed.
Lemma destroy_stack_setenvs : forall s l k, destroy_stack (setenvs s l) k = setenvs (destroy_stack s k) l.
Proof. intros s l k. unfold destroy_stack. cbn [setenvs sk]. destruct (ssize (sk s k) =? 0); now rewrite !free_setenvs. Qed.
Lemma destroy_ctx_setenvs : forall s l c, destroy_ctx (setenvs s l) c = setenvs (destroy_ctx s c) l.
Proof. intros s l c. unfold destroy_ctx. cbn [setenvs cx]. rewrite free_setenvs. destruct (cshared (cx s c)); auto. destruct (cstk (cx s c)); auto. apply destroy_stack_setenvs. Qed.
Lemma destroy_env_setenvs : forall s l e, destroy_env (setenvs s l) e = setenvs (destroy_env s e) l.
Proof.
  intros s l e. unfold destroy_env. cbn [setenvs en]. rewrite free_setenvs, destroy_ctx_setenvs. destruct (eshared (en s e)); auto. apply destroy_stack_setenvs.
Qed.
Lemma free_envs : forall s r, envs (free s r) = envs s.
Proof. intros s r. unfold free. destruct (in_dec res_eq r (live s)); reflexivity. Qed.
Lemma destroy_stack_envs : forall s k, envs (destroy_stack s k) = envs s.
Proof. intros s k. unfold destroy_stack. destruct (ssize (sk s k) =? 0); now rewrite !free_envs. Qed.
Lemma destroy_ctx_envs : forall s c, envs (destroy_ctx s c) = envs s.
Proof. intros s c. unfold destroy_ctx. destruct (cshared (cx s c)); [apply free_envs|]. destruct (cstk (cx s c)); [rewrite destroy_stack_envs|]; apply free_envs. Qed.
Lemma destroy_env_envs : forall s e, envs (destroy_env s e) = envs s.
Proof. intros s e. unfold destroy_env. destruct (eshared (en s e)); rewrite ?destroy_stack_envs, destroy_ctx_envs; apply free_envs. Qed.
Lemma destroy_env_ok : forall s L e, good s (env_res s e ++ L) -> equeue (en s e) = [] -> good (destroy_env s e) L /\ same s (destroy_env s e).
Proof.
  intros s L e G Q. unfold destroy_env, env_res in *. rewrite Q in G. cbn [flat_map app] in G. rewrite app_nil_r, <- app_assoc in G.
  destruct (free_ok _ _ _ G) as (A&B). rewrite <- (proj1 (proj2 (same_res _ _ B))) in A. destruct (destroy_ctx_ok _ _ _ A) as (C&D).
  pose proof (same_trans _ _ _ B D) as BD. destruct (eshared (en s e)) as [k|]; [|split; auto]. cbn [sh_res] in C. rewrite <- (proj1 (same_res _ _ BD)) in C.
  destruct (destroy_stack_ok _ _ _ C) as (C'&D'). split; auto. eapply same_trans; eauto.
Qed.

Lemma mem_in : forall e l, mem e l = true -> In e l.
Proof. intros e l H. apply existsb_exists in H as (x&I&E). apply Nat.eqb_eq in E. now subst. Qed.
Lemma in_mem : forall e l, In e l -> mem e l = true.
Proof. intros e l I. apply existsb_exists. exists e. split; auto. apply Nat.eqb_refl. Qed.
Lemma phase_eq_ok : forall a b, phase_eq a b = true -> a = b.
Proof. intros [] []; cbn; intros; congruence. Qed.
Lemma remove_perm : forall (f : nat -> list res) c q, NoDup q -> In c q -> Permutation (f c ++ flat_map f (remove Nat.eq_dec c q)) (flat_map f q).
Proof.
  intros f c q N I. induction q as [|x q IH]; [contradiction|]. inversion N as [|? ? N1 N2]; subst. cbn [flat_map remove]. destruct (Nat.eq_dec c x) as [->|D].
  - rewrite notin_remove by auto. reflexivity.
  - destruct I as [->|I]; [congruence|]. cbn [flat_map]. rewrite <- (IH N2 I). rewrite !app_assoc. apply Permutation_app_tail, Permutation_app_comm.
Qed.
Lemma queue_nodup : forall s L e, good s L -> In e (envs s) -> NoDup (equeue (en s e)).
Proof.
  intros s L e G I. pose proof (proj1 (nodup_app _ _ _ (good_nd _ _ G))) as N. unfold own in N. apply in_split in I as (l1&l2&E). rewrite E, flat_map_app in N. cbn [flat_map] in N.
  apply nodup_app in N as (_&N&_). apply nodup_app in N as (N&_). unfold env_res in N. apply NoDup_cons_iff in N as (_&N'). apply nodup_app in N' as (_&N'&_).
  apply nodup_app in N' as (_&N'&_). clear -N'. induction (equeue (en s e)) as [|c q IH]; [constructor|]. cbn [flat_map] in N'. destruct (nodup_app _ _ _ N') as (_&P&R).
  constructor; auto. intros I. apply (R (RCtx c)); [now left|]. apply in_flat_map. exists c. split; auto. now left.
Qed.
Lemma good_note : forall s L o, good s L -> good (note s o) L.
Proof. intros s L o G. apply good_own_same with s; auto. Qed.
Lemma good_phase : forall s L e x, good s L -> In e (envs s) -> eidle x = eidle (en s e) -> eshared x = eshared (en s e) -> equeue x = equeue (en s e) ->
  (ephase x = PEnded \/ ephase x = PCreated -> equeue x = []) -> good (put_en s e x) L.
Proof.
  intros s L e x G I A B C D. apply good_put with L; auto. unfold env_res. cbn [put_en en]. rewrite !upd_same, A, B, C. reflexivity.
Qed.

Lemma note_ext : forall s s1 o, ext s s1 -> nx s <= nx (note s1 o) /\ takes_nothing _ (live s) (live (note s1 o)) /\ incl (envs s) (envs (note s1 o)) /\
  (forall e, e < nx s -> equeue (en (note s1 o) e) = equeue (en s e) /\ ephase (en (note s1 o) e) = ephase (en s e)).
Proof.
  intros s s1 o X. split; [apply (x_nx _ _ X)|]. split; [apply (ext_takes _ _ X)|]. split; [apply (x_envs _ _ X)|].
  intros e H. destruct (x_en _ _ X e H) as (A&B&_). auto.
Qed.
(** What a creation that threw did. *)
Definition threw (s s' : ast) : Prop :=
  takes_nothing _ (live s) (live s') /\ incl (envs s) (envs s') /\ (forall e, In e (envs s) -> equeue (en s' e) = equeue (en s e) /\ ephase (en s' e) = ephase (en s e)).
Lemma ext_threw : forall s s1 L o, good s L -> ext s s1 -> threw s (note s1 o).
Proof.
  intros s s1 L o G X. destruct (note_ext s s1 o X) as (A&B&C&D). split; auto. split; auto. intros e I. apply D.
  apply (g_lt _ _ G (REnv e)). apply (good_own _ _ _ G), env_in_own, I.
Qed.
Lemma lost_note : forall s s1 L b o, lost s s1 L b -> lost s (note s1 o) L b.
Proof. intros s s1 L b o (X&A&B). exists X. split; auto. now apply good_note. Qed.
(** One step. *)
Lemma step_ok : forall sz s l s' L, good s L -> astep sz s l = Some s' ->
  (good s' L /\ (out s' = out s \/ exists c, out s' = Some c :: out s)) \/
  (out s' = None :: out s /\ lost s s' L 6 /\ threw s s' /\ ((exists n sh p t, l = LCreate n sh p t) \/ (exists t, l = LThread t))).
Proof.
  intros sz s l s' L G E. destruct l as [n sh p t|t|e|e|e c|e|e]; cbn [astep] in E.
  - destruct (match p with AtEnv e => mem e (envs s) | AtNew => true end) eqn:P; [|discriminate].
    assert (PO : place_ok s p) by (destruct p; cbn; auto using mem_in). destruct (create_and_schedule sz n sh p s t) as [[r s1] t1] eqn:C. injection E as <-.
    destruct (create_and_schedule_ok _ _ _ _ _ _ _ _ _ _ G PO C) as (A&B&D). destruct r as [c|].
    + left. split; [apply good_note; tauto|]. right. exists c. cbn. now rewrite B.
    + right. destruct D as (D1&D2). split; [cbn; now rewrite B|]. split; [now apply lost_note|]. split; [eapply ext_threw; eauto|]. left. eauto.
  - destruct (manager_env false s t) as [[r s1] t1] eqn:C. injection E as <-. destruct (manager_env_ok _ _ _ _ _ _ _ G C) as (X&_&_&D). destruct r as [c|].
    + left. split; [apply good_note; tauto|]. right. exists c. cbn. now rewrite (x_out _ _ X).
    + right. split; [cbn; now rewrite (x_out _ _ X)|]. split; [|split; [eapply ext_threw; eauto|right; eauto]].
      apply lost_note. destruct D as (Y&D1&D2&D3). exists Y. split; auto.
  - destruct (mem e (envs s) && phase_eq (ephase (en s e)) PCreated) eqn:C; [|discriminate]. injection E as <-. apply andb_prop in C as (C1&C2). apply mem_in in C1.
    left. split; [|now left]. apply good_phase; auto. cbn. intros [?|?]; discriminate.
  - destruct (mem e (envs s) && phase_eq (ephase (en s e)) POn) eqn:C; [|discriminate]. injection E as <-. apply andb_prop in C as (C1&C2). apply mem_in in C1.
    left. split; [|now left]. apply good_phase; auto. cbn. intros [?|?]; discriminate.
  - destruct (mem e (envs s) && mem c (equeue (en s e)) && (phase_eq (ephase (en s e)) POn || phase_eq (ephase (en s e)) PStop)) eqn:C; [|discriminate].
    apply andb_prop in C as (C&C3). apply andb_prop in C as (C1&C2). apply mem_in in C1. apply mem_in in C2. injection E as <-.
    set (s1 := put_en s e (mkE (eidle (en s e)) (eshared (en s e)) (remove Nat.eq_dec c (equeue (en s e))) (ephase (en s e)))).
    assert (G1 : good s1 (ctx_res s1 c ++ L)).
    { change (ctx_res s1) with (ctx_res s). unfold s1. apply good_put with L; auto.
      - unfold env_res. cbn [put_en en]. rewrite !upd_same. cbn [eidle eshared equeue app]. constructor. change (ctx_res (put_en s e _)) with (ctx_res s).
        change (sh_res (put_en s e _)) with (sh_res s). rewrite <- !app_assoc. do 2 apply Permutation_app_head. rewrite app_assoc. apply Permutation_app_tail.
        rewrite Permutation_app_comm. apply remove_perm; auto. eapply queue_nodup; eauto.
      - cbn. intros H. apply orb_prop in C3 as [C3|C3]; apply phase_eq_ok in C3; destruct H as [H|H]; congruence. }
    destruct (destroy_ctx_ok _ _ _ G1) as (A&B). left. split; auto. left. destruct B as (_&_&_&_&_&B). exact B.
  - destruct (mem e (envs s) && phase_eq (ephase (en s e)) PStop) eqn:C; [|discriminate]. injection E as <-. apply andb_prop in C as (C1&C2). apply mem_in in C1.
    set (s1 := put_en s e (mkE (eidle (en s e)) (eshared (en s e)) [] PEnded)).
    assert (G1 : good s1 (flat_map (ctx_res s1) (equeue (en s e)) ++ L)).
    { change (ctx_res s1) with (ctx_res s). unfold s1. apply good_put with L; auto.
      unfold env_res. cbn [put_en en]. rewrite !upd_same. cbn [eidle eshared equeue app flat_map]. constructor. change (ctx_res (put_en s e _)) with (ctx_res s).
      change (sh_res (put_en s e _)) with (sh_res s). rewrite app_nil_r, <- !app_assoc. reflexivity. }
    destruct (destroy_all_ok _ _ _ G1) as (A&B). left. split; auto. left. destruct B as (_&_&_&_&_&B). exact B.
  - destruct (mem e (envs s) && (phase_eq (ephase (en s e)) PEnded || phase_eq (ephase (en s e)) PCreated)) eqn:C; [|discriminate].
    apply andb_prop in C as (C1&C2). apply mem_in in C1. injection E as <-. rewrite destroy_env_envs.
    match goal with |- context [good ?a L] => change a with (setenvs (destroy_env s e) (remove Nat.eq_dec e (envs s))) end. rewrite <- destroy_env_setenvs.
    assert (Q : equeue (en s e) = []).
    { apply (g_q _ _ G); auto. apply orb_prop in C2 as [C2|C2]; apply phase_eq_ok in C2; auto. }
    set (s1 := setenvs s (remove Nat.eq_dec e (envs s))).
    assert (G1 : good s1 (env_res s1 e ++ L)).
    { change (env_res s1) with (env_res s). constructor; cbn [s1 setenvs live nx err envs en].
      - apply (g_nd _ _ G).
      - apply (g_lt _ _ G).
      - eapply Permutation_trans; [apply (g_pm _ _ G)|]. rewrite app_assoc. apply Permutation_app_tail. change (own s1) with (flat_map (env_res s) (remove Nat.eq_dec e (envs s))).
        rewrite Permutation_app_comm. unfold own. symmetry. apply remove_perm; auto. eapply nodup_envs; eauto.
      - apply (g_err _ _ G).
      - intros j J. apply in_remove in J as [J _]. now apply (g_q _ _ G). }
    destruct (destroy_env_ok _ _ _ G1 Q) as (A&B). left. split; auto. left. destruct B as (_&_&_&_&_&B). exact B.
Qed.

(** Runs. *)
Definition arun sz := run (astep sz).
Definition fails (o : list (option nat)) : nat := length (filter (fun x => match x with None => true | Some _ => false end) o).
Lemma good_init : good ainit [].
Proof. constructor; cbn; auto; [constructor|intros r []]. Qed.
Lemma run_ok : forall sz ls s s' L, good s L -> arun sz s ls = Some s' -> exists X, good s' (X ++ L) /\ length X + 6 * fails (out s) <= 6 * fails (out s').
Proof.
  intros sz ls. induction ls as [|l ls IH]; intros s s' L G R; cbn in R.
  - injection R as <-. exists []. split; auto.
  - destruct (astep sz s l) as [s1|] eqn:E; [|discriminate]. destruct (step_ok _ _ _ _ _ G E) as [(G1&O)|(O&(Y&Y1&Y2&Y3)&_)].
    + destruct (IH _ _ _ G1 R) as (X&A&B). exists X. split; auto. destruct O as [O|(c&O)]; rewrite O in B; cbn in *; unfold fails in *; cbn in *; lia.
    + destruct (IH _ _ _ Y1 R) as (X&A&B). exists (X ++ Y). rewrite <- app_assoc. split; auto. rewrite O in B. rewrite app_length. unfold fails in *. cbn in *. lia.
Qed.
Lemma reach_ok : forall sz ls s, arun sz ainit ls = Some s -> exists L, good s L /\ length L <= 6 * fails (out s).
Proof. intros sz ls s R. destruct (run_ok _ _ _ _ _ good_init R) as (X&A&B). rewrite app_nil_r in A. exists X. split; auto. cbn in B. lia. Qed.
(** What no environment answers for is never given back. *)
Lemma lost_for_ever : forall sz ls0 s r ls s', arun sz ainit ls0 = Some s -> In r (live s) -> ~ In r (own s) -> arun sz s ls = Some s' ->
  In r (live s') /\ ~ In r (own s').
Proof.
  intros sz ls0 s r ls s' R I N R'. destruct (reach_ok _ _ _ R) as (L&G&_). assert (J : In r L).
  { apply (Permutation_in r (g_pm _ _ G)) in I. apply in_app_iff in I as [I|I]; [contradiction|auto]. }
  destruct (run_ok _ _ _ _ _ G R') as (X&G'&_). apply (good_in s' (X ++ L) r G'). apply in_or_app. auto.
Qed.

(** With memory, and in an environment that schedules, a creation succeeds. *)
Lemma create_stack_nil : forall n s, exists k s1, create_stack n s [] = (Some k, s1, []) /\ en s1 = en s /\ envs s1 = envs s /\ cx s1 = cx s.
Proof. intros n s. unfold create_stack, bind, ret. destruct (n =? 0); cbn; eauto 10. Qed.
Lemma create_ctx_nil : forall n sh s, exists c s1, create_ctx n sh s [] = (Some c, s1, []) /\ en s1 = en s /\ envs s1 = envs s.
Proof.
  intros n sh s. unfold create_ctx, bind, ret. cbn [attempt]. destruct sh; [cbn; eauto 10|]. destruct (create_stack_nil n s) as (k&s1&E&A&B&_). rewrite E. cbn. eauto 10.
Qed.
Lemma add_ctx_nil : forall sz e c s, ephase (en s e) = POn -> exists s1, add_ctx sz e c s [] = (Some tt, s1, []).
Proof.
  intros sz e c s P. unfold add_ctx, bind, ret, get_en, get_cx, set_en, attempt. cbv beta iota zeta. rewrite P. cbv beta iota zeta. destruct (cshared (cx s c)); [|cbn; eauto]. destruct (eshared (en s e)); [cbn; eauto|]. cbv beta iota zeta.
  destruct (create_stack_nil sz s) as (k&s1&E&_). rewrite E. cbn. eauto.
Qed.
Lemma create_succeeds : forall sz n sh e s, In e (envs s) -> ephase (en s e) = POn ->
  exists c s1, create_and_schedule sz n sh (AtEnv e) s [] = (Some c, s1, []).
Proof.
  intros sz n sh e s I P. unfold create_and_schedule, bind, ret. destruct (create_ctx_nil n sh s) as (c&s1&E&A&B). rewrite E. cbn [attempt].
  destruct (add_ctx_nil sz e c s1) as (s2&E2); [now rewrite A|]. rewrite E2. eauto.
Qed.
(** The first allocation, and the mapping of the stack, leave nothing behind. *)
Lemma first_fails : forall sz n sh p s t, create_and_schedule sz n sh p s (false :: t) = (None, s, t).
Proof. reflexivity. Qed.
Lemma mmap_fails : forall sz n p s t, create_and_schedule sz n false p s (true :: false :: t) = (None, s, t).
Proof. intros. unfold create_and_schedule, create_ctx, create_stack, bind. cbn. destruct (n =? 0); reflexivity. Qed.
