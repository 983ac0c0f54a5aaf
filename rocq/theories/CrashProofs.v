(** Proofs about CrashModel. *)
From Coq Require Import List Arith Bool Lia.
From Verif Require Import Base HistSpec ShutSpec ShutModel ShutProofs ShutLive CrashSpec CrashModel.
Import ListNotations.

(** ** Every step of the part below is a step of ShutModel, or none *)
Lemma who_dec : forall s l, who s l = Some TDestroyer -> l = LD \/ (exists t, l = LMake t) \/ exists e, l = LFin e \/ l = LPub e.
Proof. intros s l; destruct l; simpl; intros; try discriminate; eauto. Qed.

Definition below (x y : sst) : Prop := y = x \/ exists l, sstep x l = Some y.
Lemma step_below : forall s l s', step s l = Some s' -> below (sh s) (sh s').
Proof.
  intros s l s' E. unfold step in E. destruct (fate s); [discriminate|]. destruct l as [l|t n|t].
  - assert (X : option_map (setsh s) (sstep (sh s) l) = Some s').
    { destruct (who (sh s) l) as [[]|]; try discriminate; auto; destruct (hp s _); auto; discriminate. }
    destruct (sstep (sh s) l) eqn:S; [|discriminate]. injection X as <-. right. simpl. eauto.
  - destruct (alive (sh s) t && unmasked (hp s t) n); [|discriminate]. injection E as <-. now left.
  - destruct (hp s t) as [|h r]; [discriminate|]. destruct h as [m|m|m|m k|m]; simpl in E.
    + injection E as <-. now left.
    + destruct (flag s); injection E as <-; now left.
    + injection E as <-. now left.
    + destruct (k <? 4); [injection E as <-; now left|]. destruct (k =? 4).
      { destruct (info_free (sh s) t); [|discriminate]. injection E as <-. now left. }
      destruct (dp (sh s)) eqn:D; try (injection E as <-; now left).
      destruct (dstep (sh s)) eqn:DS; [|discriminate]. injection E as <-. right. exists LD. exact DS.
    + destruct (dp (sh s)) eqn:D; try (destruct (dstep (sh s)) eqn:DS; [|discriminate]; injection E as <-; right; exists LD; exact DS).
      injection E as <-. now left.
Qed.
Lemma inv3_below : forall x y, inv3 x -> below x y -> inv3 y.
Proof. intros x y I [-> | [l S]]; auto. eapply inv3_step; eauto. Qed.
Lemma inv3_crash : forall ls s, run step cinit ls = Some s -> inv3 (sh s).
Proof.
  intros ls s R. eapply (run_inv step (fun s => inv3 (sh s))); [| |exact R].
  - apply (inv3_reach []). reflexivity.
  - intros a l b I S. eapply inv3_below; eauto. eapply step_below; eauto.
Qed.

(** ** The handlers *)
Definition early (h : hpc) : Prop := match h with HLine _ | HTest _ | HSet _ => True | _ => False end.
Definition fresh (h : hpc) : Prop := match h with HLine _ | HTest _ => True | _ => False end.
(** The handler that reports, and how far it is. *)
Definition prog (h : hpc) : option nat := match h with HRep _ k => Some k | HDtor _ => Some 5 | _ => None end.
Definition main (h : hpc) : Prop := match prog h with Some k => k <= 5 | None => False end.
Definition shape (hs : list hpc) : Prop :=
  Forall early hs \/ exists a m b, hs = a ++ m :: b /\ Forall fresh a /\ Forall early b /\ main m.
Definition out_of (hs : list hpc) : list nat := flat_map (fun h => match prog h with Some k => rev (seq 0 k) | None => [] end) hs.
Definition sigs_of (t : thr) (h : list cev) : list nat := flat_map (fun p => if thr_eq (fst p) t then [snd p] else []) (signals h).

Lemma early_prog : forall h, early h -> prog h = None. Proof. intros []; simpl; tauto. Qed.
Lemma fresh_early : forall h, fresh h -> early h. Proof. intros []; simpl; tauto. Qed.
Lemma out_early : forall hs, Forall early hs -> out_of hs = [].
Proof. induction 1 as [|h hs E _ IH]; auto. simpl. now rewrite (early_prog _ E), IH. Qed.

Record HI (s : cst) : Prop := {
  h_shape : forall t, shape (hp s t);
  h_out : forall t, printed t (evs s) = out_of (hp s t);
  h_sig : forall t, sigs_of t (evs s) = map sig_of (hp s t);
  h_nd : NoDup (signals (evs s));
  h_flag : flag s = false -> forall t, Forall early (hp s t);
  h_rep : flag s = true -> exists t h, In h (hp s t) /\ prog h <> None;
  h_fate : match fate s with None => ~ ended (evs s) | Some (Ended c) => In (WEnd c) (evs s) | Some Undefined => ~ ended (evs s) /\ 2 <= length (signals (evs s)) end;
  h_dp : (dp (sh s) = DNone <-> forall t, ~ In (WExit t) (evs s)) /\ (forall t n, In (HDtor n) (hp s t) -> dp (sh s) <> DNone) /\
         (dp (sh s) <> DNone -> exists t n, In (HDtor n) (hp s t));
  h_code : end_code (evs s);
  h_cut : end_cut (evs s) }.

Lemma in_sigs : forall t n h, In (t, n) (signals h) <-> In n (sigs_of t h).
Proof.
  intros t n h. unfold sigs_of. induction (signals h) as [|[u m] r IH]; simpl; [tauto|]. rewrite in_app_iff, <- IH.
  destruct (thr_eq u t) as [E|N]; simpl.
  - subst. split; intros [X|X]; auto. injection X as ->. auto. destruct X as [->|[]]. auto.
  - split; intros [X|X]; auto. injection X as -> _. congruence. destruct X.
Qed.
Lemma sigs_nodup : forall t h, NoDup (signals h) -> NoDup (sigs_of t h).
Proof.
  intros t h. unfold sigs_of. induction (signals h) as [|[u m] r IH]; intros N; [constructor|]. inversion N as [|? ? N1 N2]; subst. simpl.
  destruct (thr_eq u t) as [E|]; simpl; auto. subst. constructor; auto. intros X. apply N1. clear -X.
  induction r as [|[u m'] r IH]; simpl in *; [tauto|]. apply in_app_iff in X as [X|X]; auto.
  destruct (thr_eq u t); [|destruct X]. destruct X as [->|[]]. subst. auto.
Qed.
Lemma two_signals : forall (l : list (thr * nat)) a b, NoDup l -> In a l -> In b l -> a <> b -> 2 <= length l.
Proof.
  intros [|x [|y l]] a b N A B D; simpl in *; try tauto; try lia. destruct A as [A|[]], B as [B|[]]. congruence.
Qed.
Lemma map_sig_inj : forall hs a b, NoDup (map sig_of hs) -> In a hs -> In b hs -> sig_of a = sig_of b -> a = b.
Proof.
  induction hs as [|x hs IH]; simpl; intros a b N A B E; [tauto|]. inversion N; subst.
  destruct A as [->|A], B as [->|B]; auto.
  - exfalso. apply H1. rewrite E. now apply in_map.
  - exfalso. apply H1. rewrite <- E. now apply in_map.
Qed.
(** Two handlers that are different, on any threads, come from different signals. *)
Lemma two_handlers : forall s t u a b, HI s -> In a (hp s t) -> In b (hp s u) -> a <> b \/ t <> u -> 2 <= length (signals (evs s)).
Proof.
  intros s t u a b I A B D. apply two_signals with (t, sig_of a) (u, sig_of b).
  - apply (h_nd _ I).
  - apply in_sigs. rewrite (h_sig _ I). now apply in_map.
  - apply in_sigs. rewrite (h_sig _ I). now apply in_map.
  - intros E. injection E as -> E. destruct D as [D|D]; [|congruence]. apply D.
    apply map_sig_inj with (hp s u); auto. rewrite <- (h_sig _ I). apply sigs_nodup, (h_nd _ I).
Qed.

Lemma shape_in : forall hs h, shape hs -> In h hs -> early h \/ main h.
Proof.
  intros hs h [F|(a&m&b&->&F1&F2&M)] X.
  - rewrite Forall_forall in F. auto.
  - rewrite Forall_forall in F1, F2. apply in_app_iff in X as [X|[->|X]]; auto. left. apply fresh_early. auto.
Qed.
Lemma out_main : forall a m b k, Forall fresh a -> Forall early b -> prog m = Some k -> out_of (a ++ m :: b) = rev (seq 0 k).
Proof.
  intros a m b k Fa Fb P. unfold out_of. rewrite flat_map_app. simpl. rewrite P. change (flat_map _ b) with (out_of b).
  change (flat_map _ a) with (out_of a). rewrite !out_early; auto; [now rewrite app_nil_r|]. eapply Forall_impl; [|exact Fa]. apply fresh_early.
Qed.
Lemma head_main : forall h r k, shape (h :: r) -> prog h = Some k -> Forall early r /\ k <= 5 /\ out_of (h :: r) = rev (seq 0 k).
Proof.
  intros h r k [F|(a&m&b&E&F1&F2&M)] P.
  - inversion F; subst. rewrite early_prog in P; auto. discriminate.
  - destruct a as [|x a]; simpl in E; injection E as -> ->.
    + split; auto. unfold main in M. rewrite P in M. split; auto. apply (out_main [] m b k); auto.
    + inversion F1; subst. destruct x; simpl in P; try discriminate; contradiction.
Qed.
Lemma head_set : forall n r, shape (HSet n :: r) -> Forall early r.
Proof.
  intros n r [F|(a&m&b&E&F1&F2&M)]; [now inversion F|]. destruct a as [|x a]; simpl in E; injection E as <- ->.
  - contradiction.
  - inversion F1; subst. contradiction.
Qed.
Lemma shape_push : forall n r, shape r -> shape (HLine n :: r).
Proof.
  intros n r [F|(a&m&b&->&F1&F2&M)]; [left; constructor; simpl; auto|]. right. exists (HLine n :: a), m, b. simpl. repeat split; auto. constructor; simpl; auto.
Qed.
Lemma shape_line : forall n r, shape (HLine n :: r) -> shape (HTest n :: r).
Proof.
  intros n r [F|(a&m&b&E&F1&F2&M)]; [left; inversion F; constructor; simpl; auto|].
  destruct a as [|x a]; simpl in E; injection E as <- ->; [contradiction|]. inversion F1; subst. right. exists (HTest n :: a), m, b. repeat split; auto.
Qed.
Lemma shape_main : forall m r, main m -> Forall early r -> shape (m :: r).
Proof. intros m r M F. right. exists [], m, r. simpl. auto. Qed.

(** A step that leaves the handlers alone. *)
Lemma HI_below : forall s x, HI s -> fate s = None -> (dp x = DNone <-> dp (sh s) = DNone) -> HI (setsh s x).
Proof.
  intros s x I N D. destruct I as [I1 I2 I3 I4 I5 I6 I7 (I8&I8'&I8'') I9 I10]. constructor; simpl; auto. rewrite D. split; [exact I8|]. split; auto. intros.
  rewrite D. eauto.
Qed.
(** Events that say nothing about signals, sections and the end. *)
Definition dull (v : cev) : Prop := match v with WLine _ _ | WBegin _ | WAgain _ _ => True | _ => False end.
Lemma dull_facts : forall v h, dull v -> signals (v :: h) = signals h /\ (forall t, printed t (v :: h) = printed t h) /\ (forall t, sigs_of t (v :: h) = sigs_of t h) /\
  (ended (v :: h) <-> ended h) /\ (forall t, In (WExit t) (v :: h) <-> In (WExit t) h).
Proof.
  intros v h D. destruct v; simpl in D; try tauto; (split; [reflexivity|]); (split; [reflexivity|]); (split; [reflexivity|]); split; unfold ended; simpl;
    firstorder discriminate.
Qed.
Lemma cons_ok : forall P v (h : list cev), always_at P h -> P v h -> always_at P (v :: h).
Proof. intros. now apply always_at_cons. Qed.

(** One handler of thread t goes from h to h', with an event that is dull. *)
Lemma HI_move : forall s t h r h' f v, HI s -> fate s = None -> hp s t = h :: r -> shape (h' :: r) -> sig_of h' = sig_of h -> out_of (h' :: r) = out_of (h :: r) ->
  (f = false -> Forall early (h' :: r)) -> (f = true -> flag s = true \/ prog h' <> None) -> (flag s = true -> f = true) -> (prog h <> None -> prog h' <> None) ->
  dull v -> (forall n, h <> HDtor n) -> (forall n, h' <> HDtor n) ->
  HI (mkC (sh s) f (fun u => if thr_eq u t then h' :: r else hp s u) None (v :: evs s)).
Proof.
  intros s t h r h' f v I N E S G O F1 F2 F3 PP D ND ND'. destruct I as [I1 I2 I3 I4 I5 I6 I7 (I8&I8'&I8'') I9 I10]. rewrite N in I7.
  destruct (dull_facts v (evs s) D) as (D1&D2&D3&D4&D5). constructor; simpl.
  - intros u. destruct (thr_eq u t); auto.
  - intros u. change (printed u (v :: evs s) = out_of (if thr_eq u t then h' :: r else hp s u)). rewrite D2, I2. destruct (thr_eq u t) as [->|]; auto. now rewrite E, O.
  - intros u. rewrite D3, I3. destruct (thr_eq u t) as [->|]; auto. rewrite E. simpl. now rewrite G.
  - change (NoDup (signals (v :: evs s))). now rewrite D1.
  - intros X u. destruct (thr_eq u t) as [->|]; auto. apply I5. destruct (flag s); auto. rewrite F3 in X; auto.
  - intros X. destruct (F2 X) as [Y|Y].
    + destruct (I6 Y) as (u&x&A&B). destruct (thr_eq u t) as [->|Nu].
      * rewrite E in A. destruct A as [<-|A]; [|exists t, x; destruct (thr_eq t t); [|congruence]; simpl; auto].
        exists t, h'. destruct (thr_eq t t); [|congruence]. simpl. split; auto.
      * exists u, x. destruct (thr_eq u t); [congruence|]. auto.
    + exists t, h'. destruct (thr_eq t t); [|congruence]. simpl. auto.
  - intros X. apply D4 in X. auto.
  - split; [|split].
    + rewrite I8. split; intros X u; specialize (X u); [|]; intros Y; apply X; apply D5; auto.
    + intros u n X. destruct (thr_eq u t) as [->|]; [|eauto]. destruct X as [X|X]; [now apply ND' in X|]. apply (I8' t n). rewrite E. now right.
    + intros X. destruct (I8'' X) as (u&n&Y). exists u, n. destruct (thr_eq u t) as [->|]; auto. rewrite E in Y. destruct Y as [Y|Y]; [now apply ND in Y|]. now right.
  - apply cons_ok; auto. destruct v; simpl in D; tauto.
  - apply cons_ok; auto. destruct v; simpl in D; tauto.
Qed.
Lemma hp_ext : forall s t x, hp s t = x -> (forall u, (if thr_eq u t then x else hp s u) = hp s u).
Proof. intros s t x E u. destruct (thr_eq u t); congruence. Qed.

Lemma prog_sec : forall t k h u, printed u (WSec t k :: h) = if thr_eq t u then k :: printed u h else printed u h.
Proof. intros. simpl. destruct (thr_eq t u); reflexivity. Qed.

Lemma HI_end : forall s t n b, HI s -> fate s = None -> In (t, n) (signals (evs s)) ->
  (b = None /\ reported t (evs s) \/ b = Some (WAgain t n) /\ 2 <= length (signals (evs s))) ->
  HI (finish (match b with Some v => cev1 s v | None => s end) (128 - n)).
Proof.
  intros s t n b I N Sg B. set (h := match b with Some v => v :: evs s | None => evs s end).
  assert (Q : finish (match b with Some v => cev1 s v | None => s end) (128 - n) = mkC (sh s) (flag s) (hp s) (Some (Ended (128 - n))) (WEnd (128 - n) :: h)).
  { unfold finish, h. destruct b; reflexivity. } rewrite Q. destruct I as [I1 I2 I3 I4 I5 I6 I7 (I8&I8'&I8'') I9 I10]. rewrite N in I7.
  assert (F : signals h = signals (evs s) /\ (forall u, printed u h = printed u (evs s)) /\ (forall u, sigs_of u h = sigs_of u (evs s)) /\ (ended h <-> ended (evs s)) /\
    (forall u, In (WExit u) h <-> In (WExit u) (evs s)) /\ end_code h /\ end_cut h).
  { unfold h. destruct b as [v|]; [|intuition].
    assert (D : dull v) by (destruct B as [[X _]|[X _]]; inversion X; simpl; auto). destruct (dull_facts v (evs s) D) as (D1&D2&D3&D4&D5).
    split; auto. split; auto. split; auto. split; auto. split; auto. split; apply cons_ok; auto; destruct v; simpl in D; tauto. }
  destruct F as (F1&F2&F3&F4&F5&F6&F7). constructor; simpl; auto.
  - intros u. change (printed u h = out_of (hp s u)). now rewrite F2.
  - intros u. change (sigs_of u h = map sig_of (hp s u)). now rewrite F3.
  - change (NoDup (signals h)). now rewrite F1.
  - split; [|split; auto]. rewrite I8. split; intros X u; specialize (X u); intros Y; apply X; [destruct Y as [Y|Y]; [discriminate|]|right]; apply F5; auto.
  - apply cons_ok; auto. split; [now rewrite F4|]. exists t, n. rewrite F1. auto.
  - apply cons_ok; auto. destruct B as [[-> B]|[-> B]].
    + left. exists t, n. unfold reported. rewrite F1, F2. auto.
    + right. exists t, n. rewrite F1. split; [now left|]. auto.
Qed.

Lemma unmasked_spec : forall hs n, unmasked hs n = true -> ~ In n (map sig_of hs).
Proof.
  intros hs n U X. unfold unmasked in U. apply in_map_iff in X as (h&E&X). apply negb_true_iff in U.
  assert (Y : existsb (fun h => sig_of h =? n) hs = true) by (apply existsb_exists; exists h; rewrite E, Nat.eqb_refl; auto). congruence.
Qed.
(** A report goes one section further. *)
Lemma HI_sec : forall s t n k r, HI s -> fate s = None -> hp s t = HRep n k :: r -> k <= 4 -> HI (cev1 (sethp s t (HRep n (S k) :: r)) (WSec t k)).
Proof.
  intros s t n k r I N E L. destruct I as [I1 I2 I3 I4 I5 I6 I7 (I8&I8'&I8'') I9 I10]. rewrite N in I7. pose proof (I1 t) as Sh. rewrite E in Sh.
  destruct (head_main _ _ k Sh eq_refl) as (Er&_&O). constructor; simpl; auto.
  - intros u. destruct (thr_eq u t); auto. apply shape_main; auto. unfold main. simpl. lia.
  - intros u. change (printed u (WSec t k :: evs s) = out_of (if thr_eq u t then HRep n (S k) :: r else hp s u)). rewrite prog_sec.
    destruct (thr_eq t u) as [Eu|Nu]; destruct (thr_eq u t) as [Eu'|Nu']; try congruence; auto. subst u. rewrite I2, E, O.
    change (HRep n (S k) :: r) with ([] ++ HRep n (S k) :: r). rewrite (out_main [] _ r (S k)); auto. rewrite seq_S, rev_app_distr. reflexivity.
  - intros u. change (sigs_of u (evs s) = map sig_of (if thr_eq u t then HRep n (S k) :: r else hp s u)). rewrite I3. destruct (thr_eq u t) as [->|]; auto. now rewrite E.
  - intros X u. specialize (I5 X t). rewrite E in I5. inversion I5. contradiction.
  - intros X. exists t, (HRep n (S k)). destruct (thr_eq t t); [|congruence]. simpl. split; auto. discriminate.
  - rewrite N. intros (c&[X|X]); [discriminate|]. apply I7. now exists c.
  - split; [|split].
    + rewrite I8. split; intros X u Y; specialize (X u); apply X; simpl in *; intuition discriminate.
    + intros u m X. destruct (thr_eq u t) as [->|]; [|eauto]. destruct X as [X|X]; [discriminate|]. apply (I8' t m). rewrite E. now right.
    + intros X. destruct (I8'' X) as (u&m&Y). exists u, m. destruct (thr_eq u t) as [->|]; auto. rewrite E in Y. destruct Y as [Y|Y]; [discriminate|now right].
  - apply cons_ok; simpl; auto.
  - apply cons_ok; simpl; auto.
Qed.

Lemma sstep_dp : forall x l y, CI x -> EI x -> sstep x l = Some y -> l <> LD -> dp y = dp x.
Proof.
  intros x l y C H S N. destruct l; try congruence; simpl in S.
  - destruct (locked x || clean x || negb (maker t)); [discriminate|]. now injection S as <-.
  - destruct (cur x n); [destruct (ph (envs x n0)); try discriminate; now injection S as <-|]. destruct (locked x); [discriminate|]. now injection S as <-.
  - destruct (cur x n); [|discriminate]. destruct (nos (envs x n0)); [|discriminate]. now injection S as <-.
  - assert (Q : y = wake_timer x) by (destruct (tp x); congruence). subst. unfold wake_timer. now destruct (tp x).
  - destruct (ph (envs x e)); try discriminate. destruct (told (envs x e) && negb (locked x) && (e <? next x)); [|discriminate]. injection S as <-.
    unfold expire, wake_cleaner. simpl. now destruct (cp x).
  - destruct (ph (envs x e)); try discriminate. injection S as <-. now destruct (own (envs x e)).
  - unfold cstep in S. destruct (cp x) eqn:P; try discriminate; try (now injection S as <-).
    + destruct (clean x); [|now injection S as <-]. destruct (at_place x Normal); injection S as <-; auto. destruct (clear_facts x H P) as (_&X&_).
      simpl. apply (x_dp _ _ X).
    + destruct (at_place x Expired); [|discriminate]. now injection S as <-.
    + injection S as <-. simpl. unfold guard_cleaner. now destruct (ccur x).
  - unfold free in S. destruct (cp x); try discriminate. destruct (pl (envs x e)); try discriminate.
    destruct ((e <? next x) && _); [|discriminate]. now injection S as <-.
  - unfold mstep in S. destruct (mp x); try discriminate; try (destruct (locked x); [discriminate|]); injection S as <-; auto.
    destruct (reclaim_facts l x H) as (_&X&_). simpl. apply (x_dp _ _ X).
  - unfold tstep in S. destruct (tp x); try discriminate; injection S as <-; destruct (clean x), b; reflexivity.
  - destruct (tp x); try discriminate. now injection S as <-.
  - destruct (cp x); try discriminate. now injection S as <-.
  - destruct (tp x); try discriminate; now injection S as <-.
Qed.
Lemma dstep_dp : forall x y, EI x -> dstep x = Some y -> dp y <> DNone.
Proof.
  intros x y H S. unfold dstep in S. destruct (dp x) eqn:P; try discriminate.
  - destruct (locked x); [discriminate|]. injection S as <-.
    set (s1 := ev (ev (mkS (envs x) (next x) (cur x) (ccur x) true (cp x) (mp x) (tp x) DCleaner (hist x)) VClean) (VMgr TDestroyer)) in *.
    assert (K : EI s1).
    { set (s0 := mkS (envs x) (next x) (cur x) (ccur x) true (cp x) (mp x) (tp x) DCleaner (hist x)) in *.
      assert (K0 : EI s0) by (eapply EI_same; [eassumption|repeat split; reflexivity|reflexivity]).
      assert (K1 : EI (ev s0 VClean)) by splain. splain. }
    destruct (sweep_facts TDestroyer (at_place s1 Normal) s1) as (_&X&_); auto using at_place_nodup.
    { intros e X. now apply at_place_spec. }
    fold (sweep TDestroyer s1) in X. destruct (wake_cleaner_frame (sweep TDestroyer s1)) as (_&_&_&Y). assert (Z := ext_trans _ _ _ X Y).
    assert (Q : dp (wake_timer (wake_cleaner (sweep TDestroyer s1))) = DCleaner).
    { transitivity (dp (wake_cleaner (sweep TDestroyer s1))); [generalize (wake_cleaner (sweep TDestroyer s1)); intros w; unfold wake_timer; now destruct (tp w)|]. now rewrite (x_dp _ _ Z). }
    rewrite Q. discriminate.
  - destruct (cp x); try discriminate. injection S as <-. simpl. discriminate.
  - destruct (mp x); try discriminate. injection S as <-. simpl. discriminate.
  - destruct (tp x); try discriminate. injection S as <-. simpl. discriminate.
Qed.
Lemma thr_refl : forall (A : Type) t (x y : A), (if thr_eq t t then x else y) = x.
Proof. intros. destruct (thr_eq t t); congruence. Qed.

Lemma HI_init : HI cinit.
Proof.
  constructor; simpl; auto; try discriminate.
  - intros t. left. constructor.
  - constructor.
  - intros (c&[]).
  - split; [tauto|]. split; [intros ? ? []|]. congruence.
  - apply always_at_nil.
  - apply always_at_nil.
Qed.
Lemma HI_step : forall s l s', inv3 (sh s) -> HI s -> step s l = Some s' -> HI s'.
Proof.
  intros s l s' (H&C&_) I E. unfold step in E. destruct (fate s) eqn:N; [discriminate|]. destruct l as [l|t n|t].
  - assert (X : l <> LD /\ option_map (setsh s) (sstep (sh s) l) = Some s').
    { destruct (who (sh s) l) as [w|] eqn:W; [|split; auto; intros ->; discriminate].
      split; [intros ->; simpl in W; injection W as <-; discriminate|]. destruct w; try discriminate; destruct (hp s _); auto; discriminate. }
    destruct X as [L X]. destruct (sstep (sh s) l) as [y|] eqn:S; [|discriminate]. injection X as <-. apply HI_below; auto.
    rewrite (sstep_dp _ _ _ C H S L). tauto.
  - destruct (alive (sh s) t && unmasked (hp s t) n) eqn:G; [|discriminate]. injection E as <-. apply andb_true_iff in G as [_ U].
    apply unmasked_spec in U. destruct I as [I1 I2 I3 I4 I5 I6 I7 (I8&I8'&I8'') I9 I10]. rewrite N in I7. constructor; simpl; auto.
    + intros u. destruct (thr_eq u t) as [->|]; auto. now apply shape_push.
    + intros u. change (printed u (evs s) = out_of (if thr_eq u t then HLine n :: hp s t else hp s u)). rewrite I2. destruct (thr_eq u t) as [->|]; auto.
    + intros u. unfold sigs_of. simpl. change (flat_map _ (signals (evs s))) with (sigs_of u (evs s)). rewrite I3.
      destruct (thr_eq t u) as [Eu|Nu]; destruct (thr_eq u t) as [Eu'|Nu']; try congruence; auto. now subst.
    + constructor; auto. rewrite in_sigs, I3. auto.
    + intros X u. destruct (thr_eq u t) as [->|]; auto. constructor; simpl; auto.
    + intros X. destruct (I6 X) as (u&h&A&B). exists u, h. destruct (thr_eq u t) as [->|]; simpl; auto.
    + rewrite N. intros (c&[X|X]); [discriminate|]. apply I7. now exists c.
    + split; [|split].
      * rewrite I8. split; intros X u Y; specialize (X u); apply X; simpl in *; intuition discriminate.
      * intros u m X. destruct (thr_eq u t) as [->|]; [|eauto]. destruct X as [X|X]; [discriminate|]. eauto.
      * intros X. destruct (I8'' X) as (u&m&Y). exists u, m. destruct (thr_eq u t) as [->|]; simpl; auto.
    + apply cons_ok; simpl; auto.
    + apply cons_ok; simpl; auto.
  - destruct (hp s t) as [|h r] eqn:P; [discriminate|]. pose proof (h_shape _ I t) as Sh. rewrite P in Sh.
    assert (In' : forall x, In x (h :: r) -> In x (hp s t)) by (intros; now rewrite P).
    assert (Sg : In (t, sig_of h) (signals (evs s))) by (apply in_sigs; rewrite (h_sig _ I), P; now left).
    destruct h as [m|m|m|m k|m]; cbn [hstep] in E.
    + injection E as <-. unfold cev1, sethp. simpl. rewrite N. eapply HI_move; eauto; simpl; auto; try discriminate.
      * now apply shape_line.
      * intros F. pose proof (h_flag _ I F t) as X. rewrite P in X. inversion X. constructor; simpl; auto.
    + destruct (flag s) eqn:F; injection E as <-.
      * apply (HI_end s t m (Some (WAgain t m))); auto. right. split; auto. destruct (h_rep _ I F) as (u&x&A&B).
        apply (two_handlers s t u (HTest m) x); auto. { apply In'. now left. } left. intros <-. apply B. reflexivity.
      * pose proof (h_flag _ I F t) as X. rewrite P in X. inversion X; subst. 
        assert (Y : HI (cev1 (sethp s t (HSet m :: r)) (WLine t m))).
        { unfold cev1, sethp. simpl. rewrite N. eapply HI_move; eauto; simpl; auto; try discriminate; rewrite ?F; try discriminate. left. constructor; simpl; auto. }
        destruct Y as [Y1 Y2 Y3 Y4 Y5 Y6 Y7 (Y8&Y8'&Y8'') Y9 Y10]. simpl in *. constructor; simpl; auto.
        -- rewrite N in *. intros (c&Z). apply Y7. exists c. now right.
        -- split; [|split]; auto. apply (h_dp _ I).
        -- apply (h_code _ I).
        -- apply (h_cut _ I).
    + injection E as <-. rewrite N. pose proof (head_set _ _ Sh) as Er. eapply HI_move; eauto; simpl; auto; try discriminate.
      * apply shape_main; auto. unfold main. simpl. lia.
      * intros _. right. discriminate.
    + destruct (head_main _ _ k Sh eq_refl) as (Er&Lk&O). destruct (k <? 4) eqn:K4.
      { injection E as <-. apply Nat.ltb_lt in K4. apply HI_sec; auto. lia. }
      destruct (k =? 4) eqn:K5.
      { destruct (info_free (sh s) t); [|discriminate]. injection E as <-. apply Nat.eqb_eq in K5. apply HI_sec; auto. lia. }
      apply Nat.ltb_ge in K4. apply Nat.eqb_neq in K5. assert (k = 5) by lia. subst k.
      destruct (h_dp _ I) as (D1&D2&D3). destruct (dp (sh s)) eqn:D.
      * destruct (dstep (sh s)) as [y|] eqn:DS; [|discriminate]. injection E as <-. pose proof (dstep_dp _ _ H DS) as Dy.
        destruct I as [I1 I2 I3 I4 I5 I6 I7 _ I9 I10]. rewrite N in I7. constructor; simpl; auto.
        -- intros u. destruct (thr_eq u t); auto. apply shape_main; auto; try (unfold main; simpl; lia).
        -- intros u. change (printed u (evs s) = out_of (if thr_eq u t then HDtor m :: r else hp s u)). rewrite I2. destruct (thr_eq u t) as [->|]; auto.
           rewrite P, O. symmetry. apply (out_main [] _ r 5); auto.
        -- intros u. change (sigs_of u (evs s) = map sig_of (if thr_eq u t then HDtor m :: r else hp s u)). rewrite I3. destruct (thr_eq u t) as [->|]; auto. now rewrite P.
        -- intros X u. specialize (I5 X t). rewrite P in I5. inversion I5. contradiction.
        -- intros X. exists t, (HDtor m). rewrite thr_refl. simpl. split; auto. discriminate.
        -- rewrite N. intros (c&[X|X]); [discriminate|]. apply I7. now exists c.
        -- split; [|split; auto].
           ++ split; [congruence|]. intros X. exfalso. apply (X t). now left.
           ++ intros _. exists t, m. rewrite thr_refl. now left.
        -- apply cons_ok; simpl; auto.
        -- apply cons_ok; simpl; auto.
      * assert (X : 2 <= length (signals (evs s))).
        { destruct (D3 ltac:(discriminate)) as (u&x&X). eapply (two_handlers s t u (HRep m 5)); eauto; [apply In'; now left|left; discriminate]. }
        injection E as <-. destruct I as [I1 I2 I3 I4 I5 I6 I7 _ I9 I10]. rewrite N in I7. constructor; simpl; auto.
        -- split; auto. intros (c&[Y|Y]); [discriminate|]. apply I7. now exists c.
        -- rewrite D. split; [|split; auto]. split; [discriminate|]. intros Y. exfalso. apply (Y t). now left.
        -- apply cons_ok; simpl; auto.
        -- apply cons_ok; simpl; auto.
      * assert (X : 2 <= length (signals (evs s))).
        { destruct (D3 ltac:(discriminate)) as (u&x&X). eapply (two_handlers s t u (HRep m 5)); eauto; [apply In'; now left|left; discriminate]. }
        injection E as <-. destruct I as [I1 I2 I3 I4 I5 I6 I7 _ I9 I10]. rewrite N in I7. constructor; simpl; auto.
        -- split; auto. intros (c&[Y|Y]); [discriminate|]. apply I7. now exists c.
        -- rewrite D. split; [|split; auto]. split; [discriminate|]. intros Y. exfalso. apply (Y t). now left.
        -- apply cons_ok; simpl; auto.
        -- apply cons_ok; simpl; auto.
      * assert (X : 2 <= length (signals (evs s))).
        { destruct (D3 ltac:(discriminate)) as (u&x&X). eapply (two_handlers s t u (HRep m 5)); eauto; [apply In'; now left|left; discriminate]. }
        injection E as <-. destruct I as [I1 I2 I3 I4 I5 I6 I7 _ I9 I10]. rewrite N in I7. constructor; simpl; auto.
        -- split; auto. intros (c&[Y|Y]); [discriminate|]. apply I7. now exists c.
        -- rewrite D. split; [|split; auto]. split; [discriminate|]. intros Y. exfalso. apply (Y t). now left.
        -- apply cons_ok; simpl; auto.
        -- apply cons_ok; simpl; auto.
      * assert (X : 2 <= length (signals (evs s))).
        { destruct (D3 ltac:(discriminate)) as (u&x&X). eapply (two_handlers s t u (HRep m 5)); eauto; [apply In'; now left|left; discriminate]. }
        injection E as <-. destruct I as [I1 I2 I3 I4 I5 I6 I7 _ I9 I10]. rewrite N in I7. constructor; simpl; auto.
        -- split; auto. intros (c&[Y|Y]); [discriminate|]. apply I7. now exists c.
        -- rewrite D. split; [|split; auto]. split; [discriminate|]. intros Y. exfalso. apply (Y t). now left.
        -- apply cons_ok; simpl; auto.
        -- apply cons_ok; simpl; auto.
    + destruct (head_main _ _ 5 Sh eq_refl) as (Er&_&O).
      assert (Dn : dp (sh s) <> DNone) by (apply (h_dp _ I) with t m; apply In'; now left).
      assert (X : forall y, dstep (sh s) = Some y -> HI (setsh s y)).
      { intros y DS. apply HI_below; auto. pose proof (dstep_dp _ _ H DS). tauto. }
      destruct (dp (sh s)) eqn:D; try congruence; try (destruct (dstep (sh s)) as [y|]; [|discriminate]; injection E as <-; auto).
      injection E as <-. apply (HI_end s t m None); auto. left. split; auto. unfold reported. rewrite (h_out _ I), P, O. reflexivity.
Qed.
