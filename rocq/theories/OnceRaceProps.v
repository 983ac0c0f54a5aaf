(** C97: what the callable of co_call_once did is visible to those who find it done. *)
From Coq Require Import List Arith Bool Lia.
From Verif Require Import Base CallOnceSpec CallOnceModel RaceSpec RaceLemmas OrderSpec OnceRaceModel.
Import ListNotations.
Local Arguments nth_error : simpl never.

(** Once the flag is set nobody releases anything. *)
Lemma quiet_step : forall s l s', flag (oc s) = true -> rstep s l = Some s' ->
  flag (oc s') = true /\ exists new, trc s' = trc s ++ new /\ forall e, In e new -> ~ releases e Flag.
Proof.
  intros s l s' F H. destruct l as [l|t x w]; simpl in H.
  - destruct (ostep (oc s) l) as [o|] eqn:E; [|discriminate]. injection H as <-. simpl. destruct l as [t|t|t ok]; simpl in E.
    + destruct (pcs (oc s) t); try discriminate. injection E as <-. simpl. split; [exact F|]. exists []. split; [reflexivity|intros e []].
    + unfold effects. destruct (pcs (oc s) t); try discriminate; try rewrite F in E; injection E as <-; simpl; (split; [first [exact F|reflexivity]|]).
      * rewrite F. eexists; (split; [reflexivity|]); intros e [<-|[]]. intros [R|R]; discriminate.
      * exists []. split; [reflexivity|intros e []].
      * exists []. split; [reflexivity|intros e []].
    + destruct (pcs (oc s) t); try discriminate. injection E as <-. simpl. split; [exact F|]. exists []. split; [reflexivity|intros e []].
  - assert (G : s' = mkR (oc s) (trc s ++ [mkEv t (if w then KWr x else KRd x)])) by (destruct (pcs (oc s) t); try discriminate; congruence).
    subst s'. simpl. split; auto. eexists. split; [reflexivity|]. intros e [<-|[]]. intros [R|R]; destruct w; discriminate.
Qed.
Lemma quiet_run : forall ls s s', flag (oc s) = true -> run rstep s ls = Some s' ->
  exists new, trc s' = trc s ++ new /\ forall e, In e new -> ~ releases e Flag.
Proof.
  induction ls as [|l ls IH]; intros s s' F H; simpl in H.
  - injection H as <-. exists []. rewrite app_nil_r. split; [reflexivity|intros e []].
  - destruct (rstep s l) as [s1|] eqn:E; [|discriminate]. destruct (quiet_step _ _ _ F E) as (F1&n1&E1&N1).
    destruct (IH _ _ F1 H) as (n2&E2&N2). exists (n1 ++ n2). rewrite E2, E1, app_assoc. split; auto.
    intros e He. apply in_app_iff in He as [He|He]; auto.
Qed.

(** From the moment the flag is set - before the callable has started - nothing that anybody does happens before anything that anybody
    else does: in particular nothing that the callable does happens before anything done by another caller, however much later. *)
Theorem call_once_never_publishes : forall ls1 s1 ls2 s2 i j a b,
  run rstep rinit ls1 = Some s1 -> flag (oc s1) = true -> run rstep s1 ls2 = Some s2 ->
  length (trc s1) <= i -> nth_error (trc s2) i = Some a -> nth_error (trc s2) j = Some b -> thr a <> thr b -> ~ hb (trc s2) i j.
Proof.
  intros ls1 s1 ls2 s2 i j a b _ F H Li Ha Hb N Hh. destruct (quiet_run _ _ _ F H) as (new&E&Q).
  assert (G : forall i j, hb (trc s2) i j -> length (trc s1) <= i -> forall a b, nth_error (trc s2) i = Some a -> nth_error (trc s2) j = Some b -> thr a = thr b).
  { clear - E Q. intros i j Hh. induction Hh as [i j a b L Ha Hb T|i j a b l L Ha Hb R A X|i j k H1 IH1 H2 IH2]; intros Li a' b' Ha' Hb'.
    - congruence.
    - exfalso. destruct l. rewrite E, nth_error_app2 in Ha by lia. apply nth_error_In in Ha. exact (Q _ Ha R).
    - pose proof (hb_lt _ _ _ H1) as L1. destruct (nth_error (trc s2) j) as [c|] eqn:Hc; [|apply nth_error_None in Hc; lia].
      rewrite (IH1 Li _ _ Ha' eq_refl). apply (IH2 ltac:(lia) _ _ eq_refl Hb'). }
  exact (N (G _ _ Hh Li _ _ Ha Hb)).
Qed.
Print Assumptions call_once_never_publishes.

(** 1 calls, the callable writes datum 0 and ends normally, 1 returns; then 2 calls, returns at once and reads datum 0. *)
Definition once_ls1 : list rlbl := [RO (Call 1); RO (Run 1)].
Definition once_ls2 : list rlbl := [RO (Run 1); RUse 1 0 true; RO (Ends 1 true); RO (Run 1); RO (Call 2); RO (Run 2); RO (Run 2); RUse 2 0 false].
Example call_once_never_publishes_case : exists s1 s2, run rstep rinit once_ls1 = Some s1 /\ flag (oc s1) = true /\ run rstep s1 once_ls2 = Some s2 /\
  length (trc s1) <= 1 /\ nth_error (trc s2) 1 = Some (mkEv 1 (KWr 0)) /\ nth_error (trc s2) 3 = Some (mkEv 2 (KRd 0)).
Proof. eexists. eexists. split; [vm_compute; reflexivity|]. split; [reflexivity|]. split; [vm_compute; reflexivity|]. repeat split; auto. Qed.
(** So the caller that comes last races with the callable on the data that the callable has initialised. *)
Theorem call_once_visible_refuted : exists ls s, run rstep rinit ls = Some s /\
  hist (oc s) = [ORet 2; OCall 2; ORet 1; OEnd 1 true; OStart 1; OCall 1] /\ race (trc s) 0.
Proof.
  assert (A : exists s1 s2, run rstep rinit once_ls1 = Some s1 /\ flag (oc s1) = true /\ run rstep s1 once_ls2 = Some s2 /\
    run rstep rinit (once_ls1 ++ once_ls2) = Some s2 /\ length (trc s1) <= 1 /\ nth_error (trc s2) 1 = Some (mkEv 1 (KWr 0)) /\
    nth_error (trc s2) 3 = Some (mkEv 2 (KRd 0)) /\ hist (oc s2) = [ORet 2; OCall 2; ORet 1; OEnd 1 true; OStart 1; OCall 1]).
  { destruct call_once_never_publishes_case as (s1&s2&R1&F&R2&L&N1&N3). exists s1, s2. repeat (split; [auto; fail|]).
    split; [rewrite run_app, R1; exact R2|]. split; [exact L|]. split; [exact N1|]. split; [exact N3|].
    assert (O : option_map (fun s => hist (oc s)) (run rstep rinit (once_ls1 ++ once_ls2)) = Some [ORet 2; OCall 2; ORet 1; OEnd 1 true; OStart 1; OCall 1])
      by (vm_compute; reflexivity).
    rewrite run_app, R1, R2 in O. now injection O. }
  destruct A as (s1&s2&R1&F&R2&R&L&N1&N3&Hh). exists (once_ls1 ++ once_ls2), s2. split; auto. split; auto.
  exists 1, 3, (mkEv 1 (KWr 0)), (mkEv 2 (KRd 0)). split; [lia|]. split; auto. split; auto. split.
  - unfold conflict, touches. simpl. repeat split; auto.
  - apply (call_once_never_publishes once_ls1 s1 once_ls2 s2 1 3 _ _ R1 F R2 L N1 N3). simpl. lia.
Qed.
Print Assumptions call_once_visible_refuted.

(** What does hold: what the caller whose callable runs had done before the call (say, preparing the arguments) happens before everything
    that comes after another call. *)
Definition one_upd (s : rst) : Prop :=
  if flag (oc s) then exists c, (exists t, nth_error (trc s) c = Some (mkEv t (KUpd Flag))) /\
                        forall k e, nth_error (trc s) k = Some e -> releases e Flag -> k = c
  else forall k e, nth_error (trc s) k = Some e -> ~ releases e Flag.
Definition acq_after (s : rst) : Prop :=
  forall c u, nth_error (trc s) c = Some (mkEv u (KAcq Flag)) -> exists k t, k < c /\ nth_error (trc s) k = Some (mkEv t (KUpd Flag)).
Lemma once_inv : forall ls s, run rstep rinit ls = Some s -> one_upd s /\ acq_after s.
Proof.
  intros ls s. apply (run_inv rstep (fun s => one_upd s /\ acq_after s)).
  - split; [intros k e H; destruct k; discriminate|intros [|c] u H; discriminate].
  - clear. intros s l s' (U&A) H.
    assert (G : forall e o, s' = mkR o (trc s ++ [e]) -> flag o = flag (oc s) -> ~ releases e Flag -> (act e = KAcq Flag -> flag o = true) ->
              one_upd s' /\ acq_after s').
    { intros e o -> Fo N Ac. split.
      - unfold one_upd in *. simpl. rewrite Fo. destruct (flag (oc s)).
        + destruct U as (c&(t&Hc)&U). exists c. split; [exists t; apply nth_more; exact Hc|].
          intros k e' Hk R. apply nth_snoc in Hk as [(_&Hk)|(_&->)]; [eauto|contradiction].
        + intros k e' Hk. apply nth_snoc in Hk as [(_&Hk)|(_&->)]; eauto.
      - intros c u Hc. simpl in *. apply nth_snoc in Hc as [(_&Hc)|(->&<-)].
        + destruct (A _ _ Hc) as (k&t&L&Hk). exists k, t. split; auto. apply nth_more. exact Hk.
        + specialize (Ac eq_refl). rewrite Fo in Ac. unfold one_upd in U. rewrite Ac in U. destruct U as (c&(t&Hc)&_).
          exists c, t. split; [apply nth_error_Some; congruence|apply nth_more; exact Hc]. }
    assert (G0 : forall o, s' = mkR o (trc s ++ []) -> flag o = flag (oc s) -> one_upd s' /\ acq_after s').
    { intros o -> Fo. rewrite app_nil_r. split; [|exact A]. unfold one_upd in *. simpl. rewrite Fo. exact U. }
    destruct l as [l|t x w]; simpl in H.
    + destruct (ostep (oc s) l) as [o|] eqn:E; [|discriminate]. injection H as <-. destruct l as [t|t|t ok]; simpl in E.
      * destruct (pcs (oc s) t); try discriminate. injection E as <-. eapply G0; reflexivity.
      * unfold effects in *. destruct (pcs (oc s) t); try discriminate.
        -- destruct (flag (oc s)) eqn:F; injection E as <-.
           ++ apply (G (mkEv t (KAcq Flag)) _ eq_refl); [simpl; congruence|intros [R|R]; discriminate|reflexivity].
           ++ clear G G0. unfold one_upd in U. rewrite F in U. split.
              ** exists (length (trc s)). simpl. split; [exists t; apply nth_last|].
                 intros k e Hk R. apply nth_snoc in Hk as [(_&Hk)|(->&_)]; [exfalso; eapply U; eauto|reflexivity].
              ** intros c u Hc. simpl in *. apply nth_snoc in Hc as [(_&Hc)|(_&Hc)]; [|discriminate].
                 destruct (A _ _ Hc) as (k&t'&L&Hk). exists k, t'. split; auto. apply nth_more. exact Hk.
        -- injection E as <-. eapply G0; reflexivity.
        -- injection E as <-. eapply G0; reflexivity.
      * destruct (pcs (oc s) t); try discriminate. injection E as <-. eapply G0; reflexivity.
    + assert (E : s' = mkR (oc s) (trc s ++ [mkEv t (if w then KWr x else KRd x)])) by (destruct (pcs (oc s) t); try discriminate; congruence).
      eapply G; [exact E|reflexivity| |]; destruct w; simpl; try discriminate; intros [R|R]; discriminate.
Qed.
Theorem call_once_visible_partial : forall ls s t c u d, run rstep rinit ls = Some s ->
  nth_error (trc s) c = Some (mkEv t (KUpd Flag)) -> nth_error (trc s) d = Some (mkEv u (KAcq Flag)) -> passes (trc s) t c u d.
Proof.
  intros ls s t c u d H Hc Hd i j a b Li Lj Ha Ta Hb Tb. destruct (once_inv _ _ H) as (U&A).
  destruct (A _ _ Hd) as (k&t'&L&Hk). unfold one_upd in U. destruct (flag (oc s)); [|exfalso; eapply U; [exact Hc|right; reflexivity]].
  destruct U as (c'&_&U). assert (c = c') by (eapply U; [exact Hc|right; reflexivity]). assert (k = c') by (eapply U; [exact Hk|right; reflexivity]). subst c' k.
  assert (S : hb (trc s) c d).
  { apply (hb_sw _ _ _ c d _ _ Flag L Hc Hd); [right; reflexivity|left; reflexivity|].
    intros k e Hk' Hke R. assert (k = c) by (eapply U; [exact Hke|exact R]). lia. }
  assert (P : hb (trc s) i d) by (eapply hb_tr; [exact (hb_po _ _ _ i c _ _ Li Ha Hc Ta)|exact S]).
  destruct (Nat.eq_dec d j) as [<-|Nj]; auto. eapply hb_tr; [exact P|]. apply (hb_po _ _ _ d j _ _ ltac:(lia) Hd Hb). auto.
Qed.
Print Assumptions call_once_visible_partial.
(** 1 writes datum 0 and calls; 2 calls, returns and reads datum 0 while the callable of 1 is still running. *)
Example call_once_visible_case : exists s,
  run rstep rinit [RUse 1 0 true; RO (Call 1); RO (Run 1); RO (Run 1); RO (Call 2); RO (Run 2); RO (Run 2); RUse 2 0 false] = Some s /\
  nth_error (trc s) 1 = Some (mkEv 1 (KUpd Flag)) /\ nth_error (trc s) 2 = Some (mkEv 2 (KAcq Flag)) /\
  nth_error (trc s) 0 = Some (mkEv 1 (KWr 0)) /\ nth_error (trc s) 3 = Some (mkEv 2 (KRd 0)).
Proof. eexists. split; [vm_compute; reflexivity|]. repeat split. Qed.

(** Whoever returned without having run the callable has acquired: every caller is on one side of [call_once_visible_partial]. *)
Definition came (h : list oev) (tr : list rev_) (u : tid) : Prop := In (OStart u) h \/ exists d, nth_error tr d = Some (mkEv u (KAcq Flag)).
Lemma came_inv : forall ls s, run rstep rinit ls = Some s -> forall u,
  (match pcs (oc s) u with PBody => In (OStart u) (hist (oc s)) | PRet _ => came (hist (oc s)) (trc s) u | _ => True end) /\
  (In (ORet u) (hist (oc s)) -> came (hist (oc s)) (trc s) u).
Proof.
  intros ls s. apply (run_inv rstep (fun s => forall u,
    (match pcs (oc s) u with PBody => In (OStart u) (hist (oc s)) | PRet _ => came (hist (oc s)) (trc s) u | _ => True end) /\
    (In (ORet u) (hist (oc s)) -> came (hist (oc s)) (trc s) u))).
  - intros u. split; [exact I|intros []].
  - clear. intros s l s' P H u.
    assert (M : forall es new, came (hist (oc s)) (trc s) u -> came (es ++ hist (oc s)) (trc s ++ new) u).
    { intros es new [C|(d&C)]; [left; apply in_or_app; auto|right; exists d; now apply nth_more]. }
    destruct (P u) as (P1&P2). destruct l as [l|t x w]; simpl in H.
    + destruct (ostep (oc s) l) as [o|] eqn:E; [|discriminate]. injection H as <-. destruct l as [t|t|t ok]; simpl in E.
      * destruct (pcs (oc s) t); try discriminate. injection E as <-. simpl. split.
        -- unfold upd. destruct (Nat.eqb u t); try exact I. destruct (pcs (oc s) u); try exact I; [right; exact P1|exact (M [OCall t] [] P1)].
        -- intros [Q|Q]; [discriminate|]. exact (M [OCall t] [] (P2 Q)).
      * unfold effects. destruct (pcs (oc s) t) eqn:Ep; try discriminate.
        -- destruct (flag (oc s)) eqn:Ef; injection E as <-; simpl; (split; [|intros Q; exact (M [] _ (P2 Q))]); unfold upd.
           ++ destruct (Nat.eqb u t) eqn:Et.
              ** apply Nat.eqb_eq in Et. subst u. right. exists (length (trc s)). apply nth_last.
              ** destruct (pcs (oc s) u); auto. exact (M [] _ P1).
           ++ destruct (Nat.eqb u t); try exact I. destruct (pcs (oc s) u); auto. exact (M [] _ P1).
        -- injection E as <-. simpl. split.
           ++ unfold upd. destruct (Nat.eqb u t) eqn:Et; [apply Nat.eqb_eq in Et; subst; now left|].
              destruct (pcs (oc s) u); try exact I; [right; exact P1|exact (M [OStart t] [] P1)].
           ++ intros [Q|Q]; [discriminate|]. exact (M [OStart t] [] (P2 Q)).
        -- injection E as <-. simpl. split.
           ++ unfold upd. destruct (Nat.eqb u t); try exact I. destruct (pcs (oc s) u); try exact I; [right; exact P1|]. refine (M [_] [] P1).
           ++ intros [Q|Q]; [|refine (M [_] [] (P2 Q))]. destruct ok; [|discriminate]. injection Q as ->. rewrite Ep in P1. refine (M [_] [] P1).
      * destruct (pcs (oc s) t) eqn:Ep; try discriminate. injection E as <-. simpl. split.
        -- unfold upd. destruct (Nat.eqb u t) eqn:Et.
           ++ apply Nat.eqb_eq in Et. subst u. rewrite Ep in P1. left. right. exact P1.
           ++ destruct (pcs (oc s) u); try exact I; [right; exact P1|refine (M [_] [] P1)].
        -- intros [Q|Q]; [discriminate|]. refine (M [_] [] (P2 Q)).
    + assert (E : exists e, s' = mkR (oc s) (trc s ++ e)) by (destruct (pcs (oc s) t); try discriminate; injection H as <-; eauto).
      destruct E as (e&->). simpl. split; [|intros Q; exact (M [] e (P2 Q))]. destruct (pcs (oc s) u); auto. exact (M [] e P1).
Qed.
Theorem call_once_others_acquire : forall ls s u, run rstep rinit ls = Some s ->
  In (ORet u) (hist (oc s)) -> ~ In (OStart u) (hist (oc s)) -> exists d, nth_error (trc s) d = Some (mkEv u (KAcq Flag)).
Proof. intros ls s u H R N. destruct (proj2 (came_inv _ _ H u) R) as [C|C]; tauto. Qed.
Print Assumptions call_once_others_acquire.
(** 2 finds the flag set by 1. *)
Example call_once_others_acquire_case : exists s, run rstep rinit (once_ls1 ++ once_ls2) = Some s /\
  In (ORet 2) (hist (oc s)) /\ ~ In (OStart 2) (hist (oc s)).
Proof. eexists. split; [vm_compute; reflexivity|]. simpl. split; [auto|]. intuition discriminate. Qed.
