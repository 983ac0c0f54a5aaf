(** C56: co_event. *)
From Coq Require Import List Arith Bool ZArith Lia Sorted.
From Verif Require Import Base EventSpec EventModel EventProofs.
Import ListNotations.
Open Scope Z_scope.

(** What holds of C56: with at most 2^31 subscriptions over the lifetime of the event, and unsub called with handles
    returned by sub.  Missing: more subscriptions (see the refutations); a callback that cancels itself (see below). *)

(** A pub during which nothing is subscribed or cancelled calls exactly the live callbacks, each once, in the order of
    subscription. *)
Theorem event_pub_exact_partial : forall ls s, Forall lbl_ok ls -> run estep_ok einit ls = Some s -> nsubs (ehi s) <= lim ->
  forall post p mid pre, ehi s = post ++ EPubE p :: mid -> undisturbed p mid pre -> calls p mid = live pre.
Proof.
  intros ls s F R L post p mid pre E U. pose proof (einv_run _ _ F R L) as HI.
  destruct (und_live _ _ _ U) as [UL UT].
  assert (X : exists ls', Forall lbl_ok ls' /\ exists s', run estep_ok einit ls' = Some s' /\ ehi s' = mid).
  { clear -F R E. revert s post R E. induction ls as [|a ls IH] using rev_ind; intros s post R E.
    - injection R as <-. now destruct post.
    - rewrite run_app in R. destruct (run estep_ok einit ls) as [s0|] eqn:E0; [|discriminate]. simpl in R.
      destruct (estep_ok s0 a) as [s1|] eqn:E1; [|discriminate]. injection R as <-. apply Forall_app in F as [F1 _].
      assert (Y : exists e, ehi s1 = e :: ehi s0).
      { unfold estep_ok, estep in E1. destruct a; try (injection E1 as <-; eexists; reflexivity).
        destruct (its s0) as [|[q k] r]; [discriminate|]. destruct (match k with Some k' => _ | None => true end); [|discriminate].
        destruct (m_next k (cbs s0)) as [[k' c]|]; injection E1 as <-; eexists; reflexivity. }
      destruct Y as [e Y]. rewrite Y in E. apply cons_split in E as [(_&_&E)|(post'&_&E)].
      + exists ls. split; auto. exists s0. auto.
      + apply (IH F1 s0 post' eq_refl E). }
  destruct X as (ls'&F'&s'&R'&E').
  assert (L' : nsubs (ehi s') <= lim).
  { rewrite E'. rewrite E in L. pose proof (nsubs_app post (EPubE p :: mid)). simpl in H. lia. }
  pose proof (einv_run _ _ F' R' L') as HI'. rewrite <- UL. apply sorted_ext.
  - rewrite <- E'. apply (e_cs _ HI').
  - rewrite <- E'. apply (e_srt _ HI').
  - intros x. split; intros Hx.
    + rewrite UL. rewrite <- E' in U, Hx. apply (e_und _ HI' _ _ _ U Hx).
    + rewrite UL in Hx. apply (e_end _ HI post p mid x); auto.
Qed.
Print Assumptions event_pub_exact_partial.

(** Whatever callbacks do during a pub (subscribe, cancel others, publish): a callback is called only while subscribed,
    in the order of subscription and hence at most once per pub, and all those subscribed throughout are called. *)
Theorem event_pub_reentrant_partial : forall ls s, Forall lbl_ok ls -> run estep_ok einit ls = Some s -> nsubs (ehi s) <= lim ->
  (forall post p h c pre, ehi s = post ++ ECall p h c :: pre -> In (h, c) (live pre)) /\
  (forall p, StronglySorted (fun x y => fst x < fst y) (calls p (ehi s))) /\
  (forall post p pre x, ehi s = post ++ EPubE p :: pre -> thru p x pre -> In x (calls p pre)).
Proof.
  intros ls s F R L. pose proof (einv_run _ _ F R L) as HI. split; [apply (e_live _ HI)|]. split; [apply (e_cs _ HI)|apply (e_end _ HI)].
Qed.
Print Assumptions event_pub_reentrant_partial.

(** Handles are numbered 0, 1, 2, ...; the live ones are distinct. *)
Theorem event_handles_partial : forall ls s, Forall lbl_ok ls -> run estep_ok einit ls = Some s -> nsubs (ehi s) <= lim ->
  (forall post h c pre, ehi s = post ++ ESub h c :: pre -> h = nsubs pre) /\ NoDup (map fst (live (ehi s))).
Proof.
  intros ls s F R L. pose proof (einv_run _ _ F R L) as HI. split; [apply (e_hnd _ HI)|].
  pose proof (e_srt _ HI) as S. induction (live (ehi s)) as [|x l IH]; simpl; constructor; inversion S; subst; auto.
  intros X. apply in_map_iff in X as (y&X&Y). rewrite Forall_forall in H2. specialize (H2 y Y). unfold hlt in H2. lia.
Qed.
Print Assumptions event_handles_partial.

(** Undefined behaviour needs a callback that cancels itself while it is being called. *)
Theorem event_no_ub_partial : forall ls s a, Forall lbl_ok ls -> run estep_ok einit ls = Some s -> nsubs (ehi s) <= lim ->
  estep s a = Some EvUB -> exists p h c mid pre, ehi s = mid ++ ECall p h c :: pre /\ In (EUnsub h) mid.
Proof. intros ls s a F R L E. eapply ub_self; eauto. eapply einv_run; eauto. Qed.
Print Assumptions event_no_ub_partial.

(** Three subscriptions, one cancelled; the first callback cancels the third during the second pub. *)
Definition ev_ls := [Sub 10; Sub 20; Sub 30; Unsub 1; Sub 40; Pub; Next; Next; Next; Next; Pub; Next; Unsub 2; Next; Next].
Example event_ex :
  Forall lbl_ok ev_ls /\
  match run estep_ok einit ev_ls with
  | Some s => nsubs (ehi s) = 4 /\ map snd (calls 0 (ehi s)) = [10; 30; 40]%nat /\ map snd (calls 1 (ehi s)) = [10; 40]%nat
  | None => False
  end.
Proof. split; [repeat constructor; simpl; unfold lim; lia|]. vm_compute. auto. Qed.

(** A callback that cancels itself. *)
Theorem event_self_unsub_refuted : exists ls s, Forall lbl_ok ls /\ run estep_ok einit ls = Some s /\ estep s Next = Some EvUB.
Proof.
  exists [Sub 10; Pub; Next; Unsub 0]. eexists. split; [repeat constructor; simpl; unfold lim; lia|]. split; vm_compute; reflexivity.
Qed.
Print Assumptions event_self_unsub_refuted.

Lemma some_nat : forall z, 0 <= z -> exists k, Z.of_nat k = z.
Proof. intros z H. exists (Z.to_nat z). now apply Z2Nat.id. Qed.

(** The key of the map is an int: subscription number 2^31 gets a negative key and is called before older ones. *)
Theorem event_order_refuted : exists ls s pre, run estep_ok einit ls = Some s /\
  undisturbed 0 (ehi s) pre /\ map snd (live pre) = [10; 20]%nat /\ map snd (calls 0 (ehi s)) = [20; 10]%nat.
Proof.
  destruct (some_nat 2147483647) as [k HK]; [lia|].
  destruct (pairs_run k einit 0 eq_refl) as (s&R&A&B&C&D&E&F).
  - lia.
  - lia.
  - intros j x _ [].
  - intros x [].
  - rewrite HK in B. simpl in B.
    exists (pairs k 0 ++ [Sub 10; Sub 20; Pub; Next; Next; Next]).
    rewrite run_app, R. clear R. destruct s as [m c i p h]. cbn [cbs cur its pid ehi] in *. subst m c i p.
    eexists. eexists. split; [reflexivity|]. cbn [ehi undisturbed live calls]. simpl (0 =? 0)%nat. cbv iota. split; [reflexivity|].
    simpl in F. cbn [live]. rewrite E, F. split; reflexivity.
Qed.
Print Assumptions event_order_refuted.

(** ... and subscription number 2^32 replaces subscription number 0, which is never called again. *)
Theorem event_lost_refuted : exists ls s pre, run estep_ok einit ls = Some s /\
  undisturbed 0 (ehi s) pre /\ map snd (live pre) = [10; 20]%nat /\ map snd (calls 0 (ehi s)) = [20]%nat.
Proof.
  destruct (some_nat 4294967295) as [k HK]; [lia|].
  set (s0 := mkE [(0, 10%nat)] 1 [] 0 [ESub 0 10]).
  destruct (pairs_run k s0 1 eq_refl) as (s&R&A&B&C&D&E&F).
  - lia.
  - lia.
  - intros j x Hj [<-|[]]. simpl. unfold to_int. rewrite Z.mod_small by lia.
    destruct (Z.ltb_spec j 2147483648); lia.
  - intros x [<-|[]]. simpl. lia.
  - rewrite HK in B. simpl in B.
    exists (Sub 10 :: pairs k 1 ++ [Sub 20; Pub; Next; Next]).
    cbn [run]. change (estep_ok einit (Sub 10)) with (Some s0). cbv iota beta.
    rewrite run_app, R. clear R. destruct s as [m c i p h]. cbn [cbs cur its pid ehi s0] in *. subst m c i p.
    eexists. eexists. split; [reflexivity|]. cbn [ehi undisturbed live calls]. simpl (0 =? 0)%nat. cbv iota. split; [reflexivity|].
    simpl in F. cbn [live]. rewrite E, F. split; reflexivity.
Qed.
Print Assumptions event_lost_refuted.
