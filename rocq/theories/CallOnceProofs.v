(** Invariant of the co_call_once model. *)
From Coq Require Import List Arith Bool Lia.
From Verif Require Import Base CallOnceSpec CallOnceModel.
Import ListNotations.

Definition pc_ok (p : pc) (t : tid) (x : option oev) : Prop :=
  match p with
  | Out => x = None \/ x = Some (ORet t) \/ x = Some (OThrow t)
  | PCas | PInvoke => x = Some (OCall t)
  | PBody => x = Some (OStart t)
  | PRet true => x = Some (OCall t) \/ x = Some (OEnd t true)
  | PRet false => x = Some (OEnd t false)
  end.

Record Inv (s : ost) : Prop := {
  v_pc : forall t, pc_ok (pcs s t) t (last_of (hist s) t);
  v_rw : runner_waits (hist s);
  v_off : flag s = false -> starts (hist s) = 0 /\ forall t, pcs s t = Out /\ hist s = [] \/ pcs s t = PCas \/ (pcs s t = Out /\ last_of (hist s) t = None);
  v_inv : forall t, pcs s t = PInvoke -> flag s = true /\ starts (hist s) = 0 /\ forall u, pcs s u = PInvoke -> u = t;
  v_on : flag s = true -> (starts (hist s) = 0 /\ exists t, pcs s t = PInvoke) \/
                          (starts (hist s) = 1 /\ ((exists t, pcs s t = PBody) \/ exists u ok, In (OEnd u ok) (hist s)));
  v_thr : forall u, In (OEnd u false) (hist s) -> In (OThrow u) (hist s) \/ pcs s u = PRet false
}.

Lemma inv_init : Inv oinit.
Proof. split; simpl; auto; try discriminate; try contradiction. Qed.

Ltac ue := unfold upd in *; repeat match goal with
  | |- context [?a =? ?b] => destruct (Nat.eqb_spec a b); subst
  | H : context [?a =? ?b] |- _ => destruct (Nat.eqb_spec a b); subst end; try congruence.

Lemma inv_step : forall s l s', Inv s -> ostep s l = Some s' -> Inv s'.
Proof.
  intros s l s' [V1 V2 V3 V4 V5 V6] Hs. destruct l as [t|t|t ok]; simpl in Hs.
  - destruct (pcs s t) eqn:E; try discriminate. injection Hs as <-.
    pose proof (V1 t) as K. rewrite E in K. simpl in K.
    split; cbn [flag pcs hist].
    + intros u. simpl. ue; simpl; auto.
    + simpl. split; auto. destruct K as [K|[K|K]]; rewrite K; auto.
    + intros F. destruct (V3 F) as [A B]. split; [exact A|]. intros u. ue; auto. destruct (B u) as [[B1 B2]|[B1|[B1 B2]]]; auto.
      * right. right. split; auto. simpl. ue. rewrite B2. reflexivity.
      * right. right. split; auto. simpl. ue.
    + intros u. ue. intros Hu. destruct (V4 u Hu) as (A&B&C). repeat split; auto. intros v. ue. apply C.
    + intros F. destruct (V5 F) as [[A [u B]]|[A [[u B]|(u&k&B)]]].
      * left. split; auto. exists u. ue.
      * right. split; auto. left. exists u. ue.
      * right. split; auto. right. exists u, k. now right.
    + intros u [Hu|Hu]; [discriminate|]. destruct (V6 u Hu) as [A|A]; [left; now right|right; ue].
  - pose proof (V1 t) as K. destruct (pcs s t) eqn:E; simpl in K; try discriminate.
    + destruct (flag s) eqn:F; injection Hs as <-; split; cbn [flag pcs hist]; auto; try discriminate.
      * intros u. ue; simpl; auto.
      * intros u. ue. intros Hu. destruct (V4 u Hu) as (A&B&C). repeat split; auto. intros v. ue. apply C.
      * intros _. destruct (V5 eq_refl) as [[A [u B]]|[A [[u B]|B]]].
        { left. split; auto. exists u. ue. } { right. split; auto. left. exists u. ue. } { right. auto. }
      * intros u Hu. destruct (V6 u Hu) as [A|A]; auto. right. ue.
      * intros u. ue; simpl; auto.
      * intros u. destruct (V3 eq_refl) as [A B]. ue.
        { intros _. repeat split; auto. intros v. ue. destruct (B v) as [[C D]|[C|[C D]]]; congruence. }
        { intros Hu. destruct (B u) as [[C D]|[C|[C D]]]; congruence. }
      * intros _. left. destruct (V3 eq_refl) as [A B]. split; auto. exists t. ue.
      * intros u Hu. destruct (V6 u Hu) as [A|A]; auto. right. ue.
    + injection Hs as <-. destruct (V4 t E) as (A&B&C). split; cbn [flag pcs hist].
      * intros u. simpl. ue; simpl; auto.
      * simpl. auto.
      * congruence.
      * intros u. ue. intros Hu. now rewrite (C u Hu) in *.
      * intros _. right. split; [unfold starts; simpl; fold (starts (hist s)); lia|]. left. exists t. ue.
      * intros u [Hu|Hu]; [discriminate|]. destruct (V6 u Hu) as [X|X]; [left; now right|right; ue].
    + injection Hs as <-. set (e := if ok then ORet t else OThrow t) in *.
      assert (He : oev_tid e = t) by (subst e; destruct ok; reflexivity).
      assert (Hst : starts (e :: hist s) = starts (hist s)) by (subst e; destruct ok; reflexivity).
      split; cbn [flag pcs hist].
      * intros u. simpl. rewrite He. clear He Hst. ue; try apply V1. subst e; destruct ok; simpl; auto.
      * simpl. split; auto. subst e. destruct ok; auto.
      * clear He. intros F. destruct (V3 F) as [A B]. destruct (B t) as [[C D]|[C|[C D]]]; congruence.
      * clear He. intros u. ue. intros Hu. destruct (V4 u Hu) as (A&B&C). repeat split; auto; [congruence|]. intros v. ue. apply C.
      * clear He. intros F. rewrite Hst. destruct (V5 F) as [[A [u B]]|[A [[u B]|(u&k&B)]]].
        { left. split; auto. exists u. ue. } { right. split; auto. left. exists u. ue. }
        { right. split; auto. right. exists u, k. now right. }
      * clear He. intros u [Hu|Hu]; [subst e; destruct ok; discriminate|]. destruct (V6 u Hu) as [X|X]; [left; now right|].
        unfold upd. destruct (Nat.eqb_spec u t) as [->|]; auto. left. left. subst e. destruct ok; congruence.
  - pose proof (V1 t) as K. destruct (pcs s t) eqn:E; simpl in K; try discriminate. injection Hs as <-.
    split; cbn [flag pcs hist].
    + intros u. simpl. ue; try apply V1. destruct ok; simpl; auto.
    + simpl. auto.
    + intros F. destruct (V3 F) as [A B]. destruct (B t) as [[C D]|[C|[C D]]]; congruence.
    + intros u. ue. intros Hu. destruct (V4 u Hu) as (A&B&C). repeat split; auto. intros v. ue. apply C.
    + intros F. destruct (V5 F) as [[A [u B]]|[A B]].
      * left. split; auto. exists u. ue.
      * right. split; auto. right. exists t, ok. now left.
    + intros u [Hu|Hu]; [injection Hu as -> ->; right; ue|]. destruct (V6 u Hu) as [X|X]; [left; now right|right; ue].
Qed.

Lemma once_inv : forall ls s, run ostep oinit ls = Some s -> Inv s.
Proof. intros ls s. apply run_inv; [apply inv_init|apply inv_step]. Qed.

Lemma last_in : forall h t, last_of h t = None -> forall e, In e h -> oev_tid e <> t.
Proof.
  induction h as [|x h IH]; intros t H e Hi; [contradiction|]. simpl in H. destruct (oev_tid x =? t) eqn:E; [discriminate|].
  destruct Hi as [->|Hi]; [now apply Nat.eqb_neq|auto].
Qed.

Lemma once_exactly : forall s, Inv s -> all_out (hist s) -> hist s <> [] ->
  starts (hist s) = 1 /\ exists u ok, In (OEnd u ok) (hist s) /\ (ok = false -> In (OThrow u) (hist s)).
Proof.
  intros s HI Ha Hn. destruct (flag s) eqn:F.
  - destruct (v_on s HI F) as [[A [t B]]|[A [[t B]|(u&k&B)]]].
    + exfalso. pose proof (v_pc s HI t) as K. rewrite B in K. simpl in K. specialize (Ha t). now rewrite K in Ha.
    + exfalso. pose proof (v_pc s HI t) as K. rewrite B in K. simpl in K. specialize (Ha t). now rewrite K in Ha.
    + split; auto. exists u, k. split; auto. intros ->. destruct (v_thr s HI u B) as [C|C]; auto. exfalso.
      pose proof (v_pc s HI u) as K. rewrite C in K. simpl in K. specialize (Ha u). now rewrite K in Ha.
  - exfalso. destruct (v_off s HI F) as [_ B]. destruct (hist s) as [|e h] eqn:E; [now apply Hn|].
    set (t := oev_tid e). destruct (B t) as [[_ C]|[C|[_ C]]]; [discriminate| |].
    + pose proof (v_pc s HI t) as K. rewrite C in K. simpl in K. specialize (Ha t). rewrite E in K. now rewrite K in Ha.
    + apply (last_in _ _ C e); [now left|reflexivity].
Qed.
