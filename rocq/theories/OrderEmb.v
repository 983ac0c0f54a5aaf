(** The part of a trace that belongs to the mutex: what is ordered in it is ordered in the whole trace. *)
From Coq Require Import List Arith Bool Lia.
From Verif Require Import Base RaceSpec RaceLemmas OrderModel.
From Verif Require MutexRaceModel.
Import ListNotations.

Notation mmev := (RaceSpec.ev MutexRaceModel.flag MutexRaceModel.mloc).
Definition pk (k : kind osync oloc) : option (kind MutexRaceModel.flag MutexRaceModel.mloc) :=
  match k with
  | KAcq OMu => Some (KAcq MutexRaceModel.Locked) | KRel OMu => Some (KRel MutexRaceModel.Locked) | KUpd OMu => Some (KUpd MutexRaceModel.Locked)
  | KRd OOwner => Some (KRd MutexRaceModel.XOwner) | KWr OOwner => Some (KWr MutexRaceModel.XOwner)
  | KRd OQueue => Some (KRd MutexRaceModel.XQueue) | KWr OQueue => Some (KWr MutexRaceModel.XQueue)
  | KRd ODat => Some (KRd MutexRaceModel.XData) | KWr ODat => Some (KWr MutexRaceModel.XData)
  | _ => None
  end.
Definition pe (a : oev) : list mmev := match pk (act a) with Some k => [mkEv (thr a) k] | None => [] end.
Definition proj (tr : list oev) : list mmev := flat_map pe tr.
Lemma proj_app : forall a b, proj (a ++ b) = proj a ++ proj b.
Proof. intros a b. apply flat_map_app. Qed.
Lemma proj_okind : forall ks t, proj (obys t (map okind ks)) = MutexRaceModel.by_ t ks.
Proof. induction ks as [|k ks IH]; intros t; [reflexivity|]. simpl. fold (obys t (map okind ks)). unfold proj in IH. rewrite IH. destruct k as [[]|[]|[]|[]|[]]; reflexivity. Qed.

Definition emb (tr : list oev) (f : nat -> nat) : Prop :=
  (forall i e, nth_error (proj tr) i = Some e -> exists a, nth_error tr (f i) = Some a /\ pe a = [e]) /\
  (forall i j, i < j -> j < length (proj tr) -> f i < f j) /\
  (forall k a e, nth_error tr k = Some a -> pe a = [e] -> exists i, f i = k /\ nth_error (proj tr) i = Some e).
Lemma emb_ex : forall tr, exists f, emb tr f.
Proof.
  induction tr as [|b tr (f&A&B&C)] using rev_ind.
  - exists (fun i => i). repeat split; simpl; intros; try lia; destruct i + destruct k; discriminate.
  - unfold emb. rewrite proj_app. simpl. rewrite app_nil_r. destruct (pe b) as [|e0 r] eqn:Pb.
    + exists f. rewrite app_nil_r. split; [|split; auto].
      * intros i e H. destruct (A i e H) as (a&X&Y). exists a. split; auto. now apply nth_more.
      * intros k a e X Y. apply nth_snoc in X as [(_&X)|(_&->)]; [eauto|congruence].
    + assert (r = []) as -> by (unfold pe in Pb; destruct (pk (act b)); congruence).
      exists (fun i => if i <? length (proj tr) then f i else length tr). split; [|split].
      * intros i e H. destruct (Nat.ltb_spec i (length (proj tr))) as [L|L].
        -- rewrite nth_error_app1 in H by auto. destruct (A i e H) as (a&X&Y). exists a. split; auto. now apply nth_more.
        -- rewrite nth_error_app2 in H by auto. destruct (i - length (proj tr)) as [|n]; simpl in H; [|destruct n; discriminate]. injection H as <-.
           exists b. split; auto. apply nth_last.
      * intros i j L H. rewrite app_length in H. simpl in H. destruct (Nat.ltb_spec i (length (proj tr))) as [Li|Li]; [|lia].
        destruct (Nat.ltb_spec j (length (proj tr))) as [Lj|Lj]; [auto|].
        destruct (nth_error (proj tr) i) as [e|] eqn:E; [|apply nth_error_None in E; lia]. destruct (A i e E) as (a&X&_). apply nth_error_Some. congruence.
      * intros k a e X Y. apply nth_snoc in X as [(_&X)|(->&->)].
        -- destruct (C k a e X Y) as (i&<-&N). assert (i < length (proj tr)) by (apply nth_error_Some; congruence). exists i. rewrite (proj2 (Nat.ltb_lt _ _) H).
           split; auto. now rewrite nth_error_app1.
        -- exists (length (proj tr)). rewrite Nat.ltb_irrefl. split; auto. rewrite nth_error_app2, Nat.sub_diag by auto. simpl. congruence.
Qed.
Lemma pe_thr : forall a e, pe a = [e] -> thr a = thr e.
Proof. intros a e H. unfold pe in H. destruct (pk (act a)); [|discriminate]. now injection H as <-. Qed.
Lemma pe_rel : forall a e, pe a = [e] -> (releases e MutexRaceModel.Locked <-> releases a OMu).
Proof.
  intros a e H. unfold pe in H. destruct (pk (act a)) as [k|] eqn:P; [|discriminate]. injection H as <-. unfold releases. simpl.
  destruct (act a) as [[]|[]|[]|[]|[]]; inversion P; subst; split; intros [X|X]; try discriminate; auto.
Qed.
Lemma pe_acq : forall a e, pe a = [e] -> (acquires e MutexRaceModel.Locked <-> acquires a OMu).
Proof.
  intros a e H. unfold pe in H. destruct (pk (act a)) as [k|] eqn:P; [|discriminate]. injection H as <-. unfold acquires. simpl.
  destruct (act a) as [[]|[]|[]|[]|[]]; inversion P; subst; split; intros [X|X]; try discriminate; auto.
Qed.
Lemma rel_pe : forall a, releases a OMu -> exists e, pe a = [e].
Proof. intros a [H|H]; unfold pe; rewrite H; simpl; eauto. Qed.
Lemma hb_emb : forall tr f, emb tr f -> forall i j, hb (proj tr) i j -> hb tr (f i) (f j).
Proof.
  intros tr f (A&B&C) i j H. induction H as [i j a b L Na Nb T|i j a b [] L Na Nb R Q N|i j k _ IH1 _ IH2].
  - destruct (A _ _ Na) as (a'&Xa&Ya). destruct (A _ _ Nb) as (b'&Xb&Yb). eapply hb_po; eauto.
    + apply B; auto. apply nth_error_Some. congruence.
    + rewrite (pe_thr _ _ Ya), (pe_thr _ _ Yb). exact T.
  - destruct (A _ _ Na) as (a'&Xa&Ya). destruct (A _ _ Nb) as (b'&Xb&Yb). assert (Lj : j < length (proj tr)) by (apply nth_error_Some; congruence).
    eapply hb_sw with (l := OMu); eauto.
    + now apply (pe_rel _ _ Ya).
    + now apply (pe_acq _ _ Yb).
    + intros k c K X Rc. destruct (rel_pe _ Rc) as (e&Pe). destruct (C _ _ _ X Pe) as (k'&<-&Ne). apply (N k' e); auto; [|now apply (pe_rel _ _ Pe)].
      assert (Lk : k' < length (proj tr)) by (apply nth_error_Some; congruence). split.
      * destruct (Nat.lt_trichotomy i k') as [?|[-> |G]]; auto; [lia|]. pose proof (B k' i G ltac:(lia)). lia.
      * destruct (Nat.lt_trichotomy k' j) as [?|[-> |G]]; auto; [lia|]. pose proof (B j k' G Lk). lia.
  - eapply hb_tr; eauto.
Qed.
Definition mine (x : oloc) (y : MutexRaceModel.mloc) : Prop := oname y = x.
Lemma pe_touch : forall a y, touches a (oname y) -> exists e, pe a = [e] /\ touches e y /\ (act a = KWr (oname y) -> act e = KWr y).
Proof.
  intros a y T. unfold pe. destruct T as [T|T]; rewrite T; destruct y; simpl; eexists; (split; [reflexivity|]); unfold touches; simpl; split; auto; discriminate.
Qed.
Lemma ordered_emb : forall tr y, ordered (proj tr) y -> ordered tr (oname y).
Proof.
  intros tr y O i j a b L Na Nb (Th&Ta&Tb&W). destruct (emb_ex tr) as (f&E). pose proof E as (A&B&C).
  destruct (pe_touch _ _ Ta) as (ea&Pa&Ya&Wa). destruct (pe_touch _ _ Tb) as (eb&Pb&Yb&Wb).
  destruct (C _ _ _ Na Pa) as (i'&<-&Ni). destruct (C _ _ _ Nb Pb) as (j'&<-&Nj). apply hb_emb; auto.
  assert (Li : i' < length (proj tr)) by (apply nth_error_Some; congruence).
  apply (O i' j' ea eb); auto.
  - destruct (Nat.lt_trichotomy i' j') as [?|[-> |G]]; auto; [lia|]. pose proof (B j' i' G Li). lia.
  - split; [rewrite <- (pe_thr _ _ Pa), <- (pe_thr _ _ Pb); exact Th|]. split; auto. split; auto. destruct W; auto.
Qed.
