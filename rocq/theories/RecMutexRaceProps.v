(** Property C98, first half: co_recursive_mutex orders the accesses of its holders in the C++ sense. *)
From Coq Require Import List Arith Bool NArith Lia.
From Verif Require Import Base RaceSpec RaceLemmas SpinInv LinSpec MutexSpec RecMutexSpec SpinObj SpinObjProofs RecMutexModel RecMutexProofs SpinRaceModel SpinRace.
Import ListNotations.

(** The rule for clients: data is used only between a successful lock or try_lock and the unlock that matches it. *)
Definition rmay (h : list mev) (t : tid) (w : bool) : bool := (0 <? depth h t)%N.
Definition rpstep := pstep rentry rseg rmay.
Definition rpinit := pinit mop mres maux rloc rd0.

Definition rhx (d : rdat) (t : tid) : option bool := if owns d t then Some true else None.
Definition rwl (l : rloc) : bool := match l with RLoop => true | _ => false end.
Local Notation J := (J rentry rseg rd0 shallow).

Lemma rhx_some : forall d t b, rhx d t = Some b -> b = true /\ ro d = Some t.
Proof. intros d t b. unfold rhx. destruct (owns d t) eqn:E; [|discriminate]. intros H. apply owns_true in E. split; congruence. Qed.
Lemma rhx_none : forall d t, rhx d t = None <-> ro d <> Some t.
Proof. intros d t. unfold rhx. rewrite <- owns_false. destruct (owns d t); split; congruence. Qed.
Lemma rhx_own : forall d t, ro d = Some t -> rhx d t = Some true.
Proof. intros d t E. unfold rhx. apply owns_true in E. now rewrite E. Qed.

Lemma r_use : forall s t w, J s -> fpcs s t = FOut -> rmay (fhist s) t w = true ->
  exists w', rhx (fdat s) t = Some w' /\ (w = true -> w' = true).
Proof.
  intros s t w ((ls&Hr)&Sh) E M. destruct (rec_reach ls s Hr Sh) as (a&HR&HI). pose proof (inv_depth_le a t HI) as L.
  unfold rmay in M. apply N.ltb_lt in M. rewrite (r_hist HR) in M. rewrite (r_dat HR). exists true. split; auto.
  unfold dd in L. unfold rhx. destruct (owns (adat a) t); [reflexivity|lia].
Qed.
Lemma r_excl : forall s t u, J s -> rhx (fdat s) t = Some true -> rhx (fdat s) u <> None -> u = t.
Proof.
  intros s t u _ Ht Hu. apply rhx_some in Ht as (_&Ht). destruct (rhx (fdat s) u) eqn:E; [|congruence]. apply rhx_some in E as (_&E). congruence.
Qed.

Local Notation has_ := (@has rdat mop mres maux rloc rhx rwl).
Lemma has_own : forall (s : fst_ rdat mop mres maux rloc) u, ro (fdat s) <> Some u -> has_ s u = None.
Proof. intros s u N. unfold has. apply rhx_none in N. rewrite N. now destruct (told _ _). Qed.
Lemma r_take : forall (s s' : fst_ rdat mop mres maux rloc) t, told rwl (fpcs s t) = true -> told rwl (fpcs s' t) = true -> (ro (fdat s) = None \/ ro (fdat s) = Some t) -> ro (fdat s') = Some t -> seg_ok rhx rwl s s' t.
Proof.
  intros s s' t T T' O O'. split.
  - intros u Nu. left. assert (A : rhx (fdat s') u = None) by (apply rhx_none; congruence). rewrite A. symmetry. apply rhx_none. destruct O; congruence.
  - rewrite (rhx_own _ _ O'). destruct O as [O|O].
    + right. right. split; [apply has_own; congruence|]. exists true. split; auto. intros v. apply has_own. congruence.
    + right. left. rewrite (rhx_own _ _ O). split; auto. congruence.
Qed.
Lemma r_keep : forall (s s' : fst_ rdat mop mres maux rloc) t, ro (fdat s') = ro (fdat s) -> (ro (fdat s) = Some t -> told rwl (fpcs s' t) = told rwl (fpcs s t)) -> seg_ok rhx rwl s s' t.
Proof.
  intros s s' t O T. assert (E : forall u, rhx (fdat s') u = rhx (fdat s) u) by (intros u; unfold rhx, owns; now rewrite O). split.
  - intros u _. left. apply E.
  - destruct (rhx (fdat s) t) eqn:H; rewrite E, H; [|auto]. right. left. split; auto. apply T. now apply rhx_some in H.
Qed.

Local Ltac tk := apply r_take; [assumption|simpl; now rewrite upd_same|auto|reflexivity].
Lemma r_seg : forall s t o l b s', J s -> J s' -> fpcs s t = FIn o l -> fstep rentry rseg s (SRun t b) = Some s' -> seg_ok rhx rwl s s' t.
Proof.
  intros s t o l b s' ((ls&Hr)&Sh) _ E H. destruct (rec_reach ls s Hr Sh) as (a&HR&HI). simpl in H. rewrite E in H.
  assert (TT : told rwl (fpcs s t) = negb (rwl l)) by now rewrite E.
  destruct l; simpl in TT; unfold rseg in H.
  - destruct (ro (fdat s)) as [u|] eqn:Eo.
    + destruct (Nat.eqb u t) eqn:Eu; [apply Nat.eqb_eq in Eu; subst u; injection H as <-; tk|]. apply Nat.eqb_neq in Eu.
      destruct b; [unfold rpark, owns in H; rewrite Eo in H; rewrite (proj2 (Nat.eqb_neq u t) Eu) in H|];
        injection H as <-; apply r_keep; simpl; auto; rewrite Eo; congruence.
    + injection H as <-. tk.
  - assert (Nt : ro (fdat s) <> Some t).
    { pose proof (i_thr a HI t) as HT. pose proof (r_thr HR t) as Th. rewrite E in Th. unfold T in HT. simpl in Th.
      destruct Th as [Th|(Th&_)]; rewrite Th in HT; [|destruct HT as (_&X&_); discriminate]. apply owns_false. rewrite (r_dat HR). apply HT. }
    destruct b; [unfold rpark in H|]; destruct (ro (fdat s)) as [u|] eqn:Eo; try (injection H as <-; tk).
    + unfold owns in H. rewrite Eo in H. destruct (Nat.eqb u t) eqn:Eu; [apply Nat.eqb_eq in Eu; congruence|].
      injection H as <-; apply r_keep; simpl; auto; rewrite Eo; congruence.
    + injection H as <-; apply r_keep; simpl; auto; rewrite Eo; congruence.
  - destruct (owns (fdat s) t) eqn:Eo; injection H as <-.
    + apply owns_true in Eo. split; [intros; now left|]. right. right. split.
      * unfold has. now rewrite TT.
      * exists true. split; [now apply rhx_own|]. intros v. destruct (Nat.eq_dec v t) as [-> |Nv]; [unfold has; now rewrite TT|apply has_own; congruence].
    + apply owns_false in Eo. apply r_keep; simpl; auto. congruence.
  - destruct (ro (fdat s)) as [u|] eqn:Eo.
    + destruct (Nat.eqb u t) eqn:Eu; [apply Nat.eqb_eq in Eu; subst u; injection H as <-; tk|].
      injection H as <-; apply r_keep; simpl; auto. intros _. now rewrite TT, upd_same.
    + injection H as <-. tk.
  - destruct (owns (fdat s) t) eqn:Eo.
    + apply owns_true in Eo. destruct (negb (dec64 (rn (fdat s)) =? 0)%N).
      * injection H as <-; apply r_keep; simpl; auto. intros _. now rewrite TT, upd_same.
      * destruct (rq (fdat s)) as [|u q'] eqn:Eq; injection H as <-.
        -- split; [|now left]. intros u Nu. left. assert (A : rhx (fdat s) u = None) by (apply rhx_none; congruence). rewrite A. reflexivity.
        -- assert (Hu : told rwl (fpcs s u) = false /\ u <> t).
           { pose proof (i_thr a HI u) as HT. pose proof (r_thr HR u) as Th. unfold T in HT. rewrite <- (r_dat HR), Eq in HT.
             assert (X : athr a u = AParked OLock RLoop /\ amark a u = true).
             { destruct (athr a u) as [|o1 l1|o1 l1|o1 r1]; [exfalso; apply HT; now left|exfalso; apply HT; now left| |exfalso; apply HT; now left].
               destruct HT as (->&->&_&[(M&_)|(_&N&_)]); auto. exfalso; apply N; now left. }
             destruct X as (X&Y). rewrite X, Y in Th. split.
             - destruct (fpcs s u); simpl in Th; try discriminate; try (injection Th as <- <-; reflexivity); destruct Th as [Th|(_&Th)]; discriminate.
             - intros ->. rewrite E in Th. simpl in Th. destruct Th as [Th|(_&Th)]; discriminate. }
           split.
           ++ intros v Nv. simpl. destruct (Nat.eq_dec v u) as [-> |Nu].
              ** right. split; [apply has_own; congruence|apply Hu].
              ** left. assert (A : rhx (fdat s) v = None) by (apply rhx_none; congruence). rewrite A. apply rhx_none. simpl. congruence.
           ++ left. apply rhx_none. simpl. destruct Hu. congruence.
    + injection H as <-; apply r_keep; simpl; auto. intros _. now rewrite TT, upd_same.
Qed.

(** Data used under the mutex is free of races. *)
Theorem rec_mutex_orders_clients : forall ls s x, run rpstep rpinit ls = Some s -> shallow (fhist (po s)) -> ordered (trc s) (PData x).
Proof.
  intros ls s x H Sh. assert (I : CI rhx rwl s); [|apply (c_ord I)].
  exact (@clients_ordered rdat mop mres maux rloc rentry rseg rmay rd0 rhx rwl shallow shallow_app
    (fun o => match o with OLock | OTry | OUnlock => eq_refl end) r_use r_excl r_seg ls s H Sh).
Qed.
Print Assumptions rec_mutex_orders_clients.
(** The members of the mutex are free of races, whoever calls what. *)
Theorem rec_mutex_members_ordered : forall ls s, run rpstep rpinit ls = Some s -> ordered (trc s) PObj.
Proof. intros ls s H. exact (o_ord (oi_run _ _ _ _ _ H)). Qed.
Print Assumptions rec_mutex_members_ordered.

(** 1 locks twice, writes; 2 calls lock and parks; 1 unlocks (depth 1), writes, unlocks: hand-off; 2 fails a test_and_set, returns, reads and
    writes. *)
Definition rruns (t : tid) (n : nat) (b : bool) : list (plbl mop) := repeat (PM (SRun t b)) n.
Definition rrdemo : list (plbl mop) :=
  [PM (SCall 1 OLock)] ++ rruns 1 3 false ++ [PM (SCall 1 OLock)] ++ rruns 1 3 false ++ [PUse 1 0 true] ++
  [PM (SCall 2 OLock)] ++ rruns 2 4 true ++ [PM (SCall 1 OUnlock)] ++ rruns 1 3 false ++ [PUse 1 0 true; PM (SCall 1 OUnlock)] ++ rruns 1 3 false ++
  rruns 2 1 false ++ [PFail 2] ++ rruns 1 1 false ++ rruns 2 3 false ++ [PUse 2 0 false; PUse 2 0 true].
Definition uses {D Op Res Aux Loc} (s : pst D Op Res Aux Loc) : list pev :=
  filter (fun e => match act e with KRd (PData _) | KWr (PData _) => true | _ => false end) (trc s).
Example rec_mutex_orders_clients_case : exists s, run rpstep rpinit rrdemo = Some s /\ shallow (fhist (po s)) /\ uses s = [mkEv 1 (KWr (PData 0)); mkEv 1 (KWr (PData 0)); mkEv 2 (KRd (PData 0)); mkEv 2 (KWr (PData 0))].
Proof. eexists. split; [vm_compute; reflexivity|]. split; [vm_compute; tauto|]. vm_compute. reflexivity. Qed.
