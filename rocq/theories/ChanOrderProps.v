(** C96: a channel passes on what was done before a push, a pop and the close (the rules that the Go memory model states for channels). *)
From Coq Require Import List Arith Bool ZArith Lia.
From Verif Require Import Base LinSpec HistSpec Monitor FineModel FineProps RaceSpec OrderSpec OrderRules OrderModel OrderProofs OrderProps.
From Verif Require ChanSpec ChanModel.
Import ListNotations.

Definition chan_ord (size : Z) := @ostep _ _ _ ChanSpec.caux _ ChanModel.chan_entry (ChanModel.chan_body (ChanSpec.kind_of_size size)).
Definition chan_ord_init := oinit ChanSpec.cop ChanSpec.cres ChanSpec.caux ChanModel.cloc (ChanModel.mkC [] false).

Lemma accepted_mono : forall a b, length (ChanSpec.accepted b) <= length (ChanSpec.accepted (a ++ b)).
Proof. induction a as [|e a IH]; intros b; simpl; [lia|]. specialize (IH b). destruct e as [| | |? []]; simpl; rewrite ?app_length; lia. Qed.
Lemma delivered_mono : forall a b, length (ChanSpec.delivered b) <= length (ChanSpec.delivered (a ++ b)).
Proof. induction a as [|e a IH]; intros b; simpl; [lia|]. specialize (IH b). destruct e as [| ? [] []| |]; simpl; rewrite ?app_length; lia. Qed.
Lemma closed_mono : forall a b, ChanSpec.is_closed b = true -> ChanSpec.is_closed (a ++ b) = true.
Proof. induction a as [|e a IH]; intros b H; simpl; auto. destruct e as [| ? [] ?| |]; auto. Qed.
Lemma mid : forall (A : Type) (b : list A) e o, b ++ e :: o = (b ++ [e]) ++ o.
Proof. intros. rewrite <- app_assoc. reflexivity. Qed.

Section Chan.
  Variables (size : Z) (ls : list (olbl ChanSpec.cop)) (s : ost ChanModel.cdat ChanSpec.cop ChanSpec.cres ChanSpec.caux ChanModel.cloc).
  Hypothesis H : run (chan_ord size) chan_ord_init ls = Some s.
  Lemma chan_ok : forall e p o, at_ (marks s) e p o -> ChanSpec.chan_event_ok (ChanSpec.kind_of_size size) e o.
  Proof.
    intros e p o A. destruct (ostep_run _ _ _ _ _ _ _ _ _ _ H) as (ls'&R). destruct (fine_chan size ls' (fo s) R) as (Ok&_).
    destruct (at_older _ _ _ _ _ _ _ _ _ _ _ _ _ H A) as (n&E). exact (Ok _ _ _ E).
  Qed.
End Chan.

(** Number k of the accepted values (counted from 0): everything done before it was pushed happens before everything that comes after
    the pop that takes value number k. *)
Theorem chan_push_passes_on : forall size ls s t v p o1 u w q o2, run (chan_ord size) chan_ord_init ls = Some s ->
  at_ (marks s) (EAux t (ChanSpec.APut v)) p o1 -> at_ (marks s) (ELin u ChanSpec.OPop (ChanSpec.RSome w)) q o2 ->
  length (ChanSpec.delivered o2) = length (ChanSpec.accepted o1) -> v = w /\ passes (trc s) t p u q.
Proof.
  intros size ls s t v p o1 u w q o2 H A1 A2 L. pose proof (chan_ok _ _ _ H _ _ _ A2) as K. simpl in K.
  destruct K as [(x&K&N)|(K&_)]; [injection K as <-|discriminate].
  pose proof (at_cmp _ _ _ _ _ _ _ _ _ _ A1 A2) as C.
  assert (O : length (ChanSpec.accepted o1) < length (ChanSpec.accepted o2)) by (rewrite <- L; apply nth_error_Some; congruence).
  assert (F : forall b, o1 = b ++ ELin u ChanSpec.OPop (ChanSpec.RSome w) :: o2 -> False).
  { intros b ->. pose proof (accepted_mono (b ++ [ELin u ChanSpec.OPop (ChanSpec.RSome w)]) o2) as M. rewrite <- mid in M. lia. }
  split.
  - destruct C as [C|[(C&_)|(b&C)]]; [|discriminate|exfalso; eauto].
    destruct (at_older _ _ _ _ _ _ _ _ _ _ _ _ _ H A1) as (n1&E1). destruct (at_older _ _ _ _ _ _ _ _ _ _ _ _ _ H A2) as (n2&E2).
    rewrite E1 in E2. destruct (split_lt _ _ _ _ _ _ _ _ E1 (eq_trans E1 E2) C) as (b&->).
    rewrite L in N. clear - N. revert N. induction b as [|e b IH]; simpl.
    + rewrite nth_error_app2 by lia. rewrite Nat.sub_diag. intros N. simpl in N. congruence.
    + intros N. destruct e as [| | |? [y]]; auto. apply IH. rewrite nth_error_app1 in N; auto.
      clear. induction b as [|e b IH]; simpl; [rewrite app_length; simpl; lia|]. destruct e as [| | |? []]; rewrite ?app_length; lia.
  - change t with (actor (@EAux ChanSpec.cop ChanSpec.cres ChanSpec.caux t (ChanSpec.APut v))).
    change u with (actor (@ELin ChanSpec.cop ChanSpec.cres ChanSpec.caux u ChanSpec.OPop (ChanSpec.RSome w))).
    eapply before_effect; [exact H|exact A1|exact A2|exact I|exact I|discriminate|exact F].
Qed.
Print Assumptions chan_push_passes_on.

(** Capacity n > 0: everything done before the pop of value number k happens before everything that comes after the push of value
    number k + n. *)
Theorem chan_pop_passes_on : forall size ls s t v p o1 u w q o2, (0 < size)%Z -> run (chan_ord size) chan_ord_init ls = Some s ->
  at_ (marks s) (ELin t ChanSpec.OPop (ChanSpec.RSome v)) p o1 -> at_ (marks s) (EAux u (ChanSpec.APut w)) q o2 ->
  length (ChanSpec.accepted o2) = length (ChanSpec.delivered o1) + Z.to_nat size -> passes (trc s) t p u q.
Proof.
  intros size ls s t v p o1 u w q o2 Hs H A1 A2 L. pose proof (chan_ok _ _ _ H _ _ _ A2) as K. simpl in K.
  unfold ChanSpec.kind_of_size, ChanSpec.buffered in K. destruct (Z.ltb_spec size 0); [lia|]. destruct (Z.eqb_spec size 0); [lia|].
  change u with (actor (@EAux ChanSpec.cop ChanSpec.cres ChanSpec.caux u (ChanSpec.APut w))).
  change t with (actor (@ELin ChanSpec.cop ChanSpec.cres ChanSpec.caux t ChanSpec.OPop (ChanSpec.RSome v))).
  eapply before_effect; [exact H|exact A1|exact A2|exact I|exact I|discriminate|].
  intros b ->. pose proof (delivered_mono (b ++ [EAux u (ChanSpec.APut w)]) o2) as M. rewrite <- mid in M. lia.
Qed.
Print Assumptions chan_pop_passes_on.

(** No buffer: everything done before the pop of value number k happens before everything that comes after the return of the push of
    this value, unless the channel was closed by then (then the push may return though nobody has taken the value); and before
    everything that comes after the acceptance of the next value. *)
Theorem chan_unbuffered_pop_passes_on : forall ls s t v p o1 u w q o2, run (chan_ord 0) chan_ord_init ls = Some s ->
  at_ (marks s) (ELin t ChanSpec.OPop (ChanSpec.RSome v)) p o1 -> at_ (marks s) (ELin u (ChanSpec.OPush w) ChanSpec.RTrue) q o2 ->
  ChanSpec.is_closed o2 = false -> ChanSpec.put_index o2 u = length (ChanSpec.delivered o1) -> passes (trc s) t p u q.
Proof.
  intros ls s t v p o1 u w q o2 H A1 A2 O L. pose proof (chan_ok _ _ _ H _ _ _ A2) as K. simpl in K.
  destruct K as [(_&_&K)|(K&_)]; [|discriminate]. destruct (K eq_refl) as [K'|K']; [congruence|].
  change u with (actor (@ELin ChanSpec.cop ChanSpec.cres ChanSpec.caux u (ChanSpec.OPush w) ChanSpec.RTrue)).
  change t with (actor (@ELin ChanSpec.cop ChanSpec.cres ChanSpec.caux t ChanSpec.OPop (ChanSpec.RSome v))).
  eapply before_effect; [exact H|exact A1|exact A2|exact I|exact I|discriminate|].
  intros b ->. pose proof (delivered_mono (b ++ [ELin u (ChanSpec.OPush w) ChanSpec.RTrue]) o2) as M. rewrite <- mid in M. lia.
Qed.
Print Assumptions chan_unbuffered_pop_passes_on.
Theorem chan_unbuffered_next_passes_on : forall ls s t v p o1 u w q o2, run (chan_ord 0) chan_ord_init ls = Some s ->
  at_ (marks s) (ELin t ChanSpec.OPop (ChanSpec.RSome v)) p o1 -> at_ (marks s) (EAux u (ChanSpec.APut w)) q o2 ->
  length (ChanSpec.accepted o2) = length (ChanSpec.delivered o1) + 1 -> passes (trc s) t p u q.
Proof.
  intros ls s t v p o1 u w q o2 H A1 A2 L. pose proof (chan_ok _ _ _ H _ _ _ A2) as K. simpl in K.
  unfold ChanSpec.buffered in K.
  change u with (actor (@EAux ChanSpec.cop ChanSpec.cres ChanSpec.caux u (ChanSpec.APut w))).
  change t with (actor (@ELin ChanSpec.cop ChanSpec.cres ChanSpec.caux t ChanSpec.OPop (ChanSpec.RSome v))).
  eapply before_effect; [exact H|exact A1|exact A2|exact I|exact I|discriminate|].
  intros b ->. pose proof (delivered_mono (b ++ [EAux u (ChanSpec.APut w)]) o2) as M. rewrite <- mid in M. lia.
Qed.
Print Assumptions chan_unbuffered_next_passes_on.

(** Everything done before the (first) close happens before everything that comes after a pop that finds the channel closed and empty, a
    push that is refused, or a closed() that says yes. *)
Theorem chan_close_passes_on : forall size ls s t r1 p o1 u op r q o2, run (chan_ord size) chan_ord_init ls = Some s ->
  at_ (marks s) (ELin t ChanSpec.OClose r1) p o1 -> ChanSpec.is_closed o1 = false ->
  at_ (marks s) (ELin u op r) q o2 -> tells_closed op r -> passes (trc s) t p u q.
Proof.
  intros size ls s t r1 p o1 u op r q o2 H A1 O A2 T. pose proof (chan_ok _ _ _ H _ _ _ A2) as K.
  assert (C : ChanSpec.is_closed o2 = true).
  { destruct op, r; simpl in T, K; try contradiction; try tauto.
    - destruct K as [(K&_)|(_&_&K)]; [discriminate|exact K].
    - destruct K as [(x&K&_)|(_&K&_)]; [discriminate|exact K].
    - destruct (ChanSpec.is_closed o2); congruence. }
  change u with (actor (@ELin ChanSpec.cop ChanSpec.cres ChanSpec.caux u op r)).
  change t with (actor (@ELin ChanSpec.cop ChanSpec.cres ChanSpec.caux t ChanSpec.OClose r1)).
  eapply before_effect; [exact H|exact A1|exact A2|exact I|exact I| |].
  - intros E. injection E as <- <- <-. destruct r1; contradiction.
  - intros b ->. rewrite mid, (closed_mono _ _ C) in O. discriminate.
Qed.
Print Assumptions chan_close_passes_on.

(** Capacity 1: 1 writes x0 and pushes 10, 3 pushes 20 and has to wait; 2 writes x1 and pops 10, so 3 goes on; 1 closes; 2 pops 20 and finds
    the channel closed.  2 reads x0 and 3 reads x1. *)
Definition chan_ord_run : list (olbl ChanSpec.cop) :=
  [OUse 1 0 true; OUse 2 1 true] ++ wrap (rounds ChanModel.chan_entry (ChanModel.chan_body (ChanSpec.kind_of_size 1)) chan_fine_init
    [([(1, ChanSpec.OPush 10); (3, ChanSpec.OPush 20)], [1; 3]); ([(2, ChanSpec.OPop)], [2; 3; 1]); ([(1, ChanSpec.OClose)], [1]);
     ([(2, ChanSpec.OPop)], [2]); ([(2, ChanSpec.OPop)], [2])]) ++ [OUse 2 0 false; OUse 3 1 false].
Example chan_passes_on_case : exists s o1 o2 o3 o4 o5, run (chan_ord 1) chan_ord_init chan_ord_run = Some s /\
  at_ (marks s) (EAux 1 (ChanSpec.APut 10)) 7 o1 /\ at_ (marks s) (ELin 2 ChanSpec.OPop (ChanSpec.RSome 10)) 42 o2 /\
  at_ (marks s) (EAux 3 (ChanSpec.APut 20)) 62 o3 /\
  at_ (marks s) (ELin 1 ChanSpec.OClose ChanSpec.ROk) 76 o4 /\ at_ (marks s) (ELin 2 ChanSpec.OPop ChanSpec.RNone) 111 o5 /\
  length (ChanSpec.delivered o2) = length (ChanSpec.accepted o1) /\
  length (ChanSpec.accepted o3) = length (ChanSpec.delivered o2) + Z.to_nat 1 /\ ChanSpec.is_closed o4 = false /\
  nth_error (trc s) 0 = Some (mkEv 1 (KWr (OCl 0))) /\ nth_error (trc s) 118 = Some (mkEv 2 (KRd (OCl 0))) /\
  nth_error (trc s) 1 = Some (mkEv 2 (KWr (OCl 1))) /\ nth_error (trc s) 119 = Some (mkEv 3 (KRd (OCl 1))).
Proof.
  eexists. eexists. eexists. eexists. eexists. eexists. split; [vm_compute; reflexivity|].
  split; [apply at_nth with (i := 17); reflexivity|]. split; [apply at_nth with (i := 13); reflexivity|].
  split; [apply at_nth with (i := 11); reflexivity|]. split; [apply at_nth with (i := 7); reflexivity|].
  split; [apply at_nth with (i := 1); reflexivity|]. repeat split; reflexivity.
Qed.
(** No buffer: 1 pushes, 2 writes x0 and pops, 1 returns and reads x0; then the value of 3 is accepted. *)
Definition rdv_ord_run : list (olbl ChanSpec.cop) :=
  [OUse 2 0 true] ++ wrap (rounds ChanModel.chan_entry (ChanModel.chan_body (ChanSpec.kind_of_size 0)) chan_fine_init
    [([(1, ChanSpec.OPush 10); (2, ChanSpec.OPop)], [1; 2]); ([(3, ChanSpec.OPush 20)], [3])]) ++ [OUse 1 0 false].
Example chan_unbuffered_passes_on_case : exists s o1 o2 o3, run (chan_ord 0) chan_ord_init rdv_ord_run = Some s /\
  at_ (marks s) (ELin 2 ChanSpec.OPop (ChanSpec.RSome 10)) 30 o1 /\ at_ (marks s) (ELin 1 (ChanSpec.OPush 10) ChanSpec.RTrue) 50 o2 /\
  at_ (marks s) (EAux 3 (ChanSpec.APut 20)) 61 o3 /\
  ChanSpec.is_closed o2 = false /\ ChanSpec.put_index o2 1 = length (ChanSpec.delivered o1) /\
  length (ChanSpec.accepted o3) = length (ChanSpec.delivered o1) + 1 /\
  nth_error (trc s) 0 = Some (mkEv 2 (KWr (OCl 0))) /\ nth_error (trc s) 76 = Some (mkEv 1 (KRd (OCl 0))).
Proof.
  eexists. eexists. eexists. eexists. split; [vm_compute; reflexivity|].
  split; [apply at_nth with (i := 5); reflexivity|]. split; [apply at_nth with (i := 3); reflexivity|].
  split; [apply at_nth with (i := 0); reflexivity|]. repeat split; reflexivity.
Qed.
