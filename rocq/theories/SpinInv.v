(** Reusable invariant of a test-and-set spin lock (co_spinlock.cpp 12-28):
    [cs t] says that coroutine [t] is between a successful test_and_set and clear. *)
From Coq Require Import List Arith Bool.
From Verif Require Import Base.

Definition spin_inv (spin : bool) (cs : tid -> bool) : Prop :=
  (forall t, cs t = true -> spin = true) /\
  (forall t u, cs t = true -> cs u = true -> t = u) /\
  (spin = true -> exists t, cs t = true).

(** The three ways a step of [t] can touch the lock: not at all, acquire, release. *)
Inductive spin_move (a b : bool) (ct ct' : bool) : Prop :=
| sm_stay : a = b -> ct = ct' -> spin_move a b ct ct'
| sm_acq : a = false -> b = true -> ct = false -> ct' = true -> spin_move a b ct ct'
| sm_rel : b = false -> ct = true -> ct' = false -> spin_move a b ct ct'.

Lemma spin_inv_step : forall a b cs cs' t,
  spin_inv a cs -> (forall u, u <> t -> cs' u = cs u) ->
  spin_move a b (cs t) (cs' t) -> spin_inv b cs'.
Proof.
  intros a b cs cs' t (H1&H2&H3) Hf [Ha Hc|Ha Hb Hc Hc'|Hb Hc Hc'].
  - subst b. assert (He : forall u, cs' u = cs u).
    { intro u. destruct (Nat.eq_dec u t) as [->|Hn]; auto. }
    split; [|split].
    + intros u Hu. rewrite He in Hu; eauto.
    + intros u v Hu Hv. rewrite He in Hu, Hv; eauto.
    + intros Hs. destruct (H3 Hs) as [u Hu]. exists u. now rewrite He.
  - split; [|split]; auto.
    + intros u v Hu Hv.
      destruct (Nat.eq_dec u t) as [->|Hn], (Nat.eq_dec v t) as [->|Hm]; auto; exfalso.
      * rewrite Hf in Hv by assumption. rewrite (H1 _ Hv) in Ha; discriminate.
      * rewrite Hf in Hu by assumption. rewrite (H1 _ Hu) in Ha; discriminate.
      * rewrite Hf in Hu by assumption. rewrite (H1 _ Hu) in Ha; discriminate.
    + intros _; exists t; assumption.
  - split; [|split].
    + intros u Hu. exfalso. destruct (Nat.eq_dec u t) as [->|Hn]; [congruence|].
      rewrite Hf in Hu by assumption. apply Hn; eauto.
    + intros u v Hu Hv. exfalso. destruct (Nat.eq_dec u t) as [->|Hn]; [congruence|].
      rewrite Hf in Hu by assumption. apply Hn; eauto.
    + intro; congruence.
Qed.

Lemma spin_inv_excl : forall a cs t u, spin_inv a cs -> cs t = true -> u <> t -> cs u = false.
Proof.
  intros a cs t u (_&H2&_) Ht Hn. destruct (cs u) eqn:E; auto. exfalso; apply Hn; eauto.
Qed.
