(** Property C05: co_recursive_mutex. *)
From Coq Require Import List Arith Bool NArith.
From Verif Require Import Base LinSpec MutexSpec RecMutexSpec SpinObj SpinObjProofs RecMutexModel RecMutexProofs.
Import ListNotations.

Definition runs (t : tid) (n : nat) (b : bool) : list (slbl mop) := repeat (SRun t b) n.

(** 1 locks twice (nested); 2 calls lock(), spins once, runs out of time and parks; 3 parks at
    once; 1's third acquisition (try_lock) succeeds, 1 unlocks twice (2 stays parked), then a third time: hand-off to
    2, which returns; 1's fourth unlock() throws. *)
Definition rdemo : list (slbl mop) :=
  [SCall 1 OLock] ++ runs 1 3 false ++ [SCall 1 OLock] ++ runs 1 3 false ++
  [SCall 2 OLock] ++ runs 2 5 false ++ runs 2 3 true ++
  [SCall 3 OLock] ++ runs 3 4 true ++
  [SCall 1 OTry] ++ runs 1 3 false ++
  [SCall 1 OUnlock] ++ runs 1 3 false ++ [SCall 1 OUnlock] ++ runs 1 3 false ++
  [SCall 1 OUnlock] ++ runs 1 4 false ++ runs 2 4 false ++
  [SCall 1 OUnlock] ++ runs 1 3 false.

Lemma shallow_compute : forall s ls, run rstep rinit ls = Some s ->
  (match run rstep rinit ls with Some s' => shallow (fhist s') | None => False end) -> shallow (fhist s).
Proof. intros s ls E. now rewrite E. Qed.

Example rdemo_ok :
  option_map (fun s => (ro (fdat s), rq (fdat s), depth (fhist s) 2, hd_error (fhist s))) (run rstep rinit rdemo)
  = Some (Some 2, [3], 1%N, Some (ERet 1 OUnlock RThrow))
  /\ (forall s, run rstep rinit rdemo = Some s -> shallow (fhist s)).
Proof.
  split; [vm_compute; reflexivity|]. intros s H. eapply shallow_compute; [exact H|].
  vm_compute. repeat split.
Qed.

(** It is a linearizable recursive mutex: each call takes effect at one instant; the depth
    goes up by one per successful lock()/try_lock() and down by one per unlock(), and the mutex becomes free
    (or goes to the first in line) exactly when the depth reaches 0. *)
Theorem rec_mutex_linearizable : forall ls s,
  run rstep rinit ls = Some s -> shallow (fhist s) -> rec_linearizable (fhist s).
Proof.
  intros ls s Hr Hs. destruct (rec_reach ls s Hr Hs) as (a&HR&HI). rewrite (r_hist HR). now apply rec_lin.
Qed.
Print Assumptions rec_mutex_linearizable.

Theorem rec_mutex_exclusion : forall ls s t u,
  run rstep rinit ls = Some s -> shallow (fhist s) ->
  (0 < depth (fhist s) t)%N -> (0 < depth (fhist s) u)%N -> t = u.
Proof.
  intros ls s t u Hr Hs. destruct (rec_reach ls s Hr Hs) as (a&HR&HI). rewrite (r_hist HR). now apply rec_exclusion.
Qed.
Print Assumptions rec_mutex_exclusion.
Example rec_mutex_exclusion_ex :
  option_map (fun s => (depth (fhist s) 1, depth (fhist s) 2)) (run rstep rinit (firstn 26 rdemo)) = Some (3%N, 0%N).
Proof. vm_compute. reflexivity. Qed.

(** Balance: for a coroutine outside the methods, "I have n unmatched successful locks" and
    "the mutex is mine at depth n" are the same. *)
Theorem rec_mutex_balanced : forall ls s t n,
  run rstep rinit ls = Some s -> shallow (fhist s) ->
  phase_of mop_eqb mres_eqb (fhist s) t = Some PIdle -> (0 < n)%N ->
  (depth (fhist s) t = n <-> rec_state (fhist s) = Some (Some (t, n))).
Proof.
  intros ls s t n Hr Hs. destruct (rec_reach ls s Hr Hs) as (a&HR&HI). rewrite (r_hist HR).
  intros Hp Hn. now apply rec_depth_exact.
Qed.
Print Assumptions rec_mutex_balanced.
Example rec_mutex_balanced_ex :
  option_map (fun s => (depth (fhist s) 1, rec_state (fhist s))) (run rstep rinit (firstn 30 rdemo))
  = Some (2%N, Some (Some (1, 2%N))).
Proof. vm_compute. reflexivity. Qed.

(** unlock() by the holder returns normally, by anybody else it throws. *)
Theorem rec_mutex_unlock_owner_only : forall ls s,
  run rstep rinit ls = Some s -> shallow (fhist s) -> rec_unlocks_ok (fhist s).
Proof.
  intros ls s Hr Hs. destruct (rec_reach ls s Hr Hs) as (a&HR&HI). rewrite (r_hist HR). now apply i_un.
Qed.
Print Assumptions rec_mutex_unlock_owner_only.

(** A throwing unlock() changes nothing: its block leaves the data and the wait marks alone. *)
Theorem rec_mutex_throwing_unlock_inert : forall s t b s',
  fpcs s t = FIn OUnlock RUn -> ro (fdat s) <> Some t -> rstep s (SRun t b) = Some s' ->
  fdat s' = fdat s /\ fmark s' = fmark s /\
  exists s'', rstep s' (SRun t b) = Some s'' /\ fdat s'' = fdat s /\ fmark s'' = fmark s /\
              hd_error (fhist s'') = Some (ERet t OUnlock RThrow).
Proof.
  intros s t b s' Hp Ho Hs. unfold rstep, fstep in Hs. rewrite Hp in Hs. cbn [rseg] in Hs.
  rewrite (proj2 (owns_false _ _) Ho) in Hs. injection Hs as <-. cbn [fdat fmark].
  split; [reflexivity|]. split; [reflexivity|]. eexists.
  unfold rstep, fstep. cbn [fpcs]. rewrite upd_same. split; [reflexivity|]. auto.
Qed.
Print Assumptions rec_mutex_throwing_unlock_inert.
Example rec_mutex_throwing_unlock_inert_ex :
  option_map (fun s => (fpcs s 1, ro (fdat s))) (run rstep rinit (firstn 45 rdemo)) = Some (FIn OUnlock RUn, Some 2).
Proof. vm_compute. reflexivity. Qed.

(** The holder never has to wait when it locks again: it is not in line, not marked as waiting,
    and as soon as it has the internal spin lock its lock() succeeds (the next step goes to the return). *)
Theorem rec_mutex_reentrant : forall ls s t q,
  run rstep rinit ls = Some s -> shallow (fhist s) -> (0 < depth (fhist s) t)%N ->
  rline (fhist s) = Some q ->
  ~ In t q /\ fmark s t = false /\
  (forall o l b, fpcs s t = FIn o l -> o <> OUnlock ->
     exists s' r, rstep s (SRun t b) = Some s' /\ fpcs s' t = FUn o [] r /\ (r = ROk \/ r = RTrue)).
Proof.
  intros ls s t q Hr Hs Hd Hq. destruct (rec_reach ls s Hr Hs) as (a&HR&HI). rewrite (r_hist HR) in *.
  destruct (rec_holder_not_parked a t HI Hd) as [H1 H2]. rewrite (i_line a HI) in Hq. injection Hq as <-.
  pose proof (i_thr a HI t) as HT. pose proof (r_thr HR t) as Ht.
  assert (Hnp : forall o l, athr a t <> AParked o l).
  { intros o l E. rewrite E in HT. simpl in HT. destruct HT as (_&_&E0&_). rewrite E0 in Hd. discriminate. }
  split; [exact H1|]. split.
  - destruct (fmark s t) eqn:Em; [|reflexivity]. exfalso. pose proof (r_mark1 HR t Em) as Hf.
    destruct (fpcs s t) as [|o l|o l|o l|o l|o l|o l|o l|o gr r] eqn:E; try discriminate; now apply (Hnp o l).
  - intros o l b E Ho. rewrite E in Ht. simpl in Ht. destruct Ht as [Ht|[Ht _]]; [|now apply Hnp in Ht].
    rewrite Ht in HT. simpl in HT. destruct HT as (_&_&_&HT).
    assert (How : forall n, depth (ahist a) t = dd (adat a) t /\ n -> ro (fdat s) = Some t).
    { intros n [Ed _]. rewrite Ed in Hd. unfold dd in Hd. rewrite (r_dat HR). apply owns_true.
      destruct (owns (adat a) t); [reflexivity|discriminate]. }
    unfold rstep, fstep. rewrite E. destruct l; cbn [rseg].
    + destruct HT as (->&HT). rewrite (How _ HT), Nat.eqb_refl. cbn. eexists; eexists. split; [reflexivity|].
      cbn [fpcs]. rewrite upd_same. auto.
    + destruct HT as (_&E0&_). rewrite E0 in Hd. discriminate.
    + contradiction.
    + destruct HT as (->&HT). rewrite (How _ HT), Nat.eqb_refl. cbn. eexists; eexists. split; [reflexivity|].
      cbn [fpcs]. rewrite upd_same. auto.
    + destruct HT as (->&_). congruence.
Qed.
Print Assumptions rec_mutex_reentrant.
Example rec_mutex_reentrant_ex :
  option_map (fun s => (fpcs s 1, depth (fhist s) 1, rline (fhist s))) (run rstep rinit (firstn 24 rdemo))
  = Some (FIn OTry RTryL, 2%N, Some [2; 3]).
Proof. vm_compute. reflexivity. Qed.

(** Parked coroutines are served in parking order, nobody overtakes them. *)
Theorem rec_mutex_fifo : forall ls s,
  run rstep rinit ls = Some s -> shallow (fhist s) -> rline (fhist s) <> None.
Proof.
  intros ls s Hr Hs. destruct (rec_reach ls s Hr Hs) as (a&HR&HI). rewrite (r_hist HR), (i_line a HI). discriminate.
Qed.
Print Assumptions rec_mutex_fifo.
Example rec_mutex_fifo_ex :
  option_map (fun s => rline (fhist s)) (run rstep rinit (firstn 36 rdemo)) = Some (Some [2; 3]) /\
  option_map (fun s => rline (fhist s)) (run rstep rinit rdemo) = Some (Some [3]).
Proof. vm_compute. auto. Qed.

(** Nobody is forgotten: when nothing inside can move, everybody inside is in lock(), in line,
    behind a coroutine that holds the mutex and is outside. *)
Theorem rec_mutex_no_lost_wakeup : forall ls s,
  run rstep rinit ls = Some s -> shallow (fhist s) -> (forall t b, rstep s (SRun t b) = None) ->
  forall t, phase_of mop_eqb mres_eqb (fhist s) t <> Some PIdle ->
  phase_of mop_eqb mres_eqb (fhist s) t = Some (PPending OLock) /\
  (exists q, rline (fhist s) = Some q /\ In t q) /\
  exists o, (0 < depth (fhist s) o)%N /\ phase_of mop_eqb mres_eqb (fhist s) o = Some PIdle.
Proof.
  intros ls s Hr Hs HQ. destruct (rec_reach ls s Hr Hs) as (a&HR&HI).
  pose proof (quiet_transfer HR HQ) as HQ'. rewrite (r_hist HR). intros t Hp.
  destruct (rec_quiet a HI HQ' t Hp) as (H1&H2&H3). repeat split; auto.
  exists (rq (adat a)). split; [apply (i_line a HI)|exact H2].
Qed.
Print Assumptions rec_mutex_no_lost_wakeup.
Example rec_mutex_no_lost_wakeup_ex :
  option_map (fun s => (fpcs s 3, fmark s 3, phase_of mop_eqb mres_eqb (fhist s) 3)) (run rstep rinit rdemo)
  = Some (FPark OLock RLoop, true, Some (PPending OLock)).
Proof. vm_compute. reflexivity. Qed.

(** The bound is needed: with the counter at its maximum one more lock() by the holder
    makes the counter 0. *)
Theorem rec_mutex_counter_wraps : exists d l,
  rseg 1 OLock RFirst false (mkRd (Some 1) (2 ^ 64 - 1) []) = SFin d l [] ROk /\ rn d = 0%N.
Proof. eexists; eexists. split; [vm_compute; reflexivity|reflexivity]. Qed.
Print Assumptions rec_mutex_counter_wraps.
