(** How coroutines are shared out among threads.  A thread is described by a number, a state, marks, and its coroutines, each
    with a mark saying whether it may be moved to another thread.  Histories have their newest event first. *)
From Coq Require Import List Arith Bool.
Import ListNotations.

Inductive mstate := MCreated | MIdle | MBusy | MBlocked | MDestroying.
Record thr := mkT {
  tid : nat;
  tst : mstate;
  texcl : bool;    (* for the use of certain coroutines only *)
  tself : bool;    (* does not run a scheduler: a thread of the program *)
  tconv : bool;    (* made from a thread of the program *)
  tkeep : bool;    (* not to be reclaimed *)
  tswd : bool;     (* has made a scheduling decision since the last look *)
  tctx : list (nat * bool)
}.

(** The thread can be given coroutines. *)
Definition usable (t : thr) : Prop := tst t <> MBlocked /\ tst t <> MDestroying /\ tself t = false.
Definition eligible (t : thr) : Prop := usable t /\ texcl t = false.
Definition load (t : thr) : nat := length (tctx t).

(** Where a new coroutine goes: to thread t, or to a new one. *)
Inductive choice := Old (t : thr) | New.
(** An idle thread if there is one; otherwise a least loaded eligible thread or a new one. *)
Definition good_choice (l : list thr) (r : choice) : Prop :=
  match r with
  | Old t => In t l /\ (tst t = MIdle \/
      ((forall u, In u l -> tst u <> MIdle) /\ eligible t /\ forall u, In u l -> eligible u -> load t <= load u))
  | New => forall u, In u l -> tst u <> MIdle
  end.

(** A thread that may be reclaimed. *)
Definition reclaimable (t : thr) : Prop := tst t = MIdle /\ tctx t = [] /\ tconv t = false /\ tkeep t = false /\ tself t = false.

(** A thread that is stuck in a system call: it should be switching but has not. *)
Definition hung (t : thr) : Prop := (tst t = MBusy \/ tst t = MBlocked) /\ tswd t = false.

Inductive xev :=
| XBest (k c e : nat)  (* call k, creating coroutine c, chooses thread e *)
| XMade (k c : nat)    (* it returns *)
| XThrow (k c : nat)   (* it fails *)
| XStop (e : nat)      (* thread e is told to end, being surplus *)
| XRun (e c : nat)     (* thread e runs coroutine c to its end *)
| XLost (e c : nat).   (* thread e destroys coroutine c which has not run to its end *)
Definition xhist := list xev.
(** The thread and coroutine of the last choice of call k. *)
Fixpoint chosen (k : nat) (H : xhist) : option (nat * nat) :=
  match H with
  | [] => None
  | XBest k' c e :: r => if k =? k' then Some (c, e) else chosen k r
  | _ :: r => chosen k r
  end.
(** Thread e was told to end after the last choice of call k. *)
Fixpoint stopped_since (k e : nat) (H : xhist) : bool :=
  match H with
  | [] => false
  | XBest k' _ _ :: r => if k =? k' then false else stopped_since k e r
  | XStop e' :: r => (e =? e') || stopped_since k e r
  | _ :: r => stopped_since k e r
  end.

(** ** Moving coroutines between threads *)
(** The coroutines of all threads, with their marks. *)
Definition all_ctx (l : list thr) : list (nat * bool) := flat_map tctx l.
(** Those that must stay where they are, in order. *)
Definition pinned (t : thr) : list (nat * bool) := filter (fun c => negb (snd c)) (tctx t).
(** The same thread, perhaps with another state and other coroutines. *)
Definition same_thr (t u : thr) : Prop :=
  tid u = tid t /\ texcl u = texcl t /\ tself u = tself t /\ tconv u = tconv t /\ tkeep u = tkeep t.
(** What stealing may do to a thread ([free]: the threads whose lock was obtained and that nobody else holds): only threads
    in [free] are touched, only idle ones that are not exclusive gain a coroutine, and they become busy. *)
Definition stealing_ok (free : nat -> Prop) (t u : thr) : Prop :=
  same_thr t u /\ pinned u = pinned t /\ (tctx u = tctx t \/ free (tid t)) /\
  (incl (tctx u) (tctx t) \/ (tst t = MIdle /\ texcl t = false)) /\
  (tst u = tst t \/ (tst t = MIdle /\ texcl t = false /\ tst u = MBusy)).
(** What redistribution may do to a thread: it loses coroutines only if it hangs and is in [free], and is then marked
    blocked; it gains some only if it was idle or eligible. *)
Definition sharing_ok (free : nat -> Prop) (t u : thr) : Prop :=
  same_thr t u /\ pinned u = pinned t /\
  (incl (tctx t) (tctx u) \/ (hung t /\ free (tid t) /\ tctx u = pinned t /\ tst u = MBlocked)) /\
  (incl (tctx u) (tctx t) \/ tst t = MIdle \/ eligible t) /\
  (tst u = tst t \/ (tst u = MBlocked /\ hung t /\ free (tid t)) \/ (tst u = MBusy /\ (tst t = MIdle \/ eligible t))).
(** A thread made during redistribution. *)
Definition made_ok (n : nat) (u : thr) : Prop :=
  n <= tid u /\ tst u = MBusy /\ texcl u = false /\ tself u = false /\ tconv u = false /\ tkeep u = false /\
  tctx u <> [] /\ pinned u = [].
