(** What timers promise, as conditions on a history (newest first). Times are readings of the clock. *)
From Coq Require Import List Arith.
Import ListNotations.

(** Timer t is started and due at e; a call of start finds it running, due at e; stop returns; the timer thread launches
    the callback; the callback begins; the timer thread goes to sleep. *)
Inductive tev := KStart (t e : nat) | KAgain (t e : nat) | KStop (t : nat) | KFire (t n : nat) | KRun (t n : nat) | KSleep (n : nat).
Definition thist := list tev.

(** Started, and neither launched nor stopped since: when it is due.  A call of start on a running timer changes nothing. *)
Fixpoint pend (t : nat) (H : thist) : option nat :=
  match H with
  | [] => None
  | KStart u e :: r => if t =? u then Some e else pend t r
  | KStop u :: r => if t =? u then None else pend t r
  | KFire u _ :: r => if t =? u then None else pend t r
  | _ :: r => pend t r
  end.
(** The same where every call of start counts. *)
Fixpoint wanted (t : nat) (H : thist) : option nat :=
  match H with
  | [] => None
  | KStart u e :: r | KAgain u e :: r => if t =? u then Some e else wanted t r
  | KStop u :: r => if t =? u then None else wanted t r
  | KFire u _ :: r => if t =? u then None else wanted t r
  | _ :: r => wanted t r
  end.
(** Callbacks launched and not begun. *)
Fixpoint launched (t : nat) (H : thist) : nat :=
  match H with
  | [] => 0
  | KFire u _ :: r => if t =? u then S (launched t r) else launched t r
  | KRun u _ :: r => if t =? u then launched t r - 1 else launched t r
  | _ :: r => launched t r
  end.
(** C47: a callback is launched only for a pending timer (once per start) and when it is due; it begins only when launched, once,
    and not before the due time of the start it was launched for. *)
Definition never_early (H : thist) : Prop :=
  (forall post t n pre, H = post ++ KFire t n :: pre -> exists e, pend t pre = Some e /\ e <= n) /\
  (forall post t n pre, H = post ++ KRun t n :: pre -> launched t pre > 0 /\ forall m, In (KFire t m) pre -> m <= n).
(** C48: when the timer thread goes to sleep, no started timer that is due is left. *)
Definition all_fired (H : thist) : Prop := forall post n pre, H = post ++ KSleep n :: pre -> forall t e, wanted t pre = Some e -> n < e.
Definition all_pending_fired (H : thist) : Prop := forall post n pre, H = post ++ KSleep n :: pre -> forall t e, pend t pre = Some e -> n < e.
(** No timer is started for a time another one is pending for. *)
Definition distinct (H : thist) : Prop := forall post t e pre, H = post ++ KStart t e :: pre -> forall u, u <> t -> pend u pre <> Some e.
(** Whether timer t has been started since it was stopped last. *)
Fixpoint stopped (t : nat) (H : thist) : bool :=
  match H with
  | [] => false
  | KStart u _ :: r | KAgain u _ :: r => if t =? u then false else stopped t r
  | KStop u :: r => if t =? u then true else stopped t r
  | _ :: r => stopped t r
  end.
(** C49: after stop has returned the callback does not begin (not even: is not launched) before the next start. *)
Definition stop_final (H : thist) : Prop := forall post t n pre, H = post ++ KRun t n :: pre -> stopped t pre = false.
Definition stop_final_launch (H : thist) : Prop := forall post t n pre, H = post ++ KFire t n :: pre -> stopped t pre = false.

(** Periodic timers.  Launched, and neither started nor stopped since. *)
Fixpoint unserved (t : nat) (H : thist) : bool :=
  match H with
  | [] => false
  | KFire u _ :: r => if t =? u then true else unserved t r
  | KStart u _ :: r | KStop u :: r => if t =? u then false else unserved t r
  | _ :: r => unserved t r
  end.
(** The last launch, unless the timer has been stopped since. *)
Fixpoint lastfire (t : nat) (H : thist) : option nat :=
  match H with
  | [] => None
  | KFire u n :: r => if t =? u then Some n else lastfire t r
  | KStop u :: r => if t =? u then None else lastfire t r
  | _ :: r => lastfire t r
  end.
(** C48 for a timer of period i: it is started again before the timer thread sleeps; C47: a period lies between launches. *)
Definition periodic (t i : nat) (H : thist) : Prop :=
  (forall post n pre, H = post ++ KSleep n :: pre -> unserved t pre = false) /\
  (forall post n pre m, H = post ++ KFire t n :: pre -> lastfire t pre = Some m -> m + i <= n).
