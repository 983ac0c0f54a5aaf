(** Vocabulary of C89-C91: what can be observed when a fatal signal is delivered.  Histories are NEWEST FIRST.  Nothing here
    refers to the model. *)
From Coq Require Import List Arith.
From Verif Require Import HistSpec ShutSpec.
Import ListNotations.

(** Signal n reached thread t; t printed its number; t began a report; t printed section k of it; t noticed that a report was
    already under way; t called exit; the process ended with a code. *)
Inductive cev := WSig (t : thr) (n : nat) | WLine (t : thr) (n : nat) | WBegin (t : thr) | WSec (t : thr) (k : nat) | WAgain (t : thr) (n : nat)
  | WExit (t : thr) | WEnd (code : nat).
(** The sections: time, registers, maps, backtrace, coroutines. *)
Definition sections : nat := 5.

(** The signals that were delivered. *)
Definition signals (h : list cev) : list (thr * nat) := flat_map (fun v => match v with WSig t n => [(t, n)] | _ => [] end) h.
(** The sections thread t has printed, newest first. *)
Definition printed (t : thr) (h : list cev) : list nat :=
  flat_map (fun v => match v with WSec u k => if thr_eq u t then [k] else [] | _ => [] end) h.
(** Thread t has printed the whole report, in order and nothing twice. *)
Definition reported (t : thr) (h : list cev) : Prop := printed t h = rev (seq 0 sections).
(** The process has ended. *)
Definition ended (h : list cev) : Prop := exists c, In (WEnd c) h.

(** C89: when the process ends, it does so once, with the code of a delivered signal. *)
Definition end_code (h : list cev) : Prop :=
  always_at (fun v old => match v with WEnd c => ~ ended old /\ exists t n, In (t, n) (signals old) /\ c = 128 - n | _ => True end) h.
(** And when it ends the report is complete. *)
Definition end_reported (h : list cev) : Prop :=
  always_at (fun v old => match v with WEnd c => exists t n, In (t, n) (signals old) /\ c = 128 - n /\ reported t old | _ => True end) h.
(** If the report is not complete when the process ends, then a second signal came. *)
Definition end_cut (h : list cev) : Prop :=
  always_at (fun v old => match v with
    | WEnd c => (exists t n, In (t, n) (signals old) /\ c = 128 - n /\ reported t old) \/ exists t n, In (WAgain t n) old /\ c = 128 - n /\ 2 <= length (signals old)
    | _ => True end) h.
(** Every signal after the first comes when a report has begun. *)
Definition spaced (h : list cev) : Prop :=
  always_at (fun v old => match v with WSig _ _ => signals old = [] \/ exists t, In (WBegin t) old | _ => True end) h.
(** exit is called at most once. *)
Definition exit_once (h : list cev) : Prop :=
  always_at (fun v old => match v with WExit _ => forall t, ~ In (WExit t) old | _ => True end) h.
