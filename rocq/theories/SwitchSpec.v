(** Vocabulary for the properties of the scheduling loop of one co_env (C45, C46, C72): the events of one scheduling thread,
    newest first, and what is said about them.  Context 0 is the idle context of the env, the others are coroutines. *)
From Coq Require Import List Arith Bool.
Import ListNotations.

(** Where the stack contents of a coroutine are: in its own stack, on the shared stack, or in a saved copy. *)
Inductive place := Own | OnShared | Saved.
(** Coroutine [c] was created here; given up by its handle; the code of context [c] starts or goes on; coroutine [c] has
    ended; [c] was destroyed; the stack of [c] was shrunk while its contents were in [l]; a voluntary switch from context
    [f] to context [t]; a signal took the thread away from the code of context [o]. *)
Inductive wev := WNew (c : nat) | WDet (c : nat) | WRun (c : nat) | WFin (c : nat) | WReap (c : nat)
               | WShrink (c : nat) (l : place) | WSwitch (f t : nat) | WSig (o : nat).

(** How often the code of [c] was started or continued. *)
Definition is_run (c : nat) (e : wev) : bool := match e with WRun d => d =? c | _ => false end.
Definition turns (c : nat) (h : list wev) : nat := length (filter (is_run c) h).
(** [c] is on its first turn: it has been started and never continued. *)
Definition first_turn (c : nat) (h : list wev) : Prop := turns c h = 1.
(** Whose code runs: the last one started or continued; at first the idle context. *)
Fixpoint last_run (h : list wev) : nat := match h with [] => 0 | WRun c :: _ => c | _ :: r => last_run r end.

(** What the events before an event must have been ([r], newest first). *)
Definition event_ok (e : wev) (r : list wev) : Prop :=
  match e with
  | WNew c => c <> 0 /\ ~ In (WNew c) r
  | WDet c => In (WNew c) r /\ ~ In (WReap c) r
  (* a coroutine runs only between its creation and its end *)
  | WRun c => c = 0 \/ (In (WNew c) r /\ ~ In (WFin c) r /\ ~ In (WReap c) r)
  (* it ends once, and by running *)
  | WFin c => c <> 0 /\ last_run r = c /\ ~ In (WFin c) r
  (* it is destroyed once, after its end, when nobody holds a handle, and not while it runs *)
  | WReap c => In (WFin c) r /\ In (WDet c) r /\ ~ In (WReap c) r /\ last_run r <> c
  | WShrink c _ => ~ In (WReap c) r
  (* only the context that runs can give up the thread, or have it taken away *)
  | WSwitch f t => last_run r = f /\ ~ In (WReap t) r
  | WSig o => last_run r = o
  end.
