(** Vocabulary of C75-C78: what can be observed of the life of the manager's environments and of its shutdown.  Histories are
    NEWEST FIRST.  Nothing here refers to the model. *)
From Coq Require Import List PeanoNat.
From Verif Require Import HistSpec.
Import ListNotations.

(** Threads: the three background threads of the manager, the thread that destroys the manager, the threads of the client, and
    the scheduling thread that was started for environment e. *)
Inductive thr := TCleaner | TMonitor | TTimer | TDestroyer | TUser (n : nat) | TWorker (e : nat).
(** Equality of threads. *)
Definition thr_eq (x y : thr) : {x = y} + {x <> y}. Proof. decide equality; apply PeanoNat.Nat.eq_dec. Defined.

(** Thread t made environment e, with a thread of its own (w) or for t itself; t told e to stop; e was put among those to be
    destroyed; e was destroyed; t used e in any other way; t used the manager's set of environments; the scheduling of e is
    over and its thread no longer uses it; the cleaner is ready; the destruction of the manager began; it ended. *)
Inductive sev := VMake (t : thr) (e : nat) (w : bool) | VTold (t : thr) (e : nat) | VExp (e : nat) | VFree (e : nat)
  | VUse (t : thr) (e : nat) | VMgr (t : thr) | VEnd (e : nat) | VReady | VClean | VReturn.

(** C75: the destructor returned. *)
Definition returned (h : list sev) : Prop := In VReturn h.
Definition begun (h : list sev) : Prop := In VClean h.

(** C76: destroyed at most once, after having been made and taken out of service, and not before its own thread is through. *)
Definition destroyed_well (h : list sev) : Prop :=
  always_at (fun v old => match v with
    | VFree e => ~ In (VFree e) old /\ In (VExp e) old /\ (exists t w, In (VMake t e w) old) /\
                 (forall t, In (VMake t e true) old -> In (VEnd e) old)
    | _ => True
    end) h.
(** Every environment is taken out of service at most once. *)
Definition expired_once (h : list sev) : Prop :=
  always_at (fun v old => match v with VExp e => ~ In (VExp e) old /\ ~ In (VFree e) old | _ => True end) h.

(** C77: what uses environment e, and who. *)
Definition use_of (v : sev) : option (thr * nat) :=
  match v with VUse t e | VTold t e => Some (t, e) | _ => None end.
Definition no_use_after_free (h : list sev) : Prop :=
  always_at (fun v old => forall t e, use_of v = Some (t, e) -> ~ In (VFree e) old) h.
(** Thread t used e after e was destroyed. *)
Definition used_after_free (t : thr) (e : nat) (h : list sev) : Prop :=
  exists newer v older, h = newer ++ v :: older /\ use_of v = Some (t, e) /\ In (VFree e) older.
(** Every use of a destroyed environment is by the thread it was made for. *)
Definition only_own_use (h : list sev) : Prop :=
  always_at (fun v old => forall t e, use_of v = Some (t, e) -> In (VFree e) old -> In (VMake t e false) old) h.

(** C78: when the destructor returns, every environment that was made has been destroyed; afterwards nobody uses the manager. *)
Definition all_destroyed (h : list sev) : Prop :=
  always_at (fun v old => match v with VReturn => forall t e w, In (VMake t e w) old -> In (VFree e) old | _ => True end) h.
Definition manager_unused (h : list sev) : Prop :=
  always_at (fun v old => match v with VMgr _ => ~ In VReturn old | _ => True end) h.
(** The threads of the manager itself. *)
Definition service (t : thr) : bool := match t with TCleaner | TMonitor | TTimer | TDestroyer => true | _ => false end.
(** The manager is not used after its destruction by its own threads. *)
Definition service_done (h : list sev) : Prop :=
  always_at (fun v old => match v with VMgr t => service t = true -> ~ In VReturn old | _ => True end) h.
(** Environment e was made before the destruction began. *)
Definition made_before (e : nat) (w : bool) (h : list sev) : Prop :=
  exists newer older t, h = newer ++ VClean :: older /\ In (VMake t e w) older.
(** The cleaner was ready when the destruction began. *)
Definition ready_before (h : list sev) : Prop := exists newer older, h = newer ++ VClean :: older /\ In VReady older.
