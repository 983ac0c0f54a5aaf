(** Objects made of one co_mutex and some co_condition_variables ("monitors"):
    co_latch, co_wait_group, co_counting_semaphore, co_barrier, co_chan.

    One [Run] step of a coroutine is one code segment executed while the mutex is held:
    from acquiring it (method entry, or return from cv.wait) to releasing it (method
    exit, or cv.wait).  A segment changes the data, notifies condition variables and
    ends by returning, by waiting on a condition variable, or by releasing and
    re-acquiring the mutex.

    cv.wait:  include/cocpp/sync/co_condition_variable.h 54-67 (append to the waiter list,
              release the mutex, sleep until notified, re-acquire).
    notify:   source/cocpp/sync/co_condition_variable.cpp 18-40 (FIFO).
    Simplification: segments are atomic.  FineProps.v shows that the fine-grained
    composition of mutex, condition variables and segments has no other histories. *)
From Coq Require Import List Arith Bool.
From Verif Require Import Base LinSpec.
Import ListNotations.
Set Implicit Arguments.

(** Notifications: co_condition_variable.cpp 29-40 and 18-27. *)
Inductive sig := SOne (c : nat) | SAll (c : nat).

Section Monitor.
  Variables (D Op Res Aux Loc : Type).

  (** How a segment ends. *)
  Inductive outcome :=
  | ORet (d : D) (xs : list Aux) (sg : list sig) (r : Res)          (* method returns *)
  | OWait (d : D) (xs : list Aux) (sg : list sig) (c : nat) (l : Loc) (* cv c .wait, then l *)
  | OAgain (d : D) (xs : list Aux) (sg : list sig) (l : Loc).        (* unlock; lock; l *)

  (** State of a coroutine with respect to the object. *)
  Inductive tst :=
  | TOut
  | TReady (o : Op) (l : Loc)           (* wants the mutex to run segment l *)
  | TWait (c : nat) (o : Op) (l : Loc)  (* in the waiter list of cv c *)
  | TWoken (c : nat) (o : Op) (l : Loc) (* notified, wants the mutex to run l *)
  | TDone (o : Op) (r : Res).           (* about to return r *)

  (** [qs c]: waiters__ of cv c.  [wk c] is ghost: the coroutines notified through cv c
      that have not run yet. *)
  Record mst := mkM {
    dat : D;
    ths : tid -> tst;
    qs : nat -> list tid;
    wk : nat -> list tid;
    mhist : list (ev Op Res Aux)
  }.

  (** leave_wait_resource_state of a waiting coroutine (co_condition_variable.cpp 24, 39; co_ctx.cpp 192-207). *)
  Definition woken (x : tst) : tst :=
    match x with TWait c o l => TWoken c o l | _ => x end.

  (** co_condition_variable.cpp 29-40. *)
  Definition notify1 (s : mst) (c : nat) : mst :=
    match qs s c with
    | [] => s
    | t :: r => mkM (dat s) (upd (ths s) t (woken (ths s t)))
                    (upd (qs s) c r) (upd (wk s) c (wk s c ++ [t])) (mhist s)
    end.

  (** n rounds of it: the loop of notify_all (co_condition_variable.cpp 22-26) taken as one pop per waiter. *)
  Fixpoint notify_n (n : nat) (s : mst) (c : nat) : mst :=
    match n with 0 => s | S n' => notify_n n' (notify1 s c) c end.

  (** co_condition_variable.cpp 18-27. *)
  Definition notify (s : mst) (g : sig) : mst :=
    match g with
    | SOne c => notify1 s c
    | SAll c => notify_n (length (qs s c)) s c
    end.

  (** Ghost history; no code. *)
  Definition log_aux (t : tid) (xs : list Aux) (h : list (ev Op Res Aux)) : list (ev Op Res Aux) :=
    fold_left (fun h x => EAux t x :: h) xs h.

  Variable entry : Op -> Loc.
  (** [body t l b d]: the segment at [l], executed by [t] on data [d]; [b] is the answer of
      the clock where the segment consults it. *)
  Variable body : tid -> Loc -> bool -> D -> outcome.

  (** One critical section of the mutex: the segment, the notifications it makes, and either return, or wait (co_condition_variable.h 55-88), or release and lock again. *)
  Definition run_body (s : mst) (t : tid) (o : Op) (l : Loc) (b : bool) : mst :=
    match body t l b (dat s) with
    | ORet d xs sg r =>
        fold_left notify sg
          (mkM d (upd (ths s) t (TDone o r)) (qs s) (wk s) (ELin t o r :: log_aux t xs (mhist s)))
    | OWait d xs sg c l' =>
        let s1 := fold_left notify sg
          (mkM d (upd (ths s) t (TReady o l')) (qs s) (wk s) (log_aux t xs (mhist s))) in
        mkM (dat s1) (upd (ths s1) t (TWait c o l')) (upd (qs s1) c (qs s1 c ++ [t])) (wk s1) (mhist s1)
    | OAgain d xs sg l' =>
        fold_left notify sg
          (mkM d (upd (ths s) t (TReady o l')) (qs s) (wk s) (log_aux t xs (mhist s)))
    end.

  (** A call; a coroutine gets the mutex and runs its segment; it returns to its caller. *)
  Inductive mlbl := MCall (t : tid) (o : Op) | MRun (t : tid) (b : bool) | MLeave (t : tid).

  (** A step: see the labels; the segments are those of the instances (co_chan.h, co_latch.cpp, co_wait_group.cpp, co_barrier.cpp, co_counting_semaphore.h). *)
  Definition mstep (s : mst) (l : mlbl) : option mst :=
    match l with
    | MCall t o =>
        match ths s t with
        | TOut => Some (mkM (dat s) (upd (ths s) t (TReady o (entry o))) (qs s) (wk s)
                            (ECall t o :: mhist s))
        | _ => None
        end
    | MRun t b =>
        match ths s t with
        | TReady o l => Some (run_body s t o l b)
        | TWoken c o l =>
            Some (run_body (mkM (dat s) (ths s) (qs s)
                                (upd (wk s) c (filter (fun u => negb (Nat.eqb u t)) (wk s c)))
                                (mhist s)) t o l b)
        | _ => None
        end
    | MLeave t =>
        match ths s t with
        | TDone o r => Some (mkM (dat s) (upd (ths s) t TOut) (qs s) (wk s) (ERet t o r :: mhist s))
        | _ => None
        end
    end.

  (** A fresh object: nobody inside, no waiters (co_condition_variable.h 29-31). *)
  Definition minit (d : D) : mst := mkM d (fun _ => TOut) (fun _ => []) (fun _ => []) [].
End Monitor.

Arguments TOut {Op Res Loc}.
Arguments TReady {Op Res Loc}.
Arguments TWait {Op Res Loc}.
Arguments TWoken {Op Res Loc}.
Arguments TDone {Op Res Loc}.
Arguments ORet {D Res Aux Loc}.
Arguments OWait {D Res Aux Loc}.
Arguments OAgain {D Res Aux Loc}.
Arguments MCall {Op}.
Arguments MRun {Op}.
Arguments MLeave {Op}.
