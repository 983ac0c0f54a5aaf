(** What co_call_once promises, over histories (newest event first). *)
From Coq Require Import List Arith Bool.
From Verif Require Import Base.
Import ListNotations.

(** A caller calls; the callable starts on a caller's stack; it ends normally ([true]) or by an exception; the call
    returns, or leaves by an exception. *)
Inductive oev := OCall (t : tid) | OStart (t : tid) | OEnd (t : tid) (ok : bool) | ORet (t : tid) | OThrow (t : tid).

Definition is_start (e : oev) : bool := match e with OStart _ => true | _ => false end.
Definition starts (h : list oev) : nat := length (filter is_start h).

(** Number of calls / of ended calls. *)
Definition calls (h : list oev) : nat := length (filter (fun e => match e with OCall _ => true | _ => false end) h).
Definition ended (h : list oev) : nat :=
  length (filter (fun e => match e with ORet _ | OThrow _ => true | _ => false end) h).

(** Every return happens after the callable completed normally. *)
Fixpoint done_means_done (h : list oev) : Prop :=
  match h with
  | [] => True
  | e :: r => match e with ORet _ => exists u, In (OEnd u true) r | _ => True end /\ done_means_done r
  end.

(** The last event of caller [t]. *)
Definition oev_tid (e : oev) : tid := match e with OCall t | OStart t | OEnd t _ | ORet t | OThrow t => t end.
Fixpoint last_of (h : list oev) (t : tid) : option oev :=
  match h with [] => None | e :: r => if oev_tid e =? t then Some e else last_of r t end.

(** The caller that runs the callable leaves the call only after the callable ended, and the way it ended. *)
Fixpoint runner_waits (h : list oev) : Prop :=
  match h with
  | [] => True
  | e :: r => match e with
              | ORet t => last_of r t = Some (OCall t) \/ last_of r t = Some (OEnd t true)
              | OThrow t => last_of r t = Some (OEnd t false)
              | OEnd t _ => last_of r t = Some (OStart t)
              | OStart t => last_of r t = Some (OCall t)
              | OCall t => match last_of r t with None | Some (ORet _) | Some (OThrow _) => True | _ => False end
              end /\ runner_waits r
  end.

(** Everybody is outside: the situation after all calls. *)
Definition all_out (h : list oev) : Prop :=
  forall t, match last_of h t with None | Some (ORet _) | Some (OThrow _) => True | _ => False end.
