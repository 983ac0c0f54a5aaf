(** What a cyclic barrier with arrival tokens is.  Independent of the model of the code. *)
From Coq Require Import List ZArith Bool.
From Verif Require Import Base LinSpec HistSpec.
Import ListNotations.
Open Scope Z_scope.

(** An arrival token: phase, barrier, weight. *)
Record token := mkTok { tgen : Z; tbar : nat; tn : Z }.

(** arrive(n), wait(token), arrive_and_wait(), arrive_and_drop(). *)
Inductive bop := OArrive (n : Z) | OWaitT (k : token) | OArriveWait | ODrop.
Inductive bres := RTok (k : token) | ROk | RThrow.
(** Instants inside a call: arrive_and_wait / arrive_and_drop has arrived (with this token);
    a wait with this token has been accepted. *)
Inductive baux := AArr (k : token) | ADrop (k : token) | AUse (k : token).

Definition token_eqb (a b : token) : bool :=
  Z.eqb (tgen a) (tgen b) && Nat.eqb (tbar a) (tbar b) && Z.eqb (tn a) (tn b).
Definition bop_eqb (a b : bop) : bool :=
  match a, b with
  | OArrive n, OArrive m => Z.eqb n m
  | OWaitT k, OWaitT j => token_eqb k j
  | OArriveWait, OArriveWait | ODrop, ODrop => true
  | _, _ => false
  end.
Definition bres_eqb (a b : bres) : bool :=
  match a, b with
  | RTok k, RTok j => token_eqb k j
  | ROk, ROk | RThrow, RThrow => true
  | _, _ => false
  end.

Notation bev := (ev bop bres baux).

(** Total weight of the accepted arrivals; of the accepted waits; of the tokens passed to wait()
    (arrive_and_wait passes its own token). *)
Definition arrived (h : list bev) : Z :=
  total (fun e => match e with
                  | ELin _ (OArrive _) (RTok k) => tn k
                  | EAux _ (AArr k) | EAux _ (ADrop k) => tn k
                  | _ => 0 end) h.
Definition waited (h : list bev) : Z :=
  total (fun e => match e with EAux _ (AUse k) => tn k | _ => 0 end) h.
Definition passed (h : list bev) : Z :=
  total (fun e => match e with
                  | ECall _ (OWaitT k) => tn k
                  | EAux _ (AArr k) => tn k
                  | _ => 0 end) h.

(** Number of completed phases: a phase takes weight [max]. *)
Definition completed (max : Z) (h : list bev) : Z := waited h / max.

(** The token of the current arrive_and_wait / arrive_and_drop of [t]. *)
Fixpoint own_tok (h : list bev) (t : tid) : option token :=
  match h with
  | [] => None
  | ECall u _ :: h' => if Nat.eqb u t then None else own_tok h' t
  | EAux u (AArr k) :: h' | EAux u (ADrop k) :: h' => if Nat.eqb u t then Some k else own_tok h' t
  | _ :: h' => own_tok h' t
  end.

Definition room (max : Z) (h : list bev) (n : Z) : Prop :=
  arrived h + n <= (completed max h + 1) * max.

Definition barrier_event_ok (me : nat) (max : Z) (e : bev) (older : list bev) : Prop :=
  match e with
  (* an arrival is accepted exactly when it does not exceed the current phase *)
  | ELin _ (OArrive n) r =>
      (r = RTok (mkTok (completed max older) me n) /\ room max older n) \/
      (r = RThrow /\ ~ room max older n)
  | EAux _ (AArr k) | EAux _ (ADrop k) => k = mkTok (completed max older) me 1 /\ room max older 1
  | EAux _ (AUse k) => tgen k = completed max older /\ tbar k = me
  (* a wait returns only when the phase of its token is complete: then weight max arrived in each
     phase up to this one *)
  | ELin _ (OWaitT k) r =>
      r = ROk /\ (tgen k + 1) * max <= waited older /\ (tgen k + 1) * max <= arrived older
  | ELin t OArriveWait r =>
      (r = ROk /\ exists k, own_tok older t = Some k /\
         (tgen k + 1) * max <= waited older /\ (tgen k + 1) * max <= arrived older) \/
      (r = RThrow /\ own_tok older t = None /\ ~ room max older 1)
  | ELin t ODrop r =>
      (r = ROk /\ exists k, own_tok older t = Some k) \/
      (r = RThrow /\ own_tok older t = None /\ ~ room max older 1)
  | _ => True
  end.

(** Usage rule: weights are at least 1, and a token passed to wait() was returned by arrive() and is
    passed only once (tokens are move-only by convention: wait takes an rvalue). *)
Definition issued_tok (k : token) (e : bev) : Z :=
  match e with ERet _ (OArrive _) (RTok j) => if token_eqb k j then 1 else 0 | _ => 0 end.
Definition passed_tok (k : token) (e : bev) : Z :=
  match e with ECall _ (OWaitT j) => if token_eqb k j then 1 else 0 | _ => 0 end.
Definition usage_ok (h : list bev) : Prop :=
  always_at (fun e older =>
    match e with
    | ECall _ (OArrive n) => 1 <= n
    | ECall _ (OWaitT k) => total (passed_tok k) older < total (issued_tok k) older
    | _ => True
    end) h.

(** Any use of tokens, copies included; only the weights are at least 1. *)
Definition weights_ok (h : list bev) : Prop :=
  always_at (fun e _ =>
    match e with
    | ECall _ (OArrive n) => 1 <= n
    | ECall _ (OWaitT k) => 1 <= tn k
    | _ => True
    end) h.
(** A token fits: of this barrier and phase, and the phase does not get more waits than it has weight. *)
Definition fits (me : nat) (max : Z) (h : list bev) (k : token) : Prop :=
  tgen k = completed max h /\ tbar k = me /\ waited h + tn k <= (completed max h + 1) * max.
(** Waits are accepted exactly when the token fits. *)
Definition waits_decided (me : nat) (max : Z) (e : bev) (older : list bev) : Prop :=
  match e with
  | EAux _ (AUse k) => fits me max older k
  | ELin _ (OWaitT k) RThrow => ~ fits me max older k
  | _ => True
  end.
