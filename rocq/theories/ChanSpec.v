(** What a channel is.  Independent of the model of the code.
    Values are natural numbers here: the code never looks at them (it copies and moves a
    std::copyable type), so they stand for any values. *)
From Coq Require Import List Arith Bool ZArith.
From Verif Require Import Base LinSpec HistSpec.
Import ListNotations.

Definition val := nat.
(** push(v), pop(), close(), closed(), empty(). *)
Inductive cop := OPush (v : val) | OPop | OClose | OIsClosed | OIsEmpty.
Inductive cres := ROk | RTrue | RFalse | RSome (v : val) | RNone.
(** The instant at which a pushed value is accepted into the channel. *)
Inductive caux := APut (v : val).

Definition cop_eqb (a b : cop) : bool :=
  match a, b with
  | OPush v, OPush w => Nat.eqb v w
  | OPop, OPop | OClose, OClose | OIsClosed, OIsClosed | OIsEmpty, OIsEmpty => true
  | _, _ => false
  end.
Definition cres_eqb (a b : cres) : bool :=
  match a, b with
  | ROk, ROk | RTrue, RTrue | RFalse, RFalse | RNone, RNone => true
  | RSome v, RSome w => Nat.eqb v w
  | _, _ => false
  end.

Notation cev := (ev cop cres caux).

(** Channel kinds by requested size: negative = unlimited, 0 = unbuffered, n > 0 = at most n. *)
Inductive kind := KUnl | KSync | KFix (n : nat).
Definition kind_of_size (z : Z) : kind :=
  if Z.ltb z 0 then KUnl else if Z.eqb z 0 then KSync else KFix (Z.to_nat z).

(** Accepted and delivered values, OLDEST first. *)
Fixpoint accepted (h : list cev) : list val :=
  match h with
  | [] => []
  | EAux _ (APut v) :: h' => accepted h' ++ [v]
  | _ :: h' => accepted h'
  end.
Fixpoint delivered (h : list cev) : list val :=
  match h with
  | [] => []
  | ELin _ OPop (RSome v) :: h' => delivered h' ++ [v]
  | _ :: h' => delivered h'
  end.
Fixpoint is_closed (h : list cev) : bool :=
  match h with
  | [] => false
  | ELin _ OClose _ :: _ => true
  | _ :: h' => is_closed h'
  end.
Definition buffered (h : list cev) : nat := length (accepted h) - length (delivered h).

(** Values accepted from the current call of [t]. *)
Fixpoint own_puts (h : list cev) (t : tid) : list val :=
  match h with
  | [] => []
  | ECall u _ :: h' => if Nat.eqb u t then [] else own_puts h' t
  | EAux u (APut v) :: h' => if Nat.eqb u t then v :: own_puts h' t else own_puts h' t
  | _ :: h' => own_puts h' t
  end.
(** Position, among all accepted values, of the value last accepted from [t]. *)
Fixpoint put_index (h : list cev) (t : tid) : nat :=
  match h with
  | [] => 0
  | EAux u (APut v) :: h' => if Nat.eqb u t then length (accepted h') else put_index h' t
  | _ :: h' => put_index h' t
  end.

(** Values taken by the pops of [c], oldest first. *)
Fixpoint taken_by (h : list cev) (c : tid) : list val :=
  match h with
  | [] => []
  | ELin t OPop (RSome v) :: h' => if Nat.eqb t c then taken_by h' c ++ [v] else taken_by h' c
  | _ :: h' => taken_by h' c
  end.

Definition chan_event_ok (kd : kind) (e : cev) (older : list cev) : Prop :=
  match e with
  (* a value is accepted only by an open channel with room *)
  | EAux _ (APut v) =>
      is_closed older = false /\
      match kd with KUnl => True | KSync => buffered older = 0 | KFix n => buffered older < n end
  (* push: true if accepted (exactly once; unbuffered: and taken, or closed meanwhile),
     false if the channel is closed (then nothing was accepted) *)
  | ELin t (OPush v) r =>
      (r = RTrue /\ own_puts older t = [v] /\
        (kd = KSync -> is_closed older = true \/ put_index older t < length (delivered older))) \/
      (r = RFalse /\ own_puts older t = [] /\ is_closed older = true)
  (* pop: the oldest accepted value not yet delivered; nothing only if closed and drained *)
  | ELin t OPop r =>
      (exists v, r = RSome v /\ nth_error (accepted older) (length (delivered older)) = Some v) \/
      (r = RNone /\ is_closed older = true /\ delivered older = accepted older)
  | ELin t OClose r => r = ROk
  | ELin t OIsClosed r => r = if is_closed older then RTrue else RFalse
  | ELin t OIsEmpty r => r = if Nat.eqb (buffered older) 0 then RTrue else RFalse
  | _ => True
  end.

(** All pushes come from one coroutine. *)
Definition single_producer (p : tid) (h : list cev) : Prop :=
  forall t v, In (ECall t (OPush v)) h -> t = p.
