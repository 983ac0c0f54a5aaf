(** Specification vocabulary: concurrent API histories and linearizability.

    A history is a list of events, NEWEST FIRST.  [ECall]/[ERet] are what a client
    sees.  [ELin] marks the instant at which an operation takes effect; it carries
    the result that the operation returns later.  [EAux] marks an instant named
    in a statement (for instance "coroutine t starts to park").

    This file is independent of the models. *)
From Coq Require Import List Arith Bool.
From Verif Require Import Base.
Import ListNotations.
Set Implicit Arguments.

Section History.
  Variables (Op Res Aux : Type).

  Inductive ev : Type :=
  | ECall (t : tid) (o : Op)
  | ELin  (t : tid) (o : Op) (r : Res)
  | ERet  (t : tid) (o : Op) (r : Res)
  | EAux  (t : tid) (a : Aux).

  Variable op_eqb : Op -> Op -> bool.
  Variable res_eqb : Res -> Res -> bool.

  (** Where a coroutine is in its current call. *)
  Inductive phase : Type :=
  | PIdle                        (* outside the object *)
  | PPending (o : Op)            (* called, not yet taken effect *)
  | PDone (o : Op) (r : Res).    (* taken effect, not yet returned *)

  (** Per coroutine, events must come in the order call, effect, return, with the
      same operation, and the returned result is the one of the effect.
      [None] = ill formed. *)
  Definition phase_step (t : tid) (p : option phase) (e : ev) : option phase :=
    match p with
    | None => None
    | Some ph =>
      match e with
      | ECall u o => if Nat.eqb u t then match ph with PIdle => Some (PPending o) | _ => None end
                     else Some ph
      | ELin u o r => if Nat.eqb u t
                      then match ph with
                           | PPending o' => if op_eqb o o' then Some (PDone o r) else None
                           | _ => None end
                      else Some ph
      | ERet u o r => if Nat.eqb u t
                      then match ph with
                           | PDone o' r' => if op_eqb o o' && res_eqb r r' then Some PIdle else None
                           | _ => None end
                      else Some ph
      | EAux _ _ => Some ph
      end
    end.

  Fixpoint phase_of (h : list ev) (t : tid) : option phase :=
    match h with
    | [] => Some PIdle
    | e :: h' => phase_step t (phase_of h' t) e
    end.

  (** The effects, in order, must be a run of the sequential specification
      [spec : state -> caller -> operation -> result -> option state]. *)
  Variable S : Type.
  Variable spec : S -> tid -> Op -> Res -> option S.
  Variable s0 : S.

  Fixpoint seq_state (h : list ev) : option S :=
    match h with
    | [] => Some s0
    | ELin t o r :: h' => match seq_state h' with
                          | Some s => spec s t o r
                          | None => None
                          end
    | _ :: h' => seq_state h'
    end.

  Definition linearizable (h : list ev) : Prop :=
    (forall t, phase_of h t <> None) /\ seq_state h <> None.
End History.

Arguments ECall {Op Res Aux}.
Arguments ELin {Op Res Aux}.
Arguments ERet {Op Res Aux}.
Arguments EAux {Op Res Aux}.
Arguments PIdle {Op Res}.
Arguments PPending {Op Res}.
Arguments PDone {Op Res}.
