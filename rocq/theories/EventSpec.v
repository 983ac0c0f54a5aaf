(** What an event (publish/subscribe list) promises, over histories (newest event first). *)
From Coq Require Import List Arith Bool ZArith.
Import ListNotations.

(** sub returned handle [h] for callback [c]; unsub(h) returned; pub number [p] begins; it calls callback [c] subscribed
    under [h]; it ends. *)
Inductive eev := ESub (h : Z) (c : nat) | EUnsub (h : Z) | EPubB (p : nat) | ECall (p : nat) (h : Z) (c : nat) | EPubE (p : nat).
Definition ehist := list eev.

(** The subscriptions made and not cancelled, in the order they were made. *)
Fixpoint live (H : ehist) : list (Z * nat) :=
  match H with
  | [] => []
  | ESub h c :: r => live r ++ [(h, c)]
  | EUnsub h :: r => filter (fun x => negb (Z.eqb (fst x) h)) (live r)
  | _ :: r => live r
  end.

(** How many subscriptions were made. *)
Fixpoint nsubs (H : ehist) : Z :=
  match H with [] => 0%Z | ESub _ _ :: r => (nsubs r + 1)%Z | _ :: r => nsubs r end.

(** The callbacks called by pub number p, in order. *)
Fixpoint calls (p : nat) (H : ehist) : list (Z * nat) :=
  match H with
  | [] => []
  | ECall q h c :: r => if q =? p then calls p r ++ [(h, c)] else calls p r
  | _ :: r => calls p r
  end.

(** [x] was subscribed when pub number p began and has not been cancelled since. *)
Fixpoint thru (p : nat) (x : Z * nat) (H : ehist) : Prop :=
  match H with
  | [] => False
  | EPubB q :: r => if q =? p then In x (live r) else thru p x r
  | EUnsub h :: r => h <> fst x /\ thru p x r
  | _ :: r => thru p x r
  end.

(** Nothing was subscribed or cancelled since pub number p began, when the history was [pre]. *)
Fixpoint undisturbed (p : nat) (H : ehist) (pre : ehist) : Prop :=
  match H with
  | [] => False
  | EPubB q :: r => if q =? p then r = pre else undisturbed p r pre
  | ESub _ _ :: _ | EUnsub _ :: _ => False
  | _ :: r => undisturbed p r pre
  end.
