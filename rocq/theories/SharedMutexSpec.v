(** What a shared (reader/writer) mutex is.  Independent of the model of the code. *)
From Coq Require Import List Arith Bool.
From Verif Require Import Base LinSpec.
Import ListNotations.

(** lock, try_lock, unlock, lock_shared, try_lock_shared, unlock_shared. *)
Inductive sop := WLock | WTry | WUnlock | SLock | STry | SUnlock.
Inductive sres := SOk | STrue | SFalse | SThrow.
(** The caller starts to park; [true] = it wants exclusive mode. *)
Inductive saux := SParks (w : bool).

Definition sop_eqb (a b : sop) : bool :=
  match a, b with
  | WLock, WLock | WTry, WTry | WUnlock, WUnlock | SLock, SLock | STry, STry | SUnlock, SUnlock => true
  | _, _ => false end.
Definition sres_eqb (a b : sres) : bool :=
  match a, b with SOk, SOk | STrue, STrue | SFalse, SFalse | SThrow, SThrow => true | _, _ => false end.

Notation sev := (ev sop sres saux).

Definition mem (t : tid) (l : list tid) : bool := existsb (Nat.eqb t) l.
Definition without (t : tid) (l : list tid) : list tid := filter (fun u => negb (Nat.eqb u t)) l.

(** Sequential reader/writer lock. *)
Inductive rw := Free | Writer (t : tid) | Readers (l : list tid).
Definition readers (l : list tid) : rw := match l with [] => Free | _ => Readers l end.

Definition rw_spec (s : rw) (t : tid) (o : sop) (r : sres) : option rw :=
  match o, r, s with
  | WLock, SOk, Free | WTry, STrue, Free => Some (Writer t)
  | WTry, SFalse, Writer _ | WTry, SFalse, Readers _ => Some s
  | WUnlock, SOk, Writer u => if Nat.eqb u t then Some Free else None
  | WUnlock, SThrow, Writer u => if Nat.eqb u t then None else Some s
  | WUnlock, SThrow, _ => Some s
  | SLock, SOk, Free | STry, STrue, Free => Some (Readers [t])
  | SLock, SOk, Readers l | STry, STrue, Readers l => if mem t l then None else Some (Readers (t :: l))
  | STry, SFalse, Writer _ => Some s
  | SUnlock, SOk, Readers l => if mem t l then Some (readers (without t l)) else None
  | SUnlock, SThrow, Readers l => if mem t l then None else Some s
  | SUnlock, SThrow, _ => Some s
  | _, _, _ => None
  end.
Definition rw_state (h : list sev) : option rw := seq_state rw_spec Free h.
Definition rw_linearizable (h : list sev) : Prop := linearizable sop_eqb sres_eqb rw_spec Free h.

(** In which mode a client holds the mutex ([Some true] exclusive, [Some false] shared): from the return of the
    acquisition to the call of the matching release. *)
Fixpoint hold (h : list sev) (t : tid) : option bool :=
  match h with
  | [] => None
  | ERet u WLock SOk :: h' | ERet u WTry STrue :: h' => if Nat.eqb u t then Some true else hold h' t
  | ERet u SLock SOk :: h' | ERet u STry STrue :: h' => if Nat.eqb u t then Some false else hold h' t
  | ECall u WUnlock :: h' =>
      if Nat.eqb u t then match hold h' t with Some true => None | x => x end else hold h' t
  | ECall u SUnlock :: h' =>
      if Nat.eqb u t then match hold h' t with Some false => None | x => x end else hold h' t
  | _ :: h' => hold h' t
  end.

(** Usage rule: a coroutine that holds the mutex in some mode does not ask for it again. *)
Fixpoint no_reacquire (h : list sev) : Prop :=
  match h with
  | [] => True
  | ECall t WLock :: h' | ECall t WTry :: h' | ECall t SLock :: h' | ECall t STry :: h' =>
      hold h' t = None /\ no_reacquire h'
  | _ :: h' => no_reacquire h'
  end.

(** The line of parked coroutines.  A parked coroutine leaves it only by being granted the mode it
    asked for, and only from the head; a writer that did not park obtains the mutex only when nobody is parked
    (a reader that did not park may join other readers).  [None] = violated. *)
Definition in_line (t : tid) (q : list (bool * tid)) : bool := mem t (map snd q).
Definition leave (w : bool) (t : tid) (q : list (bool * tid)) : option (list (bool * tid)) :=
  match q with
  | (b, u) :: q' => if Bool.eqb b w && Nat.eqb u t then Some q' else None
  | [] => None
  end.
Fixpoint sline (h : list sev) : option (list (bool * tid)) :=
  match h with
  | [] => Some []
  | EAux t (SParks w) :: h' => match sline h' with Some q => Some (q ++ [(w, t)]) | None => None end
  | ELin t WLock SOk :: h' =>
      match sline h' with
      | Some [] => Some []
      | Some q => leave true t q
      | None => None
      end
  | ELin t WTry STrue :: h' => match sline h' with Some [] => Some [] | _ => None end
  | ELin t SLock SOk :: h' =>
      match sline h' with
      | Some q => if in_line t q then leave false t q else Some q
      | None => None
      end
  | ELin t STry STrue :: h' =>
      match sline h' with
      | Some q => if in_line t q then None else Some q
      | None => None
      end
  | _ :: h' => sline h'
  end.

(** Results of the two kinds of unlock, judged by what the caller held when it called. *)
Fixpoint hold_at (o : sop) (h : list sev) (t : tid) : option bool :=
  match h with
  | [] => None
  | ECall u o' :: h' => if Nat.eqb u t && sop_eqb o o' then hold h' t else hold_at o h' t
  | _ :: h' => hold_at o h' t
  end.
Fixpoint rw_unlocks_ok (h : list sev) : Prop :=
  match h with
  | [] => True
  | ERet t WUnlock r :: h' =>
      r = (match hold_at WUnlock h' t with Some true => SOk | _ => SThrow end) /\ rw_unlocks_ok h'
  | ERet t SUnlock r :: h' =>
      r = (match hold_at SUnlock h' t with Some false => SOk | _ => SThrow end) /\ rw_unlocks_ok h'
  | _ :: h' => rw_unlocks_ok h'
  end.

(** The situation in which the code goes wrong: the mutex is released completely
    while the first in line is a reader and a writer is parked behind it.  [unmixed]: this never happens. *)
Definition front_ok (q : list (bool * tid)) : Prop :=
  match q with (false, _) :: _ => forall x, In x q -> fst x = false | _ => True end.
Fixpoint unmixed (h : list sev) : Prop :=
  match h with
  | [] => True
  | ELin t o SOk :: h' =>
      ((o = WUnlock \/ o = SUnlock) -> rw_state (ELin t o SOk :: h') = Some Free ->
       forall q, sline h' = Some q -> front_ok q) /\ unmixed h'
  | _ :: h' => unmixed h'
  end.

(** Only coroutine [w] ever asks for exclusive mode. *)
Fixpoint single_writer (w : tid) (h : list sev) : Prop :=
  match h with
  | [] => True
  | ECall t WLock :: h' | ECall t WTry :: h' => t = w /\ single_writer w h'
  | _ :: h' => single_writer w h'
  end.
