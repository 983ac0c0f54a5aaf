(** Model of co_event (include/cocpp/event/co_event.h 16-53).  All operations hold mu_cb_list__ (33, 41, 48); it is
    recursive, so during pub the callback itself may call sub, unsub and pub.  A callback is a number; what it does is the
    sequence of labels between two [Next] labels. *)
From Coq Require Import List Arith Bool ZArith.
From Verif Require Import Base EventSpec.
Import ListNotations.
Open Scope Z_scope.

(** Conversion of co_event_handle (unsigned long long, 14) to the key type int of cb_list__ (20). *)
Definition to_int (h : Z) : Z := let r := h mod 4294967296 in if r <? 2147483648 then r else r - 4294967296.
(** current_handler__++ (35) on unsigned long long. *)
Definition succ64 (h : Z) : Z := (h + 1) mod 18446744073709551616.

(** cb_list__: sorted by key (20). *)
Definition cbmap := list (Z * nat).
(** cb_list__[k] = c (34). *)
Fixpoint m_set (k : Z) (c : nat) (m : cbmap) : cbmap :=
  match m with
  | [] => [(k, c)]
  | (k', c') :: r => if k <? k' then (k, c) :: m else if k =? k' then (k, c) :: r else (k', c') :: m_set k c r
  end.
(** cb_list__.erase(k) (42). *)
Definition m_erase (k : Z) (m : cbmap) : cbmap := filter (fun x => negb (fst x =? k)) m.
(** The element after key [k]; the first one for None (49). *)
Fixpoint m_next (k : option Z) (m : cbmap) : option (Z * nat) :=
  match m with
  | [] => None
  | x :: r => match k with
              | None => Some x
              | Some k' => if k' <? fst x then Some x else m_next k r
              end
  end.
(** Is there an element with this key?  (Validity of the iterator of co_event.h 49.) *)
Definition m_has (k : Z) (m : cbmap) : bool := existsb (fun x => fst x =? k) m.

(** cb_list__, current_handler__ (20-22); the pubs in progress, innermost first: their number (ghost) and the key of the
    element their iterator points to (49); ghosts: number of the next pub, history. *)
Record est := mkE { cbs : cbmap; cur : Z; its : list (nat * option Z); pid : nat; ehi : ehist }.
(** co_event.h 20-22: empty map, current_handler__ 0. *)
Definition einit : est := mkE [] 0 [] 0 [].

(** co_event.h 31-52: sub(c); unsub(h); pub begins; pub goes on to its next callback or ends. *)
Inductive elbl := Sub (c : nat) | Unsub (h : Z) | Pub | Next.
(** [EvUB]: the iterator of a pub in progress points to an erased element and is incremented (undefined behaviour). *)
Inductive eres := EvOk (s : est) | EvUB.

(** co_event.h 31-52. *)
Definition estep (s : est) (a : elbl) : option eres :=
  match a with
  | Sub c => (* 31-36 *)
      Some (EvOk (mkE (m_set (to_int (cur s)) c (cbs s)) (succ64 (cur s)) (its s) (pid s) (ESub (cur s) c :: ehi s)))
  | Unsub h => (* 39-43 *)
      Some (EvOk (mkE (m_erase (to_int h) (cbs s)) (cur s) (its s) (pid s) (EUnsub h :: ehi s)))
  | Pub => (* 46-49 *)
      Some (EvOk (mkE (cbs s) (cur s) ((pid s, None) :: its s) (S (pid s)) (EPubB (pid s) :: ehi s)))
  | Next => (* 49-52 *)
      match its s with
      | [] => None
      | (p, k) :: r =>
          if match k with Some k' => m_has k' (cbs s) | None => true end
          then match m_next k (cbs s) with
               | Some (k', c) => Some (EvOk (mkE (cbs s) (cur s) ((p, Some k') :: r) (pid s) (ECall p k' c :: ehi s)))
               | None => Some (EvOk (mkE (cbs s) (cur s) r (pid s) (EPubE p :: ehi s)))
               end
          else Some EvUB
      end
  end.
(** co_event.h 31-52, a step that is not undefined behaviour. *)
Definition estep_ok (s : est) (a : elbl) : option est :=
  match estep s a with Some (EvOk s') => Some s' | _ => None end.
