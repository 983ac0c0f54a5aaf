(** Model of co_call_once (include/cocpp/sync/co_call_once.h 11-26). *)
From Coq Require Import List Arith Bool.
From Verif Require Import Base CallOnceSpec.
Import ListNotations.

(** Program counter of a caller: outside; before compare_exchange_strong (line 22); before std::invoke (24); inside the
    callable; about to return or to let an exception pass (26).  CoPreemptGuard (20) has no effect on this state. *)
Inductive pc := Out | PCas | PInvoke | PBody | PRet (ok : bool).

(** flag__ (co_call_once.h 14), the callers, the history. *)
Record ost := mkO { flag : bool; pcs : tid -> pc; hist : list oev }.

(** co_call_once.h 14: the flag starts false. *)
Definition oinit : ost := mkO false (fun _ => Out) [].

(** A call; a step of the caller; the callable run by t ends, normally or not (it is an arbitrary function). *)
Inductive lbl := Call (t : tid) | Run (t : tid) | Ends (t : tid) (ok : bool).

(** co_call_once.h 18-26, one step per access to shared state. *)
Definition ostep (s : ost) (l : lbl) : option ost :=
  match l with
  | Call t => match pcs s t with Out => Some (mkO (flag s) (upd (pcs s) t PCas) (OCall t :: hist s)) | _ => None end
  | Run t =>
      match pcs s t with
      | PCas => if flag s then Some (mkO (flag s) (upd (pcs s) t (PRet true)) (hist s))
                else Some (mkO true (upd (pcs s) t PInvoke) (hist s))
      | PInvoke => Some (mkO (flag s) (upd (pcs s) t PBody) (OStart t :: hist s))
      | PRet ok => Some (mkO (flag s) (upd (pcs s) t Out) ((if ok then ORet t else OThrow t) :: hist s))
      | Out | PBody => None
      end
  | Ends t ok => match pcs s t with
                 | PBody => Some (mkO (flag s) (upd (pcs s) t (PRet ok)) (OEnd t ok :: hist s))
                 | _ => None
                 end
  end.
