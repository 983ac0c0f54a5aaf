(** Model of the range-for loop over a co_chan: the iterator of co_chan.h 59-75, 336-408,
    used by one coroutine [c] while any other coroutines use the same channel. *)
From Coq Require Import List Arith Bool ZArith.
From Verif Require Import Base LinSpec Monitor ChanSpec ChanModel.
Import ListNotations.

(** Where the loop  for (auto it = ch.begin(); it != ch.end(); ++it) visit( *it )  stands.
    [v] is value__ (co_chan.h 63). *)
Inductive ipc :=
| PNext                      (* about to execute operator++ (343-346; the constructor 336-340 does it too) *)
| WPop                       (* inside ch__->pop() *)
| PCmp (v : option val)      (* about to evaluate it != end(): end().ch__ is null (404-408), so 384 is false
                                and ch__->closed() is called (388) *)
| WClosed (v : option val)   (* inside ch__->closed() *)
| PCmp2 (v : option val)     (* closed() was true: about to call ch__->empty() *)
| WEmpty (v : option val)    (* inside ch__->empty() *)
| PVisit (v : option val)    (* the comparison said "not the end": about to dereference (349-352) *)
| PStop.                     (* the comparison said "end": the loop is left *)

(** [visited]: values the loop body has seen, oldest first.  [iub]: *value__ was evaluated while empty
    (undefined behaviour of std::optional). *)
Record ist := mkI { ich : mst cdat cop cres caux cloc; ip : ipc; visited : list val; iub : bool }.

Inductive ilbl :=
| IL (l : mlbl cop)   (* a step inside the channel, of any coroutine *)
| IGo.                (* a step of the loop itself *)

(** What the loop does with the result of its call, co_chan.h 345, 388-396. *)
Definition after (p : ipc) (r : cres) : ipc :=
  match p, r with
  | WPop, RSome v => PCmp (Some v)
  | WPop, _ => PCmp None
  | WClosed v, RTrue => PCmp2 v
  | WClosed v, _ => PVisit v
  | WEmpty v, RTrue => match v with None => PStop | Some _ => PVisit v end
  | WEmpty v, _ => PVisit v
  | p, _ => p
  end.

(** Who makes a step of the channel (a tool of the model). *)
Definition lbl_tid (l : mlbl cop) : tid := match l with MCall t _ | MRun t _ | MLeave t => t end.

(** The call the loop makes next. *)
Definition next_call (p : ipc) : option (cop * ipc) :=
  match p with
  | PNext => Some (OPop, WPop)
  | PCmp v => Some (OIsClosed, WClosed v)
  | PCmp2 v => Some (OIsEmpty, WEmpty v)
  | _ => None
  end.

(** One step of the loop or of any other user of the channel (co_chan.h 336-408). *)
Definition istep (kd : kind) (c : tid) (s : ist) (lb : ilbl) : option ist :=
  match lb with
  | IL l =>
      if Nat.eqb (lbl_tid l) c then
        match l with
        | MCall _ _ => None
        | MRun _ _ => option_map (fun m => mkI m (ip s) (visited s) (iub s)) (chan_step kd (ich s) l)
        | MLeave _ =>
            match ths (ich s) c with
            | TDone o r => option_map (fun m => mkI m (after (ip s) r) (visited s) (iub s)) (chan_step kd (ich s) l)
            | _ => None
            end
        end
      else option_map (fun m => mkI m (ip s) (visited s) (iub s)) (chan_step kd (ich s) l)
  | IGo =>
      match next_call (ip s) with
      | Some (o, p) => option_map (fun m => mkI m p (visited s) (iub s)) (chan_step kd (ich s) (MCall c o))
      | None =>
          match ip s with
          | PVisit (Some v) => Some (mkI (ich s) PNext (visited s ++ [v]) (iub s))
          | PVisit None => Some (mkI (ich s) PNext (visited s) true)
          | _ => None
          end
      end
  end.

(** begin() has been called (co_chan.h 336-341, 398-402): the loop pops first. *)
Definition iinit : ist := mkI chan_init PNext [] false.
