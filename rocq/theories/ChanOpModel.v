(** Model of the operators of co_chan (include/cocpp/event/co_chan.h 127-157), used by one coroutine [c], in any program, while any other coroutines use
    the same channel.  Line numbers refer to that file.  The variable given to the receiving operators is one and the same; a caught
    std::bad_optional_access does not keep the coroutine from going on. *)
From Coq Require Import List Arith Bool ZArith.
From Verif Require Import Base LinSpec Monitor ChanSpec ChanModel.
Import ListNotations.

(** ch < v (127-131), ch > x (133-143), ch << v (145-150), ch >> x (152-157).  A chain  ch << a << b  is a sequence of them: each returns the channel
    (149, 156). *)
Inductive xop := XLt (v : val) | XGt | XShl (v : val) | XShr.
(** What the coroutine sees of an operator: the result of < (130); of > with what it assigned (136-142); that << came back (149); what >> assigned
    (155), or the exception of value() on an empty optional (155). *)
Inductive obs := BLt (v : val) (b : bool) | BGt (r : option val) | BShl (v : val) | BShr (v : val) | BThrow.
(** The call an operator makes (130, 136, 148, 155). *)
Definition call_of (x : xop) : cop := match x with XLt v | XShl v => OPush v | XGt | XShr => OPop end.
(** What it makes of the result (130, 137-142, 148-149, 155-156). *)
Definition seen (x : xop) (r : cres) : obs :=
  match x, r with
  | XLt v, RTrue => BLt v true
  | XLt v, _ => BLt v false
  | XGt, RSome v => BGt (Some v)
  | XGt, _ => BGt None
  | XShl v, _ => BShl v
  | XShr, RSome v => BShr v
  | XShr, _ => BThrow
  end.
(** The variable afterwards (141, 155). *)
Definition assign (o : obs) (x : val) : val := match o with BGt (Some v) | BShr v => v | _ => x end.

(** [ocur]: the operator being evaluated; [olog]: what was seen, oldest first; [oslot]: the variable. *)
Record ost := mkO { och : mst cdat cop cres caux cloc; ocur : option xop; olog : list obs; oslot : val }.
Inductive olbl :=
| OL (l : mlbl cop)   (* a step inside the channel, of any coroutine *)
| OGo (x : xop).      (* c evaluates an operator *)
(** Whose step it is (co_chan.h 160-334: inside the channel). *)
Definition who (l : mlbl cop) : tid := match l with MCall t _ | MRun t _ | MLeave t => t end.
(** co_chan.h 127-157. *)
Definition ostep (kd : kind) (c : tid) (s : ost) (lb : olbl) : option ost :=
  match lb with
  | OGo x => match ocur s with
             | None => option_map (fun m => mkO m (Some x) (olog s) (oslot s)) (chan_step kd (och s) (MCall c (call_of x)))
             | Some _ => None
             end
  | OL l => if Nat.eqb (who l) c then
              match l, ocur s, ths (och s) c with
              | MRun _ _, Some _, _ => option_map (fun m => mkO m (ocur s) (olog s) (oslot s)) (chan_step kd (och s) l)
              | MLeave _, Some x, TDone _ r =>
                  option_map (fun m => mkO m None (olog s ++ [seen x r]) (assign (seen x r) (oslot s))) (chan_step kd (och s) l)
              | _, _, _ => None
              end
            else option_map (fun m => mkO m (ocur s) (olog s) (oslot s)) (chan_step kd (och s) l)
  end.
(** co_chan.h 98-113; [x0]: the variable before. *)
Definition oinit (x0 : val) : ost := mkO chan_init None [] x0.
