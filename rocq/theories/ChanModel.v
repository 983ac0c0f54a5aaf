(** Model of co_chan (/repo/include/cocpp/event/co_chan.h). *)
From Coq Require Import List Arith Bool ZArith.
From Verif Require Import Base LinSpec Monitor ChanSpec.
Import ListNotations.

(** co_chan.h 24-25: cv_full__ and cv_empty__. *)
Definition EMPTY : nat := 0.
(** co_chan.h 24. *)
Definition FULL : nat := 1.

(** co_chan.h 21-22: data__ (front first) and closed__. *)
Record cdat := mkC { cbuf : list val; cclosed : bool }.

(** Segments.  [LPush] 160-171 / 187-199 / 202-213: from the start of push to its first wait;
    [LPushW]: evaluation of the predicate of the first wait of push (171-180, 213-222) and what follows;
    [LSyncW]: predicate of the second wait of the unbuffered push (225-229);
    [LPop] 239-250, [LPopW] 250-262; close 272-278; closed 311-315; empty 324-328.
    The predicate waits are do-while loops (co_condition_variable.h 70-88): they wait at least once. *)
Inductive cloc := LPush (v : val) | LPushW (v : val) | LSyncW (v : val)
                | LPop | LPopW | LClose | LClosed | LEmpty.

(** co_chan.h 233, 266, 281, 318, 331 (dispatch to the implementation object). *)
Definition chan_entry (o : cop) : cloc :=
  match o with
  | OPush v => LPush v
  | OPop => LPop
  | OClose => LClose
  | OIsClosed => LClosed
  | OIsEmpty => LEmpty
  end.

(** Common tail of push: append and notify one consumer (180-183, 195-198). *)
Definition do_push (d : cdat) (v : val) : outcome cdat cres caux cloc :=
  ORet (mkC (cbuf d ++ [v]) (cclosed d)) [APut v] [SOne EMPTY] RTrue.

(** Tail of pop: take the front and notify one producer (259-262). *)
Definition do_pop (d : cdat) : outcome cdat cres caux cloc :=
  match cbuf d with
  | v :: r => ORet (mkC r (cclosed d)) [] [SOne FULL] (RSome v)
  | [] => ORet d [] [] RNone   (* not reached: guarded by the emptiness test in 244/253 *)
  end.

(** data__->empty() (co_chan.h 244, 251, 253, 327). *)
Definition is_nil (l : list val) : bool := match l with [] => true | _ => false end.

(** co_chan.h 160-334. *)
Definition chan_body (kd : kind) (t : tid) (l : cloc) (b : bool) (d : cdat)
  : outcome cdat cres caux cloc :=
  match l with
  | LPush v =>
      if cclosed d then ORet d [] [] RFalse
      else match kd with
           | KUnl => do_push d v                                          (* 187-199 *)
           | KFix n => if Nat.eqb (length (cbuf d)) n                     (* 169 *)
                       then OWait d [] [] FULL (LPushW v) else do_push d v
           | KSync => if Nat.eqb (length (cbuf d)) 1                      (* 211 *)
                      then OWait d [] [] FULL (LPushW v)
                      else OWait (mkC (cbuf d ++ [v]) (cclosed d)) [APut v] [SOne EMPTY] FULL (LSyncW v) (* 222-225 *)
           end
  | LPushW v =>
      match kd with
      | KUnl => ORet d [] [] RFalse                                       (* not reached *)
      | KFix n => if cclosed d || (length (cbuf d) <? n)                  (* 171-173 *)
                  then (if cclosed d then ORet d [] [] RFalse else do_push d v)
                  else OWait d [] [] FULL (LPushW v)
      | KSync => if cclosed d then ORet d [] [] RFalse                    (* 213-219 *)
                 else OWait d [] [] FULL (LPushW v)
      end
  | LSyncW v => if cclosed d || is_nil (cbuf d) then ORet d [] [] RTrue  (* 225-229 *)
                else OWait d [] [] FULL (LSyncW v)
  | LPop => if is_nil (cbuf d)                                            (* 244-250 *)
            then (if cclosed d then ORet d [] [] RNone else OWait d [] [] EMPTY LPopW)
            else do_pop d
  | LPopW => if cclosed d || negb (is_nil (cbuf d))                       (* 250-252 *)
             then (if is_nil (cbuf d) then ORet d [] [] RNone else do_pop d)
             else OWait d [] [] EMPTY LPopW
  | LClose => ORet (mkC (cbuf d) true) [] [SAll FULL; SAll EMPTY] ROk     (* 272-278 *)
  | LClosed => ORet d [] [] (if cclosed d then RTrue else RFalse)         (* 311-315 *)
  | LEmpty => ORet d [] [] (if is_nil (cbuf d) then RTrue else RFalse)    (* 324-328 *)
  end.

(** co_chan.h 98-113 ([kind_of_size] in ChanSpec.v), 21-22. *)
Definition chan_init := minit cop cres caux cloc (mkC [] false).
(** Steps of the monitor with the bodies above (co_chan.h 160-334). *)
Definition chan_step (kd : kind) := mstep chan_entry (chan_body kd).
