(** Model of this_co::sleep_until and sleep_for (include/cocpp/co/co_co.h 169-189) on top of the timer model: each call has
    a timer of its own, so calls are named by their timers.

    Simplifications.  The wait set of the calling coroutine is one bit per call: whether the resource the call put in is
    still there.  That a coroutine runs only when its wait set is empty is C38 (wait_set_respected); for the idle context of a
    thread that runs no coroutines it is the loop of co_env.cpp 254-262. *)
From Coq Require Import List Arith Bool.
From Verif Require Import Base TimerSpec TimerModel.
Import ListNotations.

(** Progress of a call: not begun; resource entered (co_co.h 185); in start (186); after it (187-188); returned. *)
Inductive spc := SNone | SIn | SStarting (a : nat) | SOut | SRet.
(** The timers; the calls; the resource of the call; when it returned (ghost). *)
Record sst := mkSl { tm : tst; sp : nat -> spc; wb : nat -> bool; back : nat -> option nat }.
(** All timers of sleeps are created by the constructor with a time point (co_co.h 180, co_timer.cpp 20-29). *)
Definition slinit (k : nat -> tkind) : sst := mkSl (tinit k) (fun _ => SNone) (fun _ => false) (fun _ => None).

(** Steps: anything that happens to the timers without the calls (other timers, the clock, the timer thread); coroutine a
    begins the call of timer t; start of t; its end; the callback of t (co_co.h 181-183), when it runs on thread a; the
    call returns. *)
Inductive slbl := SL (l : tlbl) | SBegin (t : nat) | SStart (a t : nat) | SGo (t : nat) | SLeave (a t : nat) | SBack (t : nat).
(** Which timers belong to sleeping calls ([sl]): only the call starts them; nobody stops them. *)
Definition foreign (sl : nat -> bool) (l : tlbl) : bool := match l with LStart _ t | LStop _ t => negb (sl t) | _ => true end.
(** The callback of a sleeping call only leaves the wait state (co_co.h 181-183): it does not return before that, and uses no
    timers.  Whether thread a is in such a callback; the steps this forbids. *)
Definition in_wake (sl : nat -> bool) (s : sst) (a : nat) : bool := match incb (tm s) a with Some (t, _) => sl t | None => false end.
(** See in_wake; co_co.h 181-183. *)
Definition body_ok (sl : nat -> bool) (s : sst) (l : tlbl) : bool :=
  match l with
  | LRet a => match incb (tm s) a with Some (t, _) => negb (sl t && wb s t) | None => true end
  | LStart a _ | LStop a _ => negb (in_wake sl s a)
  | _ => true
  end.
(** Field update. No counterpart in the code. *)
Definition with_tm (s : sst) (x : tst) : sst := mkSl x (sp s) (wb s) (back s).
(** co_co.h 175-189. *)
Definition slstep (k : nat -> tkind) (sl : nat -> bool) (s : sst) (l : slbl) : option sst :=
  match l with
  | SL l => if foreign sl l && body_ok sl s l then option_map (with_tm s) (step_ok k (tm s) l) else None
  | SBegin t => match sp s t, sl t with
                | SNone, true => Some (mkSl (tm s) (upd (sp s) t SIn) (upd (wb s) t true) (back s))
                | _, _ => None
                end
  | SStart a t => match sp s t, in_wake sl s a with
                  | SIn, false => option_map (fun x => mkSl x (upd (sp s) t (SStarting a)) (wb s) (back s)) (step_ok k (tm s) (LStart a t))
                  | _, _ => None
                  end
  | SGo t => match sp s t with
             | SStarting a => match pc (tm s) a with AIdle => Some (mkSl (tm s) (upd (sp s) t SOut) (wb s) (back s)) | _ => None end
             | _ => None
             end
  | SLeave a t => match incb (tm s) a with
                  | Some (u, _) => if (t =? u) && sl t then Some (mkSl (tm s) (sp s) (upd (wb s) t false) (back s)) else None
                  | None => None
                  end
  | SBack t => match sp s t, wb s t with
               | SOut, false => Some (mkSl (tm s) (upd (sp s) t SRet) (wb s) (upd (back s) t (Some (now (tm s)))))
               | _, _ => None
               end
  end.
