(** The timer thread when the creation of the coroutine for a callback throws (co_manager.cpp 366-371): nothing catches the
    exception in timer_routine__ (349-385), nor in the function given to async (118-120), which keeps it in the future; nobody
    starts the routine again.

    The timers themselves are TimerModel. *)
From Coq Require Import List Arith Bool.
From Verif Require Import Base TimerSpec TimerModel.
Import ListNotations.

(** The timers; whether the timer thread is gone. *)
Record fst := mkF { tm : tst; dead : bool }.
(** At the start: co_manager.cpp 118. *)
Definition finit (k : nat -> tkind) : fst := mkF (tinit k) false.
(** What happens to timers; the creation throws. *)
Inductive flbl := FL (l : tlbl) | FThrow.
(** Steps of the timer thread (co_manager.cpp 349-385). *)
Definition by_thread (l : tlbl) : bool := match l with LTimer | LSpur => true | _ => false end.
(** All steps. On the exception mu_timer_queue__ is released (lck, co_manager.cpp 351), as it is in the wait of line 357, which
    therefore stands for the end of the thread. *)
Definition fstep (k : nat -> tkind) (s : fst) (l : flbl) : option fst :=
  match l with
  | FL l => if dead s && by_thread l then None else option_map (fun x => mkF x (dead s)) (step_ok k (tm s) l)
  | FThrow => match dead s, rp (tm s) with
              | false, RFire _ => Some (mkF (setrp (tm s) RWaitE) true)
              | _, _ => None
              end
  end.
