(** Model of timers: source/cocpp/core/co_timer.cpp and timer_routine__, insert_timer_to_queue__, remove_timer_from_queue__ of
    source/cocpp/core/co_manager.cpp.  Any number of timers and calling threads, one timer thread.

    Simplifications.  Times are natural numbers.  A calling thread holds mu_timer_queue__ only inside one call of insert or
    erase: one step; the mutex of its timer stays with it from the first to the second half of start or stop.  Comparisons
    in timer_queue__ also take the mutexes of the timers compared, for a moment; this can only delay, and is treated with
    the lock orders (LockModel).  clean_up__ (program exit) is not represented.  A callback is launched as a coroutine: it
    begins any time later, on any thread, and holds the mutex of its timer while it runs (co_timer.cpp 122-129); it may call
    start and stop. *)
From Coq Require Import List Arith Bool.
From Verif Require Import Base TimerSpec.
Import ListNotations.

(** expire_type__, timer_type__, interval__, and expire_time__ given to the second constructor (co_timer.cpp 10-29). *)
Inductive tkind := KOnce (i : nat) | KLoop (i : nat) | KAbs (e : nat).
(** Calling threads: outside; in start before insert_to_timer_queue__ (co_timer.cpp 66); in stop before
    remove_from_timer_queue__ (78). [own]: whether the mutex was free before (recursive mutex). *)
Inductive apc := AIdle | AIns (t : nat) (own : bool) | AEra (t : nat) (own : bool).
(** Timer thread (co_manager.cpp): 353; in the wait of 357; in the wait of 382; 363; 364; 366; 371; start in reset (377). It
    holds mu_timer_queue__ except in the waits. *)
Inductive rpc := RLoop | RWaitE | RWaitU (e : nat) | RFront | RChk (t : nat) | RFire (t : nat) | RPost (t : nat) | RAgain (t : nat).
(** clock; expire_time__, status__ == running, owner of mutex__ (co_timer.h); timer_queue__ (co_manager.h 46); callbacks launched
    and not begun; threads; the callback a thread is in, and whether it took the mutex there; timer thread; whether
    cv_timer_queue__ has been notified during the wait; ghost history. *)
Record tst := mkT { now : nat; exp : nat -> nat; st : nat -> bool; mu : nat -> option nat; q : list nat; cb : nat -> nat;
                    pc : nat -> apc; incb : nat -> option (nat * bool); rp : rpc; ntf : bool; th : thist }.
(** Absolute timers get expire_time__ from the constructor (co_timer.cpp 26). *)
Definition tinit (k : nat -> tkind) : tst :=
  mkT 0 (fun t => match k t with KAbs e => e | _ => 0 end) (fun _ => false) (fun _ => None) [] (fun _ => 0) (fun _ => AIdle) (fun _ => None) RLoop false [].

(** Field updates (lines at the users). *)
Definition setnow s n := mkT n (exp s) (st s) (mu s) (q s) (cb s) (pc s) (incb s) (rp s) (ntf s) (th s).
(** See setnow. *)
Definition setexp s t e := mkT (now s) (upd (exp s) t e) (st s) (mu s) (q s) (cb s) (pc s) (incb s) (rp s) (ntf s) (th s).
(** See setnow. *)
Definition setst s t b := mkT (now s) (exp s) (upd (st s) t b) (mu s) (q s) (cb s) (pc s) (incb s) (rp s) (ntf s) (th s).
(** See setnow. *)
Definition setmu s t o := mkT (now s) (exp s) (st s) (upd (mu s) t o) (q s) (cb s) (pc s) (incb s) (rp s) (ntf s) (th s).
(** See setnow. *)
Definition setq s l := mkT (now s) (exp s) (st s) (mu s) l (cb s) (pc s) (incb s) (rp s) (ntf s) (th s).
(** See setnow. *)
Definition setcb s t n := mkT (now s) (exp s) (st s) (mu s) (q s) (upd (cb s) t n) (pc s) (incb s) (rp s) (ntf s) (th s).
(** See setnow. *)
Definition setpc s a p := mkT (now s) (exp s) (st s) (mu s) (q s) (cb s) (upd (pc s) a p) (incb s) (rp s) (ntf s) (th s).
(** See setnow. *)
Definition setin s a o := mkT (now s) (exp s) (st s) (mu s) (q s) (cb s) (pc s) (upd (incb s) a o) (rp s) (ntf s) (th s).
(** See setnow. *)
Definition setrp s p := mkT (now s) (exp s) (st s) (mu s) (q s) (cb s) (pc s) (incb s) p (ntf s) (th s).
(** cv_timer_queue__.notify_one() (co_manager.cpp 497, 504). *)
Definition setntf s b := mkT (now s) (exp s) (st s) (mu s) (q s) (cb s) (pc s) (incb s) (rp s) b (th s).
(** Ghost history. *)
Definition tlog e s := mkT (now s) (exp s) (st s) (mu s) (q s) (cb s) (pc s) (incb s) (rp s) (ntf s) (e :: th s).

(** std::set::insert with operator< of co_timer.cpp 136-139: elements are equal if they expire at the same time. *)
Fixpoint insert (ex : nat -> nat) (t : nat) (l : list nat) : list nat :=
  match l with
  | [] => [t]
  | u :: r => if ex t <? ex u then t :: l else if ex u <? ex t then u :: insert ex t r else l
  end.
(** std::set::erase(key) with the same order. *)
Definition erase (ex : nat -> nat) (t : nat) (l : list nat) : list nat := filter (fun u => negb (ex u =? ex t)) l.
(** insert_timer_to_queue__, remove_timer_from_queue__ (co_manager.cpp 493-505). *)
Definition do_insert (s : tst) (t : nat) : tst := setntf (setq s (insert (exp s) t (q s))) true.
(** See do_insert. *)
Definition do_erase (s : tst) (t : nat) : tst := setntf (setq s (erase (exp s) t (q s))) true.
(** update_timeout_time__ (co_timer.cpp 87-93). *)
Definition due (k : nat -> tkind) (s : tst) (t : nat) : nat :=
  match k t with KOnce i | KLoop i => now s + i | KAbs _ => exp s t end.
(** Whether mu_timer_queue__ (co_manager.h 47) is free for a calling thread: the timer thread has it except in its waits (co_manager.cpp 351, 357, 382). *)
Definition qfree (s : tst) : bool := match rp s with RWaitE | RWaitU _ => true | _ => false end.
(** Whether a thread can lock mutex__ of timer t (recursive, co_timer.h 44); whether it did not have it. *)
Definition mine (s : tst) (a t : nat) : option bool :=
  match mu s t with None => Some true | Some b => if a =? b then Some false else None end.
(** End of the scoped_lock (co_timer.cpp 59, 71, 124): unlock if this call took it. *)
Definition release (s : tst) (t : nat) (own : bool) : tst := if own then setmu s t None else s.

(** Labels: time passes; thread a calls start or stop of t; goes on; begins the launched callback of t; leaves it; the timer
    thread goes on; it wakes up spuriously. *)
Inductive tlbl := LClock (d : nat) | LStart (a t : nat) | LStop (a t : nat) | LGo (a : nat) | LRun (a t : nat) | LRet (a : nat) | LTimer | LSpur.
(** [TEmpty]: *begin() of an empty set. *)
Inductive tres := TOk (s : tst) | TEmpty.

(** timer_routine__ (co_manager.cpp 349-385). *)
Definition tstep (k : nat -> tkind) (s : tst) : option tres :=
  match rp s with
  | RLoop => Some (TOk (match q s with [] => tlog (KSleep (now s)) (setntf (setrp s RWaitE) false) | _ => setrp s RFront end))
  | RWaitE => if ntf s then Some (TOk (setrp s RFront)) else None
  | RWaitU e => if ntf s || (e <=? now s) then Some (TOk (setrp s RLoop)) else None
  | RFront => Some (match q s with [] => TEmpty | t :: _ => TOk (setrp s (RChk t)) end)
  | RChk t => match mu s t with
              | None => Some (TOk (if exp s t <=? now s then setrp s (RFire t)
                                   else tlog (KSleep (now s)) (setntf (setrp s (RWaitU (exp s t))) false)))
              | Some _ => None
              end
  | RFire t => Some (TOk (tlog (KFire t (now s)) (setcb (setrp s (RPost t)) t (S (cb s t)))))
  | RPost t => match mu s t with
               | None => if st s t
                         then Some (TOk (do_erase (setst (setrp s (match k t with KLoop _ => RAgain t | _ => RLoop end)) t false) t))
                         else Some (TOk (setrp s (match k t with KLoop _ => RAgain t | _ => RLoop end)))
               | Some _ => None
               end
  | RAgain t => match mu s t with
                | None => if st s t then Some (TOk (setrp s RLoop))
                          else let s1 := setst (setexp (setrp s RLoop) t (due k s t)) t true in
                               Some (TOk (tlog (KStart t (due k s t)) (do_insert s1 t)))
                | Some _ => None
                end
  end.
(** All steps: start (co_timer.cpp 57-67), stop (69-79), run (122-129). *)
Definition step (k : nat -> tkind) (s : tst) (l : tlbl) : option tres :=
  match l with
  | LClock d => Some (TOk (setnow s (now s + d)))
  | LStart a t =>
      match pc s a, mine s a t with
      | AIdle, Some own =>
          if st s t then Some (TOk (tlog (KAgain t (exp s t)) s))
          else Some (TOk (setpc (setmu (setst (setexp s t (due k s t)) t true) t (Some a)) a (AIns t own)))
      | _, _ => None
      end
  | LStop a t =>
      match pc s a, mine s a t with
      | AIdle, Some own =>
          if st s t then Some (TOk (setpc (setmu (setst s t false) t (Some a)) a (AEra t own)))
          else Some (TOk (tlog (KStop t) s))
      | _, _ => None
      end
  | LGo a =>
      match pc s a with
      | AIdle => None
      | AIns t own => if qfree s then Some (TOk (tlog (KStart t (exp s t)) (release (do_insert (setpc s a AIdle) t) t own))) else None
      | AEra t own => if qfree s then Some (TOk (tlog (KStop t) (release (do_erase (setpc s a AIdle) t) t own))) else None
      end
  | LRun a t =>
      match pc s a, mine s a t, incb s a, cb s t with
      | AIdle, Some own, None, S n => Some (TOk (tlog (KRun t (now s)) (setin (setmu (setcb s t n) t (Some a)) a (Some (t, own)))))
      | _, _, _, _ => None
      end
  | LRet a =>
      match pc s a, incb s a with
      | AIdle, Some (t, own) => Some (TOk (release (setin s a None) t own))
      | _, _ => None
      end
  | LTimer => tstep k s
  | LSpur => match rp s with
             | RWaitE => Some (TOk (setrp s RFront))
             | RWaitU _ => Some (TOk (setrp s RLoop))
             | _ => None
             end
  end.
(** A step with a proper outcome. *)
Definition step_ok (k : nat -> tkind) (s : tst) (l : tlbl) : option tst := match step k s l with Some (TOk s') => Some s' | _ => None end.
