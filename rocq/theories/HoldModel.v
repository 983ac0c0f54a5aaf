(** Model of the schedule lock of one thread during timed waits: wait_until (include/cocpp/sync/co_condition_variable.h
    91-117 and 125-157), schedule_switch, prepare_to_switch, sleep_if_need__ and wake_up (source/cocpp/core/co_env.cpp
    311-329, 241-294, 667-685, 660-665).  schedule_lock__ is a recursive mutex (co_env.cpp 770-783); the thread of the env
    holds it [dep] times.  Other threads take it only for single critical sections, so they hold it in no state of the model.
    Line numbers without a file name refer to co_env.cpp, those after cv to co_condition_variable.h.

    Simplifications.  The thread has a fixed number of coroutines.  Which resources a coroutine waits for is left out: the
    WAITING flag is set and cleared as a whole.  Spin locks and mutexes appear only as yields a coroutine may make: yields
    without WAITING in the first part of wait_until (spin locks), yields with or without it in the re-acquisition.  A coroutine that has set
    WAITING does nothing but yield, so it neither starts nor ends a wait_until then. *)
From Coq Require Import List Arith Bool.
From Verif Require Import Base HoldSpec.
Import ListNotations.

(** Where a coroutine is: elsewhere; in wait_until holding the guard (cv 93-109 or 129-147); after
    enter_wait_resource_state (cv 109, 147); after CoUnlockSchedule (cv 111, 148); after its CoYield (cv 112, 149); after
    CoLockSchedule, in lock.lock() or the predicate (cv 114, 151-152); finished. *)
Inductive hpc := CUser | CWu | CWw | CUn | CYd | CLk | CDone.
(** The thread: in a coroutine; in schedule_switch with the lock taken (313); between unlock_schedule and the check of the
    sleep (258-259, 410-411); in cv_sleep__.wait, notified or not (673, 682); after the sleep (263, 412). *)
Inductive hph := TRun (c : nat) | TPrep | TChk | TSlp (n : bool) | TUp.
(** The calls of leave_wait_resource_state by other threads: none, or before wake_up (co_ctx.cpp 202-205). *)
Record hst := mkH { pcs : nat -> hpc; wt : nat -> bool; ph : hph; dep : nat; hag : nat -> bool; hh : hhist }.

(** All coroutines fresh, the thread in its scheduling loop (388-402). *)
Definition hinit : hst := mkH (fun _ => CUser) (fun _ => false) TUp 0 (fun _ => false) [].

(** co_ctx::can_schedule (co_ctx.cpp 141-144). *)
Definition hrun (s : hst) (c : nat) : bool := match pcs s c with CDone => false | _ => negb (wt s c) end.
(** can_schedule__ (502-512) for coroutines 0 .. n-1. *)
Definition hany (s : hst) (n : nat) : bool := existsb (hrun s) (seq 0 n).

(** The steps. *)
Inductive hlbl :=
| LTimed             (* cv 93, 129 *)
| LEnter             (* enter_wait_resource_state: cv 109, 147, co_mutex.cpp 58, or elsewhere *)
| LUnl               (* cv 111, 148 *)
| LYield             (* CoYield: 313 *)
| LRelock            (* cv 113, 150 *)
| LGot               (* the end of wait_until: destructor of the guard of cv 93, 129 *)
| LLoop              (* cv 152: the predicate is false and there was no timeout *)
| LFin               (* the coroutine ends (co_ctx.cpp 77-79) and yields *)
| LPick (d : nat)    (* 244, 273, 306-308, or the first entry of d; the unlock of 306 or of the defer of 314 *)
| LIdle              (* 244: nothing to run; 258 *)
| LChk               (* the check of the sleep: 671, 680 *)
| LRise              (* the end of cv_sleep__.wait *)
| LAgain             (* the loop of start_schedule_routine__ goes on with schedule_switch: 396-399, 313 *)
| LAsleep            (* the loop sleeps: 410-411 *)
| LOwn (d : nat)     (* a coroutine of this thread ends the wait of d *)
| LRel (k d : nat)   (* another thread ends the wait of d: co_ctx.cpp 194-201 *)
| LWake (k : nat).   (* its wake_up: 660-665 *)

(** Field assignments: program counter (cv 91-157), WAITING flag (co_ctx.cpp 186, 199), phase and lock depth (770-783). *)
Definition setpc (s : hst) (c : nat) (p : hpc) : hst := mkH (upd (pcs s) c p) (wt s) (ph s) (dep s) (hag s) (hh s).
(** co_ctx.cpp 186, 199. *)
Definition setwt (s : hst) (c : nat) (b : bool) : hst := mkH (pcs s) (upd (wt s) c b) (ph s) (dep s) (hag s) (hh s).
(** 770-783. *)
Definition setph (s : hst) (p : hph) (d : nat) : hst := mkH (pcs s) (wt s) p d (hag s) (hh s).
(** Ghost history; no counterpart in the code. *)
Definition hlog (e : hev) (s : hst) : hst := mkH (pcs s) (wt s) (ph s) (dep s) (hag s) (e :: hh s).

(** One step of a thread with coroutines 0 .. n-1, with the lines cited at the label. *)
Definition hstep (n : nat) (s : hst) (l : hlbl) : option hst :=
  match l with
  | LTimed => match ph s with
              | TRun c => match pcs s c, wt s c with
                          | CUser, false => Some (hlog (HTimed c) (setph (setpc s c CWu) (TRun c) (S (dep s))))
                          | _, _ => None
                          end
              | _ => None
              end
  | LEnter => match ph s with
              | TRun c => match pcs s c with
                          | CUser | CLk => Some (setwt s c true)
                          | CWu => Some (setpc (setwt s c true) c CWw)
                          | _ => None
                          end
              | _ => None
              end
  | LUnl => match ph s with
            | TRun c => match pcs s c with CWw => Some (setph (setpc s c CUn) (TRun c) (dep s - 1)) | _ => None end
            | _ => None
            end
  | LYield => match ph s with
              | TRun c => match pcs s c with
                          | CUser | CWu | CLk => Some (setph s TPrep (S (dep s)))
                          | CUn => Some (setph (setpc s c CYd) TPrep (S (dep s)))
                          | _ => None
                          end
              | _ => None
              end
  | LRelock => match ph s with
               | TRun c => match pcs s c with CYd => Some (hlog (HRelock c) (setph (setpc s c CLk) (TRun c) (S (dep s)))) | _ => None end
               | _ => None
               end
  | LGot => match ph s with
            | TRun c => match pcs s c, wt s c with
                        | CLk, false => Some (hlog (HGot c) (setph (setpc s c CUser) (TRun c) (dep s - 1)))
                        | _, _ => None
                        end
            | _ => None
            end
  | LLoop => match ph s with
             | TRun c => match pcs s c, wt s c with CLk, false => Some (hlog (HGot c) (setpc s c CWu)) | _, _ => None end
             | _ => None
             end
  | LFin => match ph s with
            | TRun c => match pcs s c with CUser => Some (setph (setpc s c CDone) TPrep (S (dep s))) | _ => None end
            | _ => None
            end
  | LPick d => match ph s with
               | TPrep => if (d <? n) && hrun s d then Some (setph s (TRun d) (dep s - 1)) else None
               | _ => None
               end
  | LIdle => match ph s with TPrep => if hany s n then None else Some (setph s TChk (dep s - 1)) | _ => None end
  | LChk => match ph s with
            | TChk => if hany s n then Some (setph s TUp (dep s)) else Some (hlog HSleep (setph s (TSlp false) (dep s)))
            | _ => None
            end
  | LRise => match ph s with TSlp _ => Some (hlog HUp (setph s TChk (dep s))) | _ => None end
  | LAgain => match ph s with TUp => Some (setph s TPrep (S (dep s))) | _ => None end
  | LAsleep => match ph s with TUp => Some (setph s TChk (dep s)) | _ => None end
  | LOwn d => match ph s with TRun _ => Some (setwt s d false) | _ => None end
  | LRel k d => if hag s k then None
                else Some (mkH (pcs s) (upd (wt s) d false) (ph s) (dep s) (upd (hag s) k true) (HRel k d :: hh s))
  | LWake k => if hag s k
               then match dep s with
                    | 0 => Some (mkH (pcs s) (wt s) (match ph s with TSlp _ => TSlp true | p => p end) 0 (upd (hag s) k false)
                                     (HRet k :: HNote k :: hh s))
                    | S _ => None
                    end
               else None
  end.
