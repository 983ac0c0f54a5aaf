(** Model of the error number during the I/O loops of co_io and co_net (source/cocpp/io/co_io.cpp 49-91, co_net.cpp 31-50, 106-219) when coroutines are
    switched between the system call and the look at errno, by the switch signal (co_vos_gcc_x86_64.cpp 143-163; can_force_schedule, co_env.cpp
    687-690, holds there, since these loops take no CoPreemptGuard).  errno belongs to the thread (errno(3)), and neither a switch nor the
    signal handler (co_exception.cpp 129-150) saves it.  Simplifications: one I/O call per coroutine; the next coroutine of a thread is any of its
    suspended ones.  In the code as it is a coroutine stays on the thread it was put on (C44); [moves]: as steal_ctx_routine__ and
    redistribute_ctx__ (co_manager.cpp 266-306, 441-491) would do it, any suspended coroutine may come to any thread. *)
From Coq Require Import List Arith ZArith Bool.
From Verif Require Import Base IoSpec IoModel.
Import ListNotations.

(** Where a coroutine is: elsewhere; before the system call (co_io.cpp 53); after it with ret, before errno is looked at (54-56); returned (64, 67). *)
Inductive eph := XIdle | XSys | XJudge (ret : Z) | XDone (r : Z).
(** errno of each thread; the coroutine each thread runs, the thread each coroutine is on; phases; answers each coroutine got (ghost, oldest first). *)
Record est := mkE { errs : nat -> errno; run_on : nat -> option nat; at_ : nat -> option nat; eph_of : nat -> eph; answers : nat -> list ans }.
Inductive elbl :=
| EBegin (c : nat)          (* c calls read, write, ... *)
| ESys (c : nat) (a : ans)  (* its system call (co_io.cpp 53, 75) *)
| EJudge (c : nat)          (* it looks at ret and errno (54-67, 76-89) *)
| ENoise (c : nat) (e : errno) (* c does something else that sets errno *)
| ESwitch (t c : nat).      (* thread t goes over to coroutine c: by CoYield (58, 80) or by the signal *)
(** The lines are given with the labels.  [guard]: with preemption closed from the system call to the look at errno; the code does not do that.
    [home]: the thread of each coroutine. *)
Definition estep (retry : errno -> bool) (guard moves : bool) (home : nat -> nat) (s : est) (l : elbl) : option est :=
  match l with
  | EBegin c => match at_ s c, eph_of s c with
                | Some _, XIdle => Some (mkE (errs s) (run_on s) (at_ s) (upd (eph_of s) c XSys) (answers s))
                | _, _ => None
                end
  | ESys c a => match at_ s c, eph_of s c, match a with Ret n => (Z.of_nat n <=? maxrw)%Z | Err _ => true end with
                | Some t, XSys, true =>
                    let (ret, e) := sysret a (errs s t) in
                    Some (mkE (upd (errs s) t e) (run_on s) (at_ s) (upd (eph_of s) c (XJudge ret)) (upd (answers s) c (answers s c ++ [a])))
                | _, _, _ => None
                end
  | EJudge c => match at_ s c, eph_of s c with
                | Some t, XJudge ret =>
                    Some (mkE (errs s) (run_on s) (at_ s)
                              (upd (eph_of s) c (match round retry ret (errs s t) with None => XSys | Some r => XDone r end)) (answers s))
                | _, _ => None
                end
  | ENoise c e => match at_ s c, eph_of s c with
                  | Some t, (XIdle | XDone _) => Some (mkE (upd (errs s) t e) (run_on s) (at_ s) (eph_of s) (answers s))
                  | _, _ => None
                  end
  | ESwitch t c => if match run_on s t with Some d => guard && match eph_of s d with XJudge _ => true | _ => false end | None => false end then None
                   else match at_ s c, moves || (home c =? t) with
                        | None, true => Some (mkE (errs s) (upd (run_on s) t (Some c))
                                            (upd (match run_on s t with Some d => upd (at_ s) d None | None => at_ s end) c (Some t)) (eph_of s) (answers s))
                        | _, _ => None
                        end
  end.
(** At first no coroutine runs; the threads have any errno. *)
Definition einit (e0 : nat -> errno) : est := mkE e0 (fun _ => None) (fun _ => None) (fun _ => XIdle) (fun _ => []).
