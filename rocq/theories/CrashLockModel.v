(** Model of a fatal signal that reaches a thread in the middle of a call: the handler of co_exception.cpp runs on that thread,
    which keeps the locks it holds, and takes those of the report and of exit (LockModel).

    Simplifications.  The order of the sections and the exit code are CrashModel's; here only locks matter.  A second signal ends
    the process by _exit (co_exception.cpp 64-68) and is not a step.  What the handler and exit do besides the library's locks
    (allocation, stdio) is left out; so is the wait for the manager's threads, in which exit holds nothing of its own. *)
From Coq Require Import List Arith Bool.
From Verif Require Import Base LockModel.
Import ListNotations.

(** handle_exception (co_exception.cpp 76-80): manager_info, then exit with the destructor of the manager (co_manager.cpp
    407-411), that is set_clean_up__ and the wait for the background threads; the interrupted call is never resumed. *)
Definition crash_prog (es ts : list nat) (n : nat) : prog := (manager_info es ts ;; set_clean_up es n) (Do Halt Ret).
(** Steps: one of the scheduler; a fatal signal for activity a, whose report goes over environments es and timers ts. *)
Inductive xlbl := XL (l : llbl) | XCrash (a : agent) (es ts : list nat) (n : nat).
(** The transition function: signal_handler runs on the thread the signal is delivered to (co_exception.cpp 129-160), whatever
    activity that thread executes. *)
Definition xstep (s : lst) (l : xlbl) : option lst :=
  match l with
  | XL l => lstep s l
  | XCrash a es ts n =>
      if aeqb (cur s (th a)) a && forallb (fun e => is_pub s (OE e)) es then Some (with_pr s a (crash_prog es ts n)) else None
  end.
