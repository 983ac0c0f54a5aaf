(** Model of what happens when a fatal signal is delivered: signal_handler and handle_exception of
    source/cocpp/exception/co_exception.cpp, and the destruction of the manager that exit() runs (ShutModel).

    Simplifications.  Fatal signals are those of co_manager.cpp 150 other than the switch signal and SIGPIPE.  A thread that is
    in the handler does nothing else, as the handler never returns for them.  A signal is not delivered to a thread inside the
    critical sections that ShutModel makes single steps; what the locks do then is CrashLock.  Writing to the file and
    reading /proc always succeed.  The cleaner interrupted inside its critical section would go one line further in exit before
    it waits.  The program does not end in any other way. *)
From Coq Require Import List Arith Bool.
From Verif Require Import Base ShutSpec ShutModel CrashSpec.
Import ListNotations.

(** handle_exception (co_exception.cpp 60-81) for signal n: before line 62; before the test (64); before the assignment (69);
    k sections printed (70-79); in the destructor of the manager, run by exit (80). *)
Inductive hpc := HLine (n : nat) | HTest (n : nat) | HSet (n : nat) | HRep (n k : nat) | HDtor (n : nat).
(** The signal being handled. No counterpart in the code. *)
Definition sig_of (h : hpc) : nat := match h with HLine n | HTest n | HSet n | HRep n _ | HDtor n => n end.
(** What became of the process: ended with a code; exit called a second time, which is undefined. *)
Inductive ending := Ended (code : nat) | Undefined.
(** The manager; in_exception (co_exception.cpp 63); the handlers each thread is in, innermost first; the end; ghost history. *)
Record cst := mkC { sh : sst; flag : bool; hp : thr -> list hpc; fate : option ending; evs : list cev }.
(** No signal has been delivered. *)
Definition cinit : cst := mkC sinit false (fun _ => []) None [].

(** Steps: one of the manager, the environments or the client; signal n reaches thread t; thread t goes on in the handler. *)
Inductive clbl := CS (l : slbl) | CSig (t : thr) (n : nat) | CH (t : thr).

(** The thread that makes a step; none for the insertion of a timer, which any thread may do. *)
Definition who (s : sst) (l : slbl) : option thr :=
  match l with
  | LMake t => Some t
  | LCur n | LSched n => Some (TUser n)
  | LIns => None
  | LFin e | LPub e => Some (own (envs s e))
  | LC | LFree _ | LSpurC => Some TCleaner
  | LM _ => Some TMonitor
  | LT _ | LTimeout | LSpurT => Some TTimer
  | LD => Some TDestroyer
  end.
(** Threads that signals can reach: those that run (co_manager.cpp 107-118, co_env.cpp 39-43). *)
Definition alive (s : sst) (t : thr) : bool :=
  match t with
  | TCleaner => match cp s with CEnd => false | _ => true end
  | TMonitor => match mp s with MEnd => false | _ => true end
  | TTimer => match tp s with REnd => false | _ => true end
  | TDestroyer => false
  | TUser _ => true
  | TWorker e => (e <? next s) && wrk (envs s e) && match ph (envs s e) with PGone => false | _ => true end
  end.
(** sigaction with an empty mask and no flags (co_exception.cpp 85-92): a signal is blocked only while it is handled. *)
Definition unmasked (hs : list hpc) (n : nat) : bool := negb (existsb (fun h => sig_of h =? n) hs).
(** manager_info (co_manager.cpp 507-560) can take mu_timer_queue__ and normal_lock, recursive locks. *)
Definition info_free (s : sst) (t : thr) : bool :=
  (negb (locked s) || match t with TCleaner => true | _ => false end) &&
  match tp s with RTest | RWait | RWaitU | REnd => true | _ => match t with TTimer => true | _ => false end end.

(** Field updates. No counterpart in the code. *)
Definition setsh (s : cst) (x : sst) : cst := mkC x (flag s) (hp s) (fate s) (evs s).
(** Field update. No counterpart in the code. *)
Definition sethp (s : cst) (t : thr) (x : list hpc) : cst :=
  mkC (sh s) (flag s) (fun u => if thr_eq u t then x else hp s u) (fate s) (evs s).
(** Event (ghost). *)
Definition cev1 (s : cst) (v : cev) : cst := mkC (sh s) (flag s) (hp s) (fate s) (v :: evs s).
(** exit and _exit reach their end (co_exception.cpp 67, 80). *)
Definition finish (s : cst) (code : nat) : cst := mkC (sh s) (flag s) (hp s) (Some (Ended code)) (WEnd code :: evs s).

(** handle_exception (co_exception.cpp 60-81) on thread t, whose innermost handler is h. *)
Definition hstep (s : cst) (t : thr) (h : hpc) (r : list hpc) : option cst :=
  match h with
  | HLine n => Some (cev1 (sethp s t (HTest n :: r)) (WLine t n))
  | HTest n => if flag s then Some (finish (cev1 s (WAgain t n)) (128 - n)) else Some (sethp s t (HSet n :: r))
  | HSet n => Some (mkC (sh s) true (fun u => if thr_eq u t then HRep n 0 :: r else hp s u) (fate s) (WBegin t :: evs s))
  | HRep n k =>
      if k <? 4 then Some (cev1 (sethp s t (HRep n (S k) :: r)) (WSec t k))
      else if k =? 4 then if info_free (sh s) t then Some (cev1 (sethp s t (HRep n (S k) :: r)) (WSec t k)) else None
      else match dp (sh s) with
           | DNone => match dstep (sh s) with
                      | Some x => Some (cev1 (sethp (setsh s x) t (HDtor n :: r)) (WExit t))
                      | None => None
                      end
           | _ => Some (mkC (sh s) (flag s) (hp s) (Some Undefined) (WExit t :: evs s))
           end
  | HDtor n => match dp (sh s) with
               | DRet => Some (finish s (128 - n))
               | _ => option_map (setsh s) (dstep (sh s))
               end
  end.
(** All steps. *)
Definition step (s : cst) (l : clbl) : option cst :=
  match fate s with
  | Some _ => None
  | None =>
      match l with
      | CS l => match who (sh s) l with
                | Some TDestroyer => None
                | Some t => match hp s t with [] => option_map (setsh s) (sstep (sh s) l) | _ => None end
                | None => option_map (setsh s) (sstep (sh s) l)
                end
      | CSig t n => if alive (sh s) t && unmasked (hp s t) n then Some (cev1 (sethp s t (HLine n :: hp s t)) (WSig t n)) else None
      | CH t => match hp s t with h :: r => hstep s t h r | [] => None end
      end
  end.
