(** co_timed_addition<Lock> (include/cocpp/sync/co_timed_addition.h 11-44) on top of co_mutex, co_recursive_mutex and
    co_shared_mutex (co_timed_mutex.h 9, co_recursive_timed_mutex.h 9, co_shared_timed_mutex.h 13-43).

    The timed methods only call the try methods of the mutex, so the model is a client of the model of the mutex: [ustep]
    steps of the mutex stay as they are, a coroutine is inside at most one timed method. *)
From Coq Require Import List Arith Bool.
From Verif Require Import Base LinSpec TimedSpec MutexSpec MutexModel SharedMutexSpec SpinObj RecMutexModel SharedMutexModel.
Import ListNotations.
Set Implicit Arguments.

(** How the wrapper sees the model of a mutex.  Not code: names for parts of the models below.
    [f_step], [f_hist]: its steps and API history; [f_call t o]: the label of a call; [f_run], [f_who]: is the label a step of a
    coroutine inside, and whose; [f_in]: the method the coroutine is in; [f_ret]: the coroutine is at
    the return statement, with this value; [f_mark]: it is marked as waiting for the mutex (co_ctx.cpp 181-207);
    [f_true]: the value converted to bool (co_timed_addition.h 35); [f_try]: the try methods. *)
Record face (U L Op Res Aux : Type) := mkFace {
  f_step : U -> L -> option U;
  f_hist : U -> list (ev Op Res Aux);
  f_call : tid -> Op -> L;
  f_run : L -> bool;
  f_who : L -> tid;
  f_in : U -> tid -> option Op;
  f_ret : U -> tid -> option Res;
  f_mark : U -> tid -> bool;
  f_true : Res -> bool;
  f_try : Op -> bool
}.

(** The local variables of a timed method: timeout_time (co_timed_addition.h 30); the rest is ghost (start of the call,
    limit as given, readings of the clock, history at the start). *)
Record frame (Op Res Aux : Type) := mkFr {
  r_o : Op; r_lim : limit; r_start : nat; r_dl : nat; r_reads : list nat; r_h0 : list (ev Op Res Aux)
}.

(** Position in try_lock_until, co_timed_addition.h 30-44 (and try_lock_shared_until, co_shared_timed_mutex.h 28-43).
    The preemption guards (32, 39, 41) are not modelled: every interleaving is considered anyway. *)
Inductive tpc (Op Res Aux : Type) :=
| TOut
| TTry (c : frame Op Res Aux)             (* 35: about to call try_lock() *)
| TIn (c : frame Op Res Aux)              (* 35: inside try_lock() *)
| TYield (c : frame Op Res Aux)           (* 40: CoYield() *)
| TTest (c : frame Op Res Aux)            (* 42: steady_clock::now() < timeout_time *)
| TRet (c : frame Op Res Aux) (b : bool). (* 37 / 43 *)
Arguments TOut {Op Res Aux}.

(** [clk] is std::chrono::steady_clock. [fin] is ghost: the finished timed calls. *)
Record tst (U Op Res Aux : Type) := mkTs {
  mu : U; tp : tid -> tpc Op Res Aux; clk : nat; fin : list (tcall Op Res Aux)
}.

Inductive tlbl (L Op : Type) :=
| LU (l : L)                          (* a step of the mutex, or a direct call of one of its methods *)
| LBegin (t : tid) (o : Op) (a : limit) (* a call of try_lock_for/until (or the shared ones) *)
| LGo (t : tid)                       (* a step of the wrapper itself *)
| LTick (k : nat).                    (* time passes *)
Arguments LU {L Op}.
Arguments LBegin {L Op}.
Arguments LGo {L Op}.
Arguments LTick {L Op}.

Section Wrap.
  Variables (U L Op Res Aux : Type).
  Variable F : face U L Op Res Aux.
  Notation S := (tst U Op Res Aux).

  (** Assignments to the state above; no code of their own. *)
  Definition settp (s : S) (t : tid) (p : tpc Op Res Aux) : S := mkTs (mu s) (upd (tp s) t p) (clk s) (fin s).
  (** See settp. *)
  Definition setmu (s : S) (u : U) : S := mkTs u (tp s) (clk s) (fin s).

  (** The step of the mutex in which coroutine [t], inside try_lock(), executes its return: 35-38. *)
  Definition after (s : S) (t : tid) : tid -> tpc Op Res Aux :=
    match tp s t, f_ret F (mu s) t with
    | TIn c, Some r => upd (tp s) t (if f_true F r then TRet c true else TYield c)
    | _, _ => tp s
    end.

  (** One step: the lines given beside it (co_timed_addition.h 23-44). *)
  Definition tstep (s : S) (lb : tlbl L Op) : option S :=
    match lb with
    | LU l =>
        if f_run F l then
          match f_step F (mu s) l with
          | Some u => Some (mkTs u (after s (f_who F l)) (clk s) (fin s))
          | None => None
          end
        else (* a coroutine inside a timed method makes no other call *)
          match tp s (f_who F l), f_step F (mu s) l with
          | TOut, Some u => Some (setmu s u)
          | _, _ => None
          end
    (* 23-26: try_lock_for adds the duration to the present time; 30 *)
    | LBegin t o a =>
        match tp s t, f_in F (mu s) t with
        | TOut, None =>
            if f_try F o
            then Some (settp s t (TTry (mkFr o a (clk s) (match a with Until d => d | For k => clk s + k end) []
                                            (f_hist F (mu s)))))
            else None
        | _, _ => None
        end
    | LGo t =>
        match tp s t with
        (* 35 *)
        | TTry c => match f_step F (mu s) (f_call F t (r_o c)) with
                    | Some u => Some (mkTs u (upd (tp s) t (TIn c)) (clk s) (fin s))
                    | None => None
                    end
        (* 40: the scheduler resumes only coroutines that wait for nothing (co_ctx.cpp 141-144) *)
        | TYield c => if f_mark F (mu s) t then None else Some (settp s t (TTest c))
        (* 42-43 *)
        | TTest c =>
            let c' := mkFr (r_o c) (r_lim c) (r_start c) (r_dl c) (clk s :: r_reads c) (r_h0 c) in
            Some (settp s t (if clk s <? r_dl c then TTry c' else TRet c' false))
        (* 37 / 43 *)
        | TRet c b =>
            Some (mkTs (mu s) (upd (tp s) t TOut) (clk s)
                       (mkTc t (r_o c) (r_lim c) (r_start c) (clk s) (r_reads c) (r_h0 c) (f_hist F (mu s)) b :: fin s))
        | _ => None
        end
    | LTick k => Some (mkTs (mu s) (tp s) (clk s + k) (fin s))
    end.

  (** Observers used in statements (not code): the frame of the timed method a coroutine is in; is the label a step of
      [t] itself; the number of timed calls of [t] that have returned. *)
  Definition frame_of (p : tpc Op Res Aux) : option (frame Op Res Aux) :=
    match p with TOut => None | TTry c | TIn c | TYield c | TTest c | TRet c _ => Some c end.
  (** See frame_of. *)
  Definition own_lbl (t : tid) (lb : tlbl L Op) : bool :=
    match lb with LGo x => Nat.eqb x t | LU l => f_run F l && Nat.eqb (f_who F l) t | _ => false end.
  (** See frame_of. *)
  Definition done (t : tid) (s : S) : nat := length (filter (fun c => Nat.eqb (c_t c) t) (fin s)).

  (** A fresh timed mutex, nobody in a timed method (co_timed_addition.h). *)
  Definition tinit (u : U) : S := mkTs u (fun _ => TOut) 0 [].
End Wrap.

(** co_mutex (MutexModel.v) seen by the wrapper: which method each position of co_mutex.cpp 17-108 belongs to. *)
Definition m_in (p : MutexModel.pc) : option mop :=
  match p with
  | Idle => None
  | LkSpin | LkTry | LkRel | LkYield | LkSpin2 | LkCheck2 | LkLoop | LkRel2 | LkPark | LkSpin3 | LkRet => Some OLock
  | TrySpin | TryBody | TryRet _ => Some OTry
  | UnSpin | UnBody | UnHand _ | UnRet _ => Some OUnlock
  end.
(** The return statements of co_mutex.cpp: 44/51/70, 79/82, 93/100/108. *)
Definition m_ret (p : MutexModel.pc) : option mres :=
  match p with
  | LkRet => Some ROk
  | TryRet b => Some (if b then RTrue else RFalse)
  | UnRet ok => Some (if ok then ROk else RThrow)
  | _ => None
  end.
(** co_timed_mutex.h 9. *)
Definition mutex_face : face st lbl mop mres maux :=
  mkFace step hist Call
    (fun l => match l with Call _ _ => false | Run _ _ => true end)
    (fun l => match l with Call t _ => t | Run t _ => t end)
    (fun s t => m_in (pcs s t)) (fun s t => m_ret (pcs s t)) waiting
    (fun r => mres_eqb r RTrue) (mop_eqb OTry).

(** Objects of SpinObj.v seen by the wrapper. *)
Section SpinFace.
  Variables (D Op Res Aux Loc : Type).
  (** The method a coroutine is in (lines as for SpinObj.fstep). *)
  Definition s_in (p : fpc Op Res Loc) : option Op :=
    match p with
    | FOut => None
    | FWant o _ | FIn o _ | FRelY o _ | FYield o _ | FMark o _ | FRelP o _ | FPark o _ | FUn o _ _ => Some o
    end.
  (** It is about to return (SpinObj.fstep, ~scoped_lock and return). *)
  Definition s_ret (p : fpc Op Res Loc) : option Res := match p with FUn _ [] r => Some r | _ => None end.
  (** Their steps and observations, as mutex_face does for co_mutex (co_recursive_timed_mutex.h 9, co_shared_timed_mutex.h 13-20). *)
  Definition spin_face (stp : fst_ D Op Res Aux Loc -> slbl Op -> option (fst_ D Op Res Aux Loc))
    (isT : Res -> bool) (tr : Op -> bool) : face (fst_ D Op Res Aux Loc) (slbl Op) Op Res Aux :=
    mkFace stp (@fhist D Op Res Aux Loc) SCall
      (fun l => match l with SCall _ _ => false | SRun _ _ => true end)
      (fun l => match l with SCall t _ => t | SRun t _ => t end)
      (fun s t => s_in (fpcs s t)) (fun s t => s_ret (fpcs s t)) (@fmark D Op Res Aux Loc) isT tr.
End SpinFace.

(** co_recursive_timed_mutex.h 9. *)
Definition rec_face := spin_face rstep (fun r => mres_eqb r RTrue) (mop_eqb OTry).
(** co_shared_timed_mutex.h 13-20: try_lock_for/until inherited, try_lock_shared_for/until its own. *)
Definition shared_face := spin_face sstep (fun r => sres_eqb r STrue) (fun o => sop_eqb WTry o || sop_eqb STry o).

(** The three timed mutexes, fresh. *)
Definition tm_step := tstep mutex_face.
(** See tm_step (co_timed_mutex.h 9). *)
Definition tm_init := @tinit st mop mres maux init.
(** See tm_step (co_recursive_timed_mutex.h 9). *)
Definition tr_step := tstep rec_face.
(** See tm_step (co_recursive_timed_mutex.h 9). *)
Definition tr_init := @tinit _ mop mres maux rinit.
(** See tm_step (co_shared_timed_mutex.h 13-20). *)
Definition ts_step := tstep shared_face.
(** See tm_step (co_shared_timed_mutex.h 13-20). *)
Definition ts_init := @tinit _ sop sres saux sinit.
