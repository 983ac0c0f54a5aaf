(** Objects protected by one co_spinlock whose callers may park: co_recursive_mutex and co_shared_mutex
    (co_mutex has its own, more detailed model in MutexModel.v).

    Their methods have the form (e.g. source/cocpp/sync/co_recursive_mutex.cpp 14-107)
      scoped_lock lock(spinlock__);  ...access the data...;
        - and return (possibly after obj->leave_wait_resource_state(this) for some coroutines), or
        - spinlock__.unlock(); CoYield(); spinlock__.lock(); continue, or
        - ctx->enter_wait_resource_state(this); spinlock__.unlock(); CoYield(); spinlock__.lock(); continue.
    [seg] is one block of accesses made while the spin lock is held.

    Two semantics are given: the fine-grained one ([fstep]: spin lock, wait marks and each wake-up
    are separate steps) and the atomic one ([astep]: a block is one step).  SpinObjProofs.v shows
    that every fine-grained execution is matched by an atomic one with the same API history. *)
From Coq Require Import List Arith Bool.
From Verif Require Import Base LinSpec.
Import ListNotations.
Set Implicit Arguments.

Section SpinObj.
  Variables (D Op Res Aux Loc : Type).

  (** How a block ends. *)
  Inductive sout :=
  | SYield (d : D) (l : Loc)                 (* unlock; CoYield; lock; continue at l *)
  | SPark (d : D) (xs : list Aux) (l : Loc)  (* enter_wait_resource_state; unlock; CoYield; lock; continue at l *)
  | SFin (d : D) (lin : list (tid * Op * Res)) (* the operations that take effect now, oldest first (ghost) *)
         (gr : list tid)                     (* leave_wait_resource_state of these, in order *)
         (r : Res).                          (* and return r *)

  Variable entry : Op -> Loc.
  Variable seg : tid -> Op -> Loc -> bool -> D -> sout.

  (** A call of a method; the next step of a coroutine ([b]: the answer of the clock, co_utils.cpp 10). *)
  Inductive slbl := SCall (t : tid) (o : Op) | SRun (t : tid) (b : bool).

  (** Ghost history; no code. *)
  Definition log_lin (lin : list (tid * Op * Res)) (h : list (ev Op Res Aux)) : list (ev Op Res Aux) :=
    fold_left (fun h x => ELin (fst (fst x)) (snd (fst x)) (snd x) :: h) lin h.
  (** Ghost history; no code. *)
  Definition log_xs (t : tid) (xs : list Aux) (h : list (ev Op Res Aux)) : list (ev Op Res Aux) :=
    fold_left (fun h x => EAux t x :: h) xs h.

  (** ** Fine-grained semantics. *)
  Inductive fpc :=
  | FOut
  | FWant (o : Op) (l : Loc)   (* spinlock__.lock(): co_spinlock.cpp 12-18 *)
  | FIn (o : Op) (l : Loc)     (* spin lock held: the block *)
  | FRelY (o : Op) (l : Loc)   (* spinlock__.unlock() before CoYield *)
  | FYield (o : Op) (l : Loc)  (* CoYield() while waiting for nothing *)
  | FMark (o : Op) (l : Loc)   (* ctx->enter_wait_resource_state(this): co_ctx.cpp 181-190 *)
  | FRelP (o : Op) (l : Loc)   (* spinlock__.unlock() before sleeping *)
  | FPark (o : Op) (l : Loc)   (* CoYield() while marked: resumed when the mark is gone (co_ctx.cpp 141-144) *)
  | FUn (o : Op) (gr : list tid) (r : Res). (* leave_wait_resource_state of each of gr (co_ctx.cpp 192-207),
                                               then ~scoped_lock and return/throw *)

  (** The spin lock (co_spinlock.h), the data, the wait marks (co_ctx.cpp 181-207), where each coroutine is, ghost history. *)
  Record fst_ := mkF { fspin : bool; fdat : D; fmark : tid -> bool; fpcs : tid -> fpc; fhist : list (ev Op Res Aux) }.

  (** One step: the lines given with the program counters; co_recursive_mutex.cpp 14-107, co_shared_mutex.cpp 16-183. *)
  Definition fstep (s : fst_) (lb : slbl) : option fst_ :=
    match lb with
    | SCall t o =>
        match fpcs s t with
        | FOut => Some (mkF (fspin s) (fdat s) (fmark s) (upd (fpcs s) t (FWant o (entry o))) (ECall t o :: fhist s))
        | _ => None
        end
    | SRun t b =>
        match fpcs s t with
        | FOut => None
        | FWant o l => if fspin s then None
                       else Some (mkF true (fdat s) (fmark s) (upd (fpcs s) t (FIn o l)) (fhist s))
        | FIn o l =>
            match seg t o l b (fdat s) with
            | SYield d l' => Some (mkF (fspin s) d (fmark s) (upd (fpcs s) t (FRelY o l')) (fhist s))
            | SPark d xs l' => Some (mkF (fspin s) d (fmark s) (upd (fpcs s) t (FMark o l')) (log_xs t xs (fhist s)))
            | SFin d lin gr r => Some (mkF (fspin s) d (fmark s) (upd (fpcs s) t (FUn o gr r)) (log_lin lin (fhist s)))
            end
        | FRelY o l => Some (mkF false (fdat s) (fmark s) (upd (fpcs s) t (FYield o l)) (fhist s))
        | FYield o l => if fmark s t then None
                        else Some (mkF (fspin s) (fdat s) (fmark s) (upd (fpcs s) t (FWant o l)) (fhist s))
        | FMark o l => Some (mkF (fspin s) (fdat s) (upd (fmark s) t true) (upd (fpcs s) t (FRelP o l)) (fhist s))
        | FRelP o l => Some (mkF false (fdat s) (fmark s) (upd (fpcs s) t (FPark o l)) (fhist s))
        | FPark o l => if fmark s t then None
                       else Some (mkF (fspin s) (fdat s) (fmark s) (upd (fpcs s) t (FWant o l)) (fhist s))
        | FUn o (g :: gr) r => Some (mkF (fspin s) (fdat s) (upd (fmark s) g false) (upd (fpcs s) t (FUn o gr r)) (fhist s))
        | FUn o [] r => Some (mkF false (fdat s) (fmark s) (upd (fpcs s) t FOut) (ERet t o r :: fhist s))
        end
    end.

  (** A fresh object (co_recursive_mutex.h 16-19, co_shared_mutex.h 30-33). *)
  Definition finit (d : D) : fst_ := mkF false d (fun _ => false) (fun _ => FOut) [].

  (** ** Atomic semantics. *)
  Inductive ath :=
  | AOut
  | AReady (o : Op) (l : Loc)
  | AParked (o : Op) (l : Loc)
  | ADone (o : Op) (r : Res).

  (** The same without the spin lock. *)
  Record ast := mkA { adat : D; athr : tid -> ath; amark : tid -> bool; ahist : list (ev Op Res Aux) }.

  (** leave_wait_resource_state of each of gr (co_ctx.cpp 192-207). *)
  Definition unmark (gr : list tid) (m : tid -> bool) : tid -> bool :=
    fun t => if existsb (Nat.eqb t) gr then false else m t.

  (** A whole block at once (lines as for fstep). *)
  Definition ado (s : ast) (t : tid) (o : Op) (l : Loc) (b : bool) : ast :=
    match seg t o l b (adat s) with
    | SYield d l' => mkA d (upd (athr s) t (AReady o l')) (amark s) (ahist s)
    | SPark d xs l' => mkA d (upd (athr s) t (AParked o l')) (upd (amark s) t true) (log_xs t xs (ahist s))
    | SFin d lin gr r => mkA d (upd (athr s) t (ADone o r)) (unmark gr (amark s)) (log_lin lin (ahist s))
    end.

  (** A call; a block; the return. *)
  Inductive albl := ACall (t : tid) (o : Op) | ARun (t : tid) (b : bool) | ALeave (t : tid).

  (** One step of the atomic semantics (lines as for fstep). *)
  Definition astep (s : ast) (lb : albl) : option ast :=
    match lb with
    | ACall t o =>
        match athr s t with
        | AOut => Some (mkA (adat s) (upd (athr s) t (AReady o (entry o))) (amark s) (ECall t o :: ahist s))
        | _ => None
        end
    | ARun t b =>
        match athr s t with
        | AReady o l => Some (ado s t o l b)
        | AParked o l => if amark s t then None else Some (ado s t o l b)
        | _ => None
        end
    | ALeave t =>
        match athr s t with
        | ADone o r => Some (mkA (adat s) (upd (athr s) t AOut) (amark s) (ERet t o r :: ahist s))
        | _ => None
        end
    end.

  (** A fresh object (lines as for finit). *)
  Definition ainit (d : D) : ast := mkA d (fun _ => AOut) (fun _ => false) [].

  (** No coroutine inside can move. *)
  Definition fquiet (s : fst_) : Prop := forall t b, fstep s (SRun t b) = None.
  (** The same of the atomic semantics. *)
  Definition aquiet (s : ast) : Prop := forall t, (forall b, astep s (ARun t b) = None) /\ astep s (ALeave t) = None.
End SpinObj.

Arguments SYield {D Op Res Aux Loc}.
Arguments SPark {D Op Res Aux Loc}.
Arguments SFin {D Op Res Aux Loc}.
Arguments SCall {Op}.
Arguments SRun {Op}.
Arguments ACall {Op}.
Arguments ARun {Op}.
Arguments ALeave {Op}.
Arguments FOut {Op Res Loc}.
Arguments FWant {Op Res Loc}.
Arguments FIn {Op Res Loc}.
Arguments FRelY {Op Res Loc}.
Arguments FYield {Op Res Loc}.
Arguments FMark {Op Res Loc}.
Arguments FRelP {Op Res Loc}.
Arguments FPark {Op Res Loc}.
Arguments FUn {Op Res Loc}.
Arguments AOut {Op Res Loc}.
Arguments AReady {Op Res Loc}.
Arguments AParked {Op Res Loc}.
Arguments ADone {Op Res Loc}.
