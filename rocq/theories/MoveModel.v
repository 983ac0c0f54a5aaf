(** Model of the counters that hold off preemption, one per env (count__ of schedule_lock__, source/cocpp/core/co_env.cpp 770-833), when coroutines are
    moved from env to env (take_all_movable_ctx, take_one_movable_ctx, co_env.cpp 575-612; steal_ctx_routine__ and redistribute_ctx__,
    co_manager.cpp 266-306, 441-491).  In the code as it is nothing is ever moved (C44); GuardModel.v treats that case in detail.  Here coroutines run
    programs of the operations on the counters, see the examples below. *)
From Coq Require Import List Arith ZArith Bool.
From Verif Require Import Base.
Import ListNotations.
Local Open Scope Z_scope.

(** CoPreemptGuard (co_define.h 127) takes the lock of the current env by reference (IRef) and raises its counter (IInc, co_env.cpp 824-828);
    CoEnablePreempt and CoDisablePreempt (co_define.h 128-129) lower and raise the counter of the env that is current then; CoYield (121); the
    destructor of the guard lowers the counter of the lock it refers to (co_env.cpp 830-833).  Simplification: the assertions on the sign of the counter
    (co_env.cpp 804, 810) are taken as compiled out; with them the program ends at the first negative counter. *)
Inductive instr := IRef | IInc | IEnable | IDisable | IYield | IDrop.
(** co_mutex::lock with k rounds of waiting (co_mutex.cpp 17-69: guard 19, rounds 36-38 or 63-65). *)
Fixpoint rounds (k : nat) : list instr := match k with 0%nat => [] | S k => [IEnable; IYield; IDisable] ++ rounds k end.
(** See rounds; co_mutex.cpp 17-69. *)
Definition lock_prog (k : nat) : list instr := [IRef; IInc] ++ rounds k ++ [IDrop].
(** co_mutex::unlock (co_mutex.cpp 85-111): a guard and no switch. *)
Definition unlock_prog : list instr := [IRef; IInc; IDrop].

(** Counters; the coroutine each env runs; the env of each coroutine (co_ctx.cpp set_env); the locks its guards refer to, innermost first; what it still has
    to do; how often it has raised minus lowered counters (ghost). *)
Record mvst := mkMv { cnt : nat -> Z; cur : nat -> option nat; at_ : nat -> nat; refs : nat -> list nat; prog : nat -> list instr; dep : nat -> Z }.
Inductive mvlbl :=
| VExec (c : nat)      (* the next operation of c *)
| VPreempt (c : nat)   (* the signal: only if the counter is 0 (can_force_schedule, co_env.cpp 687-690) *)
| VPick (e c : nat)    (* env e goes on with c *)
| VMove (c e : nat).   (* c, not running (can_move, co_ctx.cpp 166-169), comes to env e (move_ctx_to_here, co_env.cpp 80); only if the counter of the env it
                          leaves is 0 (co_manager.cpp 287-290, 478-481: what is meant; there the caller itself has raised it, C44) *)
(** [moves]: moving corrected as intended (C44).  [fixed]: guards that act on the env that is current, and only coroutines outside guards are moved; the
    code does neither. *)
Definition mvstep (moves fixed : bool) (n : nat) (s : mvst) (l : mvlbl) : option mvst :=
  match l with
  | VExec c =>
      if (c <? n)%nat && match cur s (at_ s c) with Some d => (d =? c)%nat | None => false end then
        match prog s c with
        | [] => None
        | i :: r =>
            let bump x d rf := mkMv (upd (cnt s) x (cnt s x + d)) (cur s) (at_ s) (upd (refs s) c rf) (upd (prog s) c r) (upd (dep s) c (dep s c + d)) in
            match i with
            | IRef => Some (mkMv (cnt s) (cur s) (at_ s) (upd (refs s) c (at_ s c :: refs s c)) (upd (prog s) c r) (dep s))
            | IInc => match refs s c with x :: _ => Some (bump (if fixed then at_ s c else x) 1 (refs s c)) | [] => None end
            | IEnable => Some (bump (at_ s c) (-1) (refs s c))
            | IDisable => Some (bump (at_ s c) 1 (refs s c))
            | IDrop => match refs s c with x :: rf => Some (bump (if fixed then at_ s c else x) (-1) rf) | [] => None end
            | IYield => Some (mkMv (cnt s) (upd (cur s) (at_ s c) None) (at_ s) (refs s) (upd (prog s) c r) (dep s))
            end
        end
      else None
  | VPreempt c =>
      if (c <? n)%nat && match cur s (at_ s c) with Some d => (d =? c)%nat | None => false end && (cnt s (at_ s c) =? 0)
      then Some (mkMv (cnt s) (upd (cur s) (at_ s c) None) (at_ s) (refs s) (prog s) (dep s)) else None
  | VPick e c => match cur s e with
                 | None => if (c <? n)%nat && (at_ s c =? e)%nat then Some (mkMv (cnt s) (upd (cur s) e (Some c)) (at_ s) (refs s) (prog s) (dep s)) else None
                 | Some _ => None
                 end
  | VMove c e => if moves && (c <? n)%nat && negb match cur s (at_ s c) with Some d => (d =? c)%nat | None => false end && (cnt s (at_ s c) =? 0) && (negb fixed || (dep s c =? 0))
                 then Some (mkMv (cnt s) (cur s) (upd (at_ s) c e) (refs s) (prog s) (dep s)) else None
  end.
(** Counters at 0 (co_env.h), coroutines with any programs on any envs. *)
Definition mvinit (a : nat -> nat) (p : nat -> list instr) : mvst := mkMv (fun _ => 0) (fun _ => None) a (fun _ => []) p (fun _ => 0).
