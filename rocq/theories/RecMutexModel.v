(** co_recursive_mutex (source/cocpp/sync/co_recursive_mutex.cpp), as an instance of SpinObj. *)
From Coq Require Import List Arith Bool NArith.
From Verif Require Import Base LinSpec MutexSpec SpinObj.
Import ListNotations.
Local Open Scope N_scope.

(** include/cocpp/sync/co_recursive_mutex.h, members owner__, lock_count__ (unsigned long long), wait_deque__. *)
Record rdat := mkRd { ro : option tid; rn : N; rq : list tid }.
(** A fresh one (co_recursive_mutex.h 16-19). *)
Definition rd0 : rdat := mkRd None 0 [].

(** ++lock_count__ and --lock_count__ on an unsigned 64 bit number (co_recursive_mutex.cpp 23, 91). *)
Definition inc64 (n : N) : N := (n + 1) mod 2 ^ 64.
(** --lock_count__ (co_recursive_mutex.cpp 91). *)
Definition dec64 (n : N) : N := (n + (2 ^ 64 - 1)) mod 2 ^ 64.

(** owner__ == ctx (co_recursive_mutex.cpp 20, 54, 84). *)
Definition owns (d : rdat) (t : tid) : bool :=
  match ro d with Some u => Nat.eqb u t | None => false end.

(** Where a call is when it takes the spin lock: [RFirst] co_recursive_mutex.cpp 18, [RTry] line 40
    (inside co_timed_call, co_utils.cpp 7-18), [RLoop] line 61, [RTryL] line 69, [RUn] line 83. *)
Inductive rloc := RFirst | RTry | RLoop | RTryL | RUn.

(** The first acquisition of the spin lock by each method: lines 18, 69, 83. *)
Definition rentry (o : mop) : rloc := match o with OLock => RFirst | OTry => RTryL | OUnlock => RUn end.

(** How a block ends (SpinObj.v); a type, no code. *)
Definition rout := sout rdat mop mres maux rloc.

(** owner__ = ctx; ++lock_count__ (co_recursive_mutex.cpp 22-24, 30-33, 48-50, 74-75). *)
Definition rtake (t : tid) (o : mop) (r : mres) (d : rdat) : rout :=
  SFin (mkRd (Some t) (inc64 (rn d)) (rq d)) [(t, o, r)] [] r.

(** co_recursive_mutex.cpp 46-62, up to the first CoYield: the check after the timed loop, push_back, and
    the first test of the while. *)
Definition rpark (t : tid) (d : rdat) : rout :=
  match ro d with
  | None => rtake t OLock ROk d
  | Some _ =>
      let d' := mkRd (ro d) (rn d) (rq d ++ [t]) in
      if owns d t then SFin d' [] [] ROk else SPark d' [APark] RLoop
  end.

(** One block executed under the spin lock.  [late] is the answer of the clock in co_timed_call. *)
Definition rseg (t : tid) (_ : mop) (l : rloc) (late : bool) (d : rdat) : rout :=
  match l with
  (* co_recursive_mutex.cpp 20-25, then the timed loop 28-44 *)
  | RFirst =>
      match ro d with
      | None => rtake t OLock ROk d
      | Some u => if Nat.eqb u t then rtake t OLock ROk d
                  else if late then rpark t d
                  else SYield d RTry   (* 29 fails, 35-38 *)
      end
  (* co_utils.cpp 10-17 with the body 29-41, then 46-62 *)
  | RTry => if late then rpark t d
            else match ro d with None => rtake t OLock ROk d | Some _ => SYield d RTry end
  (* co_recursive_mutex.cpp 54-62 *)
  | RLoop => if owns d t then SFin d [] [] ROk else SPark d [] RLoop
  (* co_recursive_mutex.cpp 70-76 *)
  | RTryL => match ro d with
             | None => rtake t OTry RTrue d
             | Some u => if Nat.eqb u t then rtake t OTry RTrue d
                         else SFin d [(t, OTry, RFalse)] [] RFalse
             end
  (* co_recursive_mutex.cpp 84-106.  A hand-off is the effect of this unlock() followed by the effect
     of the lock() of the coroutine at the front. *)
  | RUn =>
      if owns d t then
        let n := dec64 (rn d) in
        if negb (n =? 0) then SFin (mkRd (ro d) n (rq d)) [(t, OUnlock, ROk)] [] ROk
        else match rq d with
             | [] => SFin (mkRd None n []) [(t, OUnlock, ROk)] [] ROk
             | u :: q' => SFin (mkRd (Some u) (inc64 n) q') [(t, OUnlock, ROk); (u, OLock, ROk)] [u] ROk
             end
      else SFin d [(t, OUnlock, RThrow)] [] RThrow
  end.

(** Steps of SpinObj.v with the blocks above (co_recursive_mutex.cpp 14-107). *)
Definition rstep := fstep rentry rseg.
(** A fresh mutex (co_recursive_mutex.h 16-19). *)
Definition rinit := finit mop mres maux rloc rd0.
