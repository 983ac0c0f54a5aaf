(** co_shared_mutex (source/cocpp/sync/co_shared_mutex.cpp), as an instance of SpinObj. *)
From Coq Require Import List Arith Bool.
From Verif Require Import Base LinSpec SharedMutexSpec SpinObj.
Import ListNotations.

(** include/cocpp/sync/co_shared_mutex.h: lock_type__, owners__ (a std::set, here a list without duplicates; its
    order is never used by the code), wait_deque__ of (type, ctx); [true] = unique. *)
Inductive lty := TUnlocked | TUnique | TShared.
(** The members named above (co_shared_mutex.h 30-33). *)
Record sdat := mkSd { sty : lty; sow : list tid; sq : list (bool * tid) }.
(** A fresh one (co_shared_mutex.h 31-33). *)
Definition sd0 : sdat := mkSd TUnlocked [] [].

(** std::set::insert and erase (used at co_shared_mutex.cpp 25, 95, 111, 180, 200, 213). *)
Definition insert (t : tid) (l : list tid) : list tid := if mem t l then l else t :: l.
(** std::set::erase (co_shared_mutex.cpp 95, 180). *)
Definition erase (t : tid) (l : list tid) : list tid := without t l.

(** libstdc++ std::remove_if (bits/stl_algo.h, __remove_if) on an array: find the first match; then copy each later
    non-matching element to the position of the "result" iterator.  Used at co_shared_mutex.cpp 209-211.
    The elements are trivially copyable, so a moved-from element keeps its value. *)
Definition set_nth {A} (i : nat) (x : A) (l : list A) : list A := firstn i l ++ x :: skipn (S i) l.
(** std::find_if inside it: the first position with p (see set_nth). *)
Fixpoint find_if {A} (p : A -> bool) (l : list A) (i : nat) (fuel : nat) : nat :=
  match fuel with
  | 0 => i
  | S f => match nth_error l i with
           | Some x => if p x then i else find_if p l (S i) f
           | None => i
           end
  end.
(** Its loop (see set_nth). *)
Fixpoint remove_loop {A} (p : A -> bool) (l : list A) (first result : nat) (fuel : nat) : list A * nat :=
  match fuel with
  | 0 => (l, result)
  | S f => match nth_error l first with
           | None => (l, result)
           | Some x => if p x then remove_loop p l (S first) result f
                       else remove_loop p (set_nth result x l) (S first) (S result) f
           end
  end.
(** std::remove_if (co_shared_mutex.cpp 209-211; see set_nth). *)
Definition remove_if {A} (p : A -> bool) (l : list A) : list A * nat :=
  let i := find_if p l 0 (length l) in
  if Nat.eqb i (length l) then (l, i) else remove_loop p l (S i) i (length l).

(** wake_up_waiters__, co_shared_mutex.cpp 185-218.  Returns the data and the queue entries whose ctx gets
    leave_wait_resource_state and becomes an owner, in order. *)
Definition wake_up_waiters (d : sdat) : sdat * list (bool * tid) :=
  match sow d with
  | _ :: _ => (d, [])                                                        (* 187-190 *)
  | [] =>
      match sq d with
      | [] => (mkSd TUnlocked [] [], [])                                     (* 192-197 *)
      | (true, u) :: q' => (mkSd TUnique (insert u []) q', [(true, u)])      (* 199-207 *)
      | _ =>
          let (l', it) := remove_if (fun x => negb (fst x)) (sq d) in        (* 209-211 *)
          let woken := skipn it l' in                                        (* 213-216 *)
          (mkSd TShared (fold_left (fun ow (x : bool * tid) => insert (snd x) ow) woken []) (firstn it l'), woken) (* 212, 217 *)
      end
  end.

(** Where a call takes the spin lock: exclusive lock 20 / 44 / 66, try_lock 74, unlock 89; shared lock_shared 105 /
    129 / 151, try_lock_shared 159, unlock_shared 173. *)
Inductive sloc := LW1 | LW2 | LW3 | LWt | LWu | LS1 | LS2 | LS3 | LSt | LSu.

(** The first acquisition of the spin lock by each method: lines 20, 74, 89, 105, 159, 173. *)
Definition sentry (o : sop) : sloc :=
  match o with WLock => LW1 | WTry => LWt | WUnlock => LWu | SLock => LS1 | STry => LSt | SUnlock => LSu end.

(** How a block ends (SpinObj.v); a type, no code. *)
Definition sout' := sout sdat sop sres saux sloc.

(** lock_type__ = unique; owners__.insert(ctx): 24-25, 33-34, 51-52, 79-80. *)
Definition wtake (t : tid) (o : sop) (r : sres) (d : sdat) : sout' :=
  SFin (mkSd TUnique (insert t (sow d)) (sq d)) [(t, o, r)] [] r.
(** lock_type__ = shared; owners__.insert(ctx): 109-110, 118-119, 136-137, 164-165. *)
Definition stake (t : tid) (o : sop) (r : sres) (d : sdat) : sout' :=
  SFin (mkSd TShared (insert t (sow d)) (sq d)) [(t, o, r)] [] r.
(** wait_deque__.push_back and the first test of the while: 56-67 and 141-152. *)
Definition spark (w : bool) (t : tid) (d : sdat) : sout' :=
  let d' := mkSd (sty d) (sow d) (sq d ++ [(w, t)]) in
  if mem t (sow d) then SFin d' [] [] SOk else SPark d' [SParks w] (if w then LW3 else LS3).
(** while (!owners__.contains(ctx)): 60-67 and 145-152. *)
Definition sloop (w : bool) (t : tid) (d : sdat) : sout' :=
  if mem t (sow d) then SFin d [] [] SOk else SPark d [] (if w then LW3 else LS3).

(** lock_type__ is shared or unlocked (co_shared_mutex.cpp 107, 116, 133, 160). *)
Definition is_sh (d : sdat) : bool := match sty d with TUnique => false | _ => true end.

(** unlock 91-97 and unlock_shared 175-182 after the check: erase, wake_up_waiters__.  The wake-up makes the lock calls
    of the woken coroutines take effect, each in the mode it asked for. *)
Definition srel (t : tid) (o : sop) (d : sdat) : sout' :=
  let (d', gs) := wake_up_waiters (mkSd (sty d) (erase t (sow d)) (sq d)) in
  SFin d' ((t, o, SOk) :: map (fun x : bool * tid => (snd x, if fst x then WLock else SLock, SOk)) gs) (map snd gs) SOk.

(** One block executed under the spin lock.  [late] is the answer of the clock in co_timed_call
    (co_utils.cpp 7-18): the check before the timed loop, the one in the loop and the one after it are the same test, so
    the first block (lines 22-27) and a block of the timed loop (31-57) differ only in their position. *)
Definition sseg (t : tid) (_ : sop) (l : sloc) (late : bool) (d : sdat) : sout' :=
  match l with
  (* co_shared_mutex.cpp 22-67 *)
  | LW1 | LW2 => match sow d with
                 | [] => wtake t WLock SOk d
                 | _ => if late then spark true t d else SYield d LW2
                 end
  | LW3 => sloop true t d
  (* 75-81 *)
  | LWt => match sow d with
           | [] => wtake t WTry STrue d
           | _ => SFin d [(t, WTry, SFalse)] [] SFalse
           end
  (* 91-97 *)
  | LWu => if match sty d with TUnique => mem t (sow d) | _ => false end then srel t WUnlock d
           else SFin d [(t, WUnlock, SThrow)] [] SThrow
  (* 107-152 *)
  | LS1 | LS2 => if is_sh d then stake t SLock SOk d
                 else if late then spark false t d else SYield d LS2
  | LS3 => sloop false t d
  (* 160-166 *)
  | LSt => if is_sh d then stake t STry STrue d else SFin d [(t, STry, SFalse)] [] SFalse
  (* 175-182 *)
  | LSu => if match sty d with TShared => mem t (sow d) | _ => false end then srel t SUnlock d
           else SFin d [(t, SUnlock, SThrow)] [] SThrow
  end.

(** Steps of SpinObj.v with the blocks above (co_shared_mutex.cpp 16-183). *)
Definition sstep := fstep sentry sseg.
(** A fresh mutex (co_shared_mutex.h 30-33). *)
Definition sinit := finit sop sres saux sloc sd0.
