(** Model of the placement of coroutines by co_manager (source/cocpp/core/co_manager.cpp): get_best_env__ (23-71),
    destroy_redundant_env__ (308-335), redistribute_ctx__ (266-306), steal_ctx_routine__ (441-491), and of
    create_and_schedule_ctx (421-439) with add_ctx and move_ctx_to_here (co_env.cpp 58-97).  Line numbers without a file name
    refer to co_manager.cpp.  normal_set is a std::set of pointers: its order is arbitrary, here the order of a list.

    Simplification: each of these functions sees the states and loads of the threads as they are at one moment; the two calls
    of workload() at 52 and 54 give the same value. *)
From Coq Require Import List Arith Bool.
From Verif Require Import Base MgrSpec.
Import ListNotations.

(** state() == s (co_env.cpp 644-648). *)
Definition is_idle (t : thr) : bool := match tst t with MIdle => true | _ => false end.
(** can_schedule_ctx (co_env.cpp 482-487). *)
Definition can_sched (t : thr) : bool := match tst t with MBlocked | MDestroying => false | _ => negb (tself t) end.
(** can_auto_destroy (co_env.cpp 441-445). *)
Definition can_auto (t : thr) : bool := negb (tconv t || tkeep t || tself t).
(** workload (co_env.cpp 189-193), has_ctx (co_env.cpp 623-627). *)
Definition workload (t : thr) : nat := length (tctx t).

(** The loop of get_best_env__ (34-57): an idle env found (38), or the best one and the number of candidates.  [m] is
    min_workload, None for the maximum of size_t. *)
Fixpoint best_loop (l : list thr) (best : option thr) (m : option nat) (n : nat) : thr + option thr * nat :=
  match l with
  | [] => inr (best, n)
  | t :: r =>
      if is_idle t then inl t
      else if negb (can_sched t) then best_loop r best m n
      else if texcl t then best_loop r best m n
      else if match m with None => true | Some w => workload t <? w end
           then best_loop r (Some t) (Some (workload t)) (S n)
           else best_loop r best m (S n)
  end.
(** get_best_env__ (23-71). *)
Definition get_best (l : list thr) (base : nat) : choice :=
  match l with
  | [] => New
  | _ => match best_loop l None None 0 with
         | inl t => Old t
         | inr (None, _) => New
         | inr (Some t, n) => if n <? base then New else Old t
         end
  end.

(** The loop of destroy_redundant_env__ (314-324): can_schedule_env_count and idle_env_list. *)
Fixpoint redundant (l : list thr) (n : nat) (idle : list thr) : nat * list thr :=
  match l with
  | [] => (n, idle)
  | t :: r =>
      redundant r (if can_sched t then S n else n)
        (if is_idle t && can_auto t && match tctx t with [] => true | _ => false end then idle ++ [t] else idle)
  end.
(** The envs stopped (326-333). *)
Definition victims (l : list thr) (max : nat) : list thr :=
  let (n, idle) := redundant l 0 [] in if max <? n then firstn (n - max) idle else [].

(** ** Moving coroutines *)
(** is_blocked (co_env.cpp 514-517). *)
Definition is_blocked (t : thr) : bool := match tst t with MBusy | MBlocked => negb (tswd t) | _ => false end.
(** can_force_schedule (co_env.cpp 687-690): the count of the lock is zero (co_env.cpp 770-801).  [own] is what the calling
    routine has added to the count, [others] what other threads have. *)
Definition can_force (own others : nat) : bool := own + others =? 0.
(** take_all_movable_ctx (co_env.cpp 575-593). *)
Definition take_all (t : thr) : list nat * thr :=
  (map fst (filter snd (tctx t)),
   mkT (tid t) (tst t) (texcl t) (tself t) (tconv t) (tkeep t) (tswd t) (filter (fun c => negb (snd c)) (tctx t))).
(** take_one_movable_ctx (co_env.cpp 595-612). *)
Fixpoint take_first (l : list (nat * bool)) : option nat * list (nat * bool) :=
  match l with
  | [] => (None, [])
  | (c, true) :: r => (Some c, r)
  | (c, false) :: r => let (o, r') := take_first r in (o, (c, false) :: r')
  end.
(** set_state (co_env.cpp 644-648) with the final state destroying (utils/co_state_manager.h 22-29). *)
Definition set_st (t : thr) (s : mstate) : thr :=
  match tst t with
  | MDestroying => t
  | _ => mkT (tid t) s (texcl t) (tself t) (tconv t) (tkeep t) (tswd t) (tctx t)
  end.
(** reset_scheduled_flag (co_env.cpp 436-439). *)
Definition reset_swd (t : thr) : thr := mkT (tid t) (tst t) (texcl t) (tself t) (tconv t) (tkeep t) false (tctx t).

(** The first loop of redistribute_ctx__ (280-300): the new threads and moved_ctx_list.  [lk i] says whether try_lock_schedule
    succeeds on thread number i (then it has added [own] to the count: in the code one, co_env.cpp 785-795), [oth i] what
    other threads have added to its count. *)
Fixpoint redist_loop (own : nat) (lk : nat -> bool) (oth : nat -> nat) (l : list thr) : list thr * list nat :=
  match l with
  | [] => ([], [])
  | t :: r =>
      let (r', mv) := redist_loop own lk oth r in
      if negb (lk (tid t)) then (t :: r', mv)
      else if negb (can_force own (oth (tid t))) then (t :: r', mv)
      else if is_blocked t
           then let (m, t') := take_all (set_st t MBlocked) in (reset_swd t' :: r', m ++ mv)
           else (reset_swd t :: r', mv)
  end.
(** move_ctx_to_here (co_env.cpp 80-97) on the thread with the same number. *)
Definition move_to (l : list thr) (i c : nat) : list thr :=
  map (fun u => if tid u =? i
                then set_st (mkT (tid u) (tst u) (texcl u) (tself u) (tconv u) (tkeep u) (tswd u) (tctx u ++ [(c, true)])) MBusy
                else u) l.
(** A new env (create_env 87-103; co_env.cpp 31-43). *)
Definition new_env (i : nat) : thr := mkT i MIdle false false false false false [].
(** The second loop of redistribute_ctx__ (302-305); a new env (302, 24-27) gets the number [nid] of the label. *)
Fixpoint place_all (base nid : nat) (mv : list nat) (l : list thr) : list thr :=
  match mv with
  | [] => l
  | c :: mv => match get_best l base with
               | Old t => place_all base nid mv (move_to l (tid t) c)
               | New => place_all base (S nid) mv (move_to (l ++ [new_env nid]) nid c)
               end
  end.
(** redistribute_ctx__ (266-306), for any value of [own]. *)
Definition redistribute_own (own : nat) (lk : nat -> bool) (oth : nat -> nat) (base nid : nat) (l : list thr) : list thr :=
  let (l', mv) := redist_loop own lk oth l in place_all base nid mv l'.
(** redistribute_ctx__ as it is (266-306): its own try_lock_schedule (286) counts. *)
Definition redistribute := redistribute_own 1.

(** The inner loop of steal_ctx_routine__ (465-489) for the idle env [e]: from the position of the iterator on, [before] the
    threads already passed, [rest] those from the iterator on.  The result: the threads passed, the rest, and what was moved. *)
Fixpoint steal_from (own : nat) (lk : nat -> bool) (oth : nat -> nat) (before rest : list thr) : list thr * list thr * option nat :=
  match rest with
  | [] => (before, [], None)
  | t :: r =>
      if is_idle t then (before, rest, None)
      else if negb (lk (tid t)) then steal_from own lk oth (before ++ [t]) r
      else if negb (can_force own (oth (tid t))) then steal_from own lk oth (before ++ [t]) r
      else match take_first (tctx t) with
           | (Some c, q) =>
               (before, mkT (tid t) (tst t) (texcl t) (tself t) (tconv t) (tkeep t) (tswd t) q :: r, Some c)
           | (None, _) => steal_from own lk oth (before ++ [t]) r
           end
  end.
(** The loop over idle_env_list (454-490). *)
Fixpoint steal_loop (own : nat) (lk : nat -> bool) (oth : nat -> nat) (idle : list nat) (before rest : list thr) : list thr :=
  match idle with
  | [] => before ++ rest
  | e :: q =>
      if negb (lk e) then steal_loop own lk oth q before rest
      else if negb (can_force own (oth e)) then steal_loop own lk oth q before rest
      else match steal_from own lk oth before rest with
           | (b, r, Some c) => steal_loop own lk oth q (move_to b e c) (move_to r e c)
           | (b, r, None) => steal_loop own lk oth q b r
           end
  end.
(** steal_ctx_routine__ (441-491), for any value of [own]. *)
Definition steal_own (own : nat) (lk : nat -> bool) (oth : nat -> nat) (l : list thr) : list thr :=
  steal_loop own lk oth (map tid (filter (fun t => is_idle t && negb (texcl t)) l)) [] l.
(** steal_ctx_routine__ as it is (441-491): its own try_lock_schedule (456, 471) counts. *)
Definition steal := steal_own 1.

(** ** Creation against reclamation *)
(** create_and_schedule_ctx: not in it; get_best_env__ has returned (436), the lock normal_lock released; the state test of
    add_ctx passed (co_env.cpp 61). *)
Inductive cpc := KNone | KGot (c e : nat) | KChk (c e : nat).
(** The envs by number, those in normal_set; the next new env; base_env_count and max_env_count are parameters; the envs that
    destroy_redundant_env__ has still to stop, while it holds normal_lock (310); the creating calls; the envs whose thread has
    left the loop (co_env.cpp 413-415); deleted envs (222); ghost history. *)
Record mst := mkM { ev : nat -> thr; nrm : list nat; nxt : nat; mon : option (list nat); crt : nat -> cpc;
                    outp : nat -> bool; gone : nat -> bool; xh : xhist }.
Inductive mlbl :=
| MBest (k c : nat)      (* 436, 23-71 with 87-103 *)
| MCheck (k : nat)       (* add_ctx, co_env.cpp 61-64 *)
| MPush (k : nat)        (* move_ctx_to_here, co_env.cpp 85-96 *)
| MSel                   (* 310-327 *)
| MStop                  (* 331: stop_schedule, co_env.cpp 349-357 *)
| MRel                   (* the end of destroy_redundant_env__: normal_lock is released *)
| MRun (e c : nat)       (* env e runs coroutine c to its end and removes it (co_env.cpp 201-214) *)
| MGoIdle (e : nat)      (* co_env.cpp 408: nothing can be run *)
| MLeave (e : nat)       (* co_env.cpp 396, 415: the loop ends, the first step of remove_all_ctx__ (429-434) *)
| MClear (e c : nat)     (* co_env.cpp 431-433: remove_ctx of coroutine c *)
| MExpire (e : nat).     (* co_env.cpp 416: remove_env__ (153-159), then 220-223: the env is deleted; a coroutine added after remove_all_ctx__ has
                            copied the list of coroutines is then still in it *)

(** [MUse]: use of a deleted env (222). *)
Inductive mres := MOk (s : mst) | MUse.

(** Field assignment: an env (any of the lines cited at the labels). *)
Definition setev (s : mst) (e : nat) (t : thr) : mst :=
  mkM (upd (ev s) e t) (nrm s) (nxt s) (mon s) (crt s) (outp s) (gone s) (xh s).
(** The place of a creating call in 421-439. *)
Definition setcrt (s : mst) (k : nat) (p : cpc) : mst :=
  mkM (ev s) (nrm s) (nxt s) (mon s) (upd (crt s) k p) (outp s) (gone s) (xh s).
(** Ghost history; no counterpart in the code. *)
Definition xlog (x : xev) (s : mst) : mst := mkM (ev s) (nrm s) (nxt s) (mon s) (crt s) (outp s) (gone s) (x :: xh s).
(** normal_lock and the progress of destroy_redundant_env__ (310-333). *)
Definition setmon (s : mst) (m : option (list nat)) : mst :=
  mkM (ev s) (nrm s) (nxt s) m (crt s) (outp s) (gone s) (xh s).
(** A list of coroutines instead of another (co_env.cpp 89, 336). *)
Definition set_ctx (t : thr) (q : list (nat * bool)) : thr :=
  mkT (tid t) (tst t) (texcl t) (tself t) (tconv t) (tkeep t) (tswd t) q.
(** list::remove (co_env.cpp 336). *)
Definition rmc (c : nat) (l : list (nat * bool)) : list (nat * bool) := filter (fun p => negb (c =? fst p)) l.

(** One step, with the lines cited at the label. *)
Definition mstep (base max : nat) (s : mst) (l : mlbl) : option mres :=
  match l with
  | MBest k c =>
      match crt s k, mon s with
      | KNone, None =>
          match get_best (map (ev s) (nrm s)) base with
          | Old t => Some (MOk (xlog (XBest k c (tid t)) (setcrt s k (KGot c (tid t)))))
          | New => let i := nxt s in
                   Some (MOk (mkM (upd (ev s) i (new_env i)) (i :: nrm s) (S i) (mon s) (upd (crt s) k (KGot c i)) (outp s) (gone s)
                                  (XBest k c i :: xh s)))
          end
      | _, _ => None
      end
  | MCheck k =>
      match crt s k with
      | KGot c e =>
          if gone s e then Some MUse
          else match tst (ev s e) with
               | MCreated | MDestroying => Some (MOk (xlog (XThrow k c) (setcrt s k KNone)))
               | _ => Some (MOk (setcrt s k (KChk c e)))
               end
      | _ => None
      end
  | MPush k =>
      match crt s k with
      | KChk c e =>
          if gone s e then Some MUse
          else Some (MOk (xlog (XMade k c) (setcrt (setev s e (set_st (set_ctx (ev s e) (tctx (ev s e) ++ [(c, true)])) MBusy)) k KNone)))
      | _ => None
      end
  | MSel => match mon s with
            | None => Some (MOk (setmon s (Some (map tid (victims (map (ev s) (nrm s)) max)))))
            | Some _ => None
            end
  | MStop => match mon s with
             | Some (e :: r) => Some (MOk (xlog (XStop e) (setmon (setev s e (set_st (ev s e) MDestroying)) (Some r))))
             | _ => None
             end
  | MRel => match mon s with Some [] => Some (MOk (setmon s None)) | _ => None end
  | MRun e c =>
      if existsb (fun p => c =? fst p) (tctx (ev s e)) && negb (outp s e)
      then Some (MOk (xlog (XRun e c) (setev s e (set_ctx (ev s e) (rmc c (tctx (ev s e)))))))
      else None
  | MGoIdle e =>
      match tst (ev s e) with
      | MBusy => Some (MOk (setev s e (set_st (ev s e) MIdle)))
      | _ => None
      end
  | MLeave e =>
      match tst (ev s e) with
      | MDestroying => if outp s e then None
                       else Some (MOk (mkM (ev s) (nrm s) (nxt s) (mon s) (crt s) (upd (outp s) e true) (gone s) (xh s)))
      | _ => None
      end
  | MClear e c =>
      if existsb (fun p => c =? fst p) (tctx (ev s e)) && outp s e && negb (gone s e)
      then Some (MOk (xlog (XLost e c) (setev s e (set_ctx (ev s e) (rmc c (tctx (ev s e)))))))
      else None
  | MExpire e =>
      match mon s with
      | None => if outp s e && negb (gone s e)
                then Some (MOk (mkM (ev s) (remove Nat.eq_dec e (nrm s)) (nxt s) (mon s) (crt s) (outp s) (upd (gone s) e true) (xh s)))
                else None
      | Some _ => None
      end
  end.
(** A step that does not use an env deleted at 222. *)
Definition mstep_ok (base max : nat) (s : mst) (l : mlbl) : option mst :=
  match mstep base max s l with Some (MOk s') => Some s' | _ => None end.

(** Any envs at the start, none of them ending; envs without a scheduler are in the state created (co_env.cpp 44-49). *)
Definition minit (e0 : nat -> thr) (n : nat) : mst :=
  mkM e0 (seq 0 n) n None (fun _ => KNone) (fun _ => false) (fun _ => false) [].
(** What the constructors of co_env (co_env.cpp 31-50) make true of the envs at the start. *)
Definition start_ok (e0 : nat -> thr) : Prop :=
  forall e, tid (e0 e) = e /\ tst (e0 e) <> MDestroying /\ (tst (e0 e) = MCreated -> tself (e0 e) = true) /\ tctx (e0 e) = [].
