(** Model of the run queues of one co_env (source/cocpp/core/co_env.cpp) and of the parts of co_ctx they depend on
    (source/cocpp/core/co_ctx.cpp), at the granularity of the critical sections of mu_normal_ctx__, mu_min_priority__,
    wait_data__.mu and schedule_lock__.  Calls of other threads that consist of several critical sections
    (move_ctx_to_here, leave_wait_resource_state) are agents [k] with a program counter.  The scan of
    choose_ctx_from_normal_list__ looks at one coroutine per step; mu_normal_ctx__ and mu_min_priority__ are held
    meanwhile.  Line numbers without a file name refer to co_env.cpp.

    Simplifications.  set_priority (co_ctx.cpp 91-119) is one step: priority_lock__ is held from the change of priority__ to
    the end of the handler and priority() takes the same lock, so the new value is seen by nobody before the queues have
    been changed (the lock order of these two mutexes is the subject of C50).  The state destroying (219-222) and the idle
    coroutine as the target of wait calls are left out.  enter_wait_resource_state is allowed at any time for any
    coroutine, not only for the running one. *)
From Coq Require Import List Arith Bool ZArith.
From Verif Require Import Base SchedSpec.
Import ListNotations.

(** co_state (core/co_type.h 19-24). *)
Inductive cstate := Susp | Runn | Fin.
(** Where a coroutine is: in no queue and with env__ another env or null; env__ is this env but it is not yet in the queues
    (83 to 89); in a queue; taken from the queues, env__ still this env (605 to the set_env of another env); destroyed (339). *)
Inductive place := Away | Coming | Here | Taken | Dead.
(** The fields of co_ctx that matter here (core/co_ctx.h 36-57): priority__, state_manager__, wait_data__.resource, the flags
    WAITING, LOCKED, BIND, SHARED_STACK (co_define.h 19-24), env__ and presence in a queue. *)
Record cctx := mkC { pr : nat; stt : cstate; wset : list nat; wflag : bool; lockd : bool; bnd : bool; shr : bool; loc : place }.

(** Program counters of calls of other threads: none; move_ctx_to_here after set_env (85); after its critical section
    (87-91), about to read priority() for update_min_priority__ (93); leave_wait_resource_state after its critical section
    (co_ctx.cpp 194-201), about to test WAITING (202); about to run update_min_priority__ with the priority read. *)
Inductive apc := ANone | ASet (c : nat) | AMoved (c : nat) | ALeft (c : nat) | AUpd (p c : nat).

(** The coroutines; all_normal_ctx__, min_priority__, curr_ctx__, ctx_count__ (core/co_env.h 77-84); the scan in progress
    (531-545): level and what is left of its queue; the coroutine whose state update_ctx_state__ has still to change after
    the decision to go idle (254-273); the agents; ghost history. *)
Record sst := mkS { cx : nat -> cctx; qs : nat -> list nat; minp : nat; cur : option nat; count : nat;
                    scn : option (nat * list nat); pnd : option nat; ag : nat -> apc; shi : shist }.

(** CO_MAX_PRIORITY (co_define.h 34). *)
Definition nprio : nat := 100.
(** The clamp of set_priority (co_ctx.cpp 99-106). *)
Definition clamp (z : Z) : nat := if (100 <=? z)%Z then 99 else if (z <? 0)%Z then 0 else Z.to_nat z.

(** A new coroutine (co_ctx.cpp 52-58, co_ctx.h 39-57) from its config: priority as passed to set_priority, LOCKED, BIND,
    SHARED_STACK. *)
Definition fresh_cx (cfg : nat -> Z * bool * bool * bool) (c : nat) : cctx :=
  match cfg c with (z, l, b, h) => mkC (clamp z) Susp [] false l b h Away end.
(** co_env.h 77-84: empty queues, min_priority__ 0. *)
Definition sinit (cfg : nat -> Z * bool * bool * bool) : sst :=
  mkS (fresh_cx cfg) (fun _ => []) 0 None 0 None None (fun _ => ANone) [].

(** co_ctx::can_schedule (co_ctx.cpp 141-144). *)
Definition can_schedule (x : cctx) : bool := match stt x with Fin => false | _ => negb (wflag x) end.
(** co_ctx::can_move (co_ctx.cpp 166-169). *)
Definition can_move (x : cctx) : bool := match stt x with Susp => negb (bnd x || shr x) | _ => false end.
(** co_state_manager::set_state (utils/co_state_manager.h 22-29) with the final state finished (co_ctx.h 39). *)
Definition set_stt (x : cctx) (t : cstate) : cctx :=
  match stt x with
  | Fin => x
  | _ => mkC (pr x) t (wset x) (wflag x) (lockd x) (bnd x) (shr x) (loc x)
  end.
(** priority__ = p (co_ctx.cpp 107). *)
Definition set_pr (x : cctx) (p : nat) : cctx := mkC p (stt x) (wset x) (wflag x) (lockd x) (bnd x) (shr x) (loc x).
(** Change of place: set_env (co_ctx.cpp 42-45), push_back (89), remove (605), destruction (339). *)
Definition set_loc (x : cctx) (l : place) : cctx := mkC (pr x) (stt x) (wset x) (wflag x) (lockd x) (bnd x) (shr x) l.
(** The critical section of enter_wait_resource_state (co_ctx.cpp 183-187); resource is a std::set. *)
Definition enter_w (x : cctx) (r : nat) : cctx :=
  mkC (pr x) (stt x) (if existsb (Nat.eqb r) (wset x) then wset x else r :: wset x) true (lockd x) (bnd x) (shr x) (loc x).
(** The critical section of leave_wait_resource_state (co_ctx.cpp 194-201). *)
Definition leave_w (x : cctx) (r : nat) : cctx :=
  let w := filter (fun y => negb (r =? y)) (wset x) in
  mkC (pr x) (stt x) w (match w with [] => false | _ => wflag x end) (lockd x) (bnd x) (shr x) (loc x).
(** unlock_destroy (co_ctx.cpp 156-159). *)
Definition unlock_d (x : cctx) : cctx := mkC (pr x) (stt x) (wset x) (wflag x) false (bnd x) (shr x) (loc x).

(** list::remove (336, 538, 605); erase of the only occurrence (497). *)
Definition rm (c : nat) (l : list nat) : list nat := filter (fun y => negb (c =? y)) l.
(** update_min_priority__ (614-621). *)
Definition lower (m p : nat) : nat := if p <? m then p else m.

(** The scan of take_one_movable_ctx (598-610) from priority i on, [n] levels. *)
Fixpoint scan_mv (cxs : nat -> cctx) (q : nat -> list nat) (i n : nat) : option (nat * nat) :=
  match n with
  | 0 => None
  | S n => match find (fun c => can_move (cxs c)) (q i) with
           | Some c => Some (i, c)
           | None => scan_mv cxs q (S i) n
           end
  end.

(** The steps, with the functions they are part of. *)
Inductive slbl :=
| SetEnv (k c : nat)       (* move_ctx_to_here 85 *)
| Push (k : nat)           (* move_ctx_to_here 87-91 *)
| Upd1 (k : nat)           (* 93 or co_ctx.cpp 202-204, 564: reads the flag and the priority *)
| Upd2 (k : nat)           (* update_min_priority__ 614-621 *)
| Enter (c r : nat)        (* co_ctx.cpp 181-190 *)
| Leave (k c r : nat)      (* co_ctx.cpp 194-201 *)
| Prio (c : nat) (z : Z)   (* co_ctx.cpp 91-119 with 489-500 *)
| Finish                   (* co_ctx.cpp 77-79 on the running coroutine *)
| Unlock (c : nat)         (* co_ctx.cpp 156-159, from detach or the end of join *)
| PickB                    (* choose_ctx_from_normal_list__ 529-531 *)
| PickS                    (* 533-547: one coroutine, or one level, or the end *)
| Mark                     (* update_ctx_state__ (273, 233-236) after the decision to go idle *)
| Reap (c : nat)           (* remove_detached_ctx__ 201-214 for coroutine c *)
| Take                     (* take_one_movable_ctx 595-612; take_all_movable_ctx 575-593 is a sequence of these *)
| Depart (c : nat)         (* 85 of another env for a coroutine taken here *)
| Other (c : nat) (t : cstate) (* another env changes the state of a coroutine that is not here *)
.

(** [SErase]: list::erase(end()) in handle_priority_changed (497), undefined behaviour.  [SFreed]: access to a destroyed
    coroutine. *)
Inductive sres := SOk (s : sst) | SErase | SFreed.

(** Field assignments: a member of a co_ctx (co_ctx.h 36-57). *)
Definition setcx (s : sst) (c : nat) (x : cctx) : sst :=
  mkS (upd (cx s) c x) (qs s) (minp s) (cur s) (count s) (scn s) (pnd s) (ag s) (shi s).
(** The program counter of a call (80-97, co_ctx.cpp 192-207). *)
Definition setag (s : sst) (k : nat) (a : apc) : sst :=
  mkS (cx s) (qs s) (minp s) (cur s) (count s) (scn s) (pnd s) (upd (ag s) k a) (shi s).
(** A queue of all_normal_ctx__ and ctx_count__ (89-90, 336-338, 494-499, 605-606). *)
Definition setq (s : sst) (i : nat) (l : list nat) (n : nat) : sst :=
  mkS (cx s) (upd (qs s) i l) (minp s) (cur s) n (scn s) (pnd s) (ag s) (shi s).
(** min_priority__ (498, 540, 619). *)
Definition setmin (s : sst) (m : nat) : sst := mkS (cx s) (qs s) m (cur s) (count s) (scn s) (pnd s) (ag s) (shi s).
(** The position of the loops of 531-533. *)
Definition setscn (s : sst) (o : option (nat * list nat)) : sst :=
  mkS (cx s) (qs s) (minp s) (cur s) (count s) o (pnd s) (ag s) (shi s).
(** Ghost history; no counterpart in the code. *)
Definition log (e : sev) (s : sst) : sst := mkS (cx s) (qs s) (minp s) (cur s) (count s) (scn s) (pnd s) (ag s) (e :: shi s).

(** 535-542 for the coroutine found at level i; then 233-237 unless it is the current one (267-270). *)
Definition do_pick (s : sst) (i c : nat) : sst :=
  let cx1 := match cur s with
             | Some d => if d =? c then cx s else upd (cx s) d (set_stt (cx s d) Susp)
             | None => cx s
             end in
  mkS (upd cx1 c (set_stt (cx1 c) Runn)) (upd (qs s) i (rm c (qs s i) ++ [c])) i (Some c) (count s) None (pnd s) (ag s)
      (VPick (Some c) :: shi s).
(** 546-547; update_ctx_state__ follows after the sleep (258-263). *)
Definition do_idle (s : sst) : sst :=
  mkS (cx s) (qs s) (minp s) None (count s) None (cur s) (ag s) (VPick None :: shi s).

(** mu_normal_ctx__ and mu_min_priority__ are free (they are held over 529-547). *)
Definition unlocked (s : sst) : bool := match scn s with None => true | _ => false end.
(** The thread of the env is not inside prepare_to_switch (241-294). *)
Definition running (s : sst) : bool := unlocked s && match pnd s with None => true | _ => false end.
(** The coroutine has not been destroyed (339). *)
Definition alive (s : sst) (c : nat) : bool := match loc (cx s c) with Dead => false | _ => true end.

(** One step; each case is the function named at its label above, with the lines cited there. *)
Definition sstep (s : sst) (l : slbl) : option sres :=
  match l with
  | SetEnv k c =>
      match ag s k, loc (cx s c), stt (cx s c) with
      | ANone, Away, Susp | ANone, Taken, Susp => Some (SOk (setag (setcx s c (set_loc (cx s c) Coming)) k (ASet c)))
      | _, _, _ => None
      end
  | Push k =>
      match ag s k with
      | ASet c =>
          if unlocked s
          then let p := pr (cx s c) in
               Some (SOk (log (VAdd k c p) (setag (setcx (setq s p (qs s p ++ [c]) (S (count s))) c (set_loc (cx s c) Here)) k (AMoved c))))
          else None
      | _ => None
      end
  | Upd1 k =>
      match ag s k with
      | AMoved c => if alive s c then Some (SOk (setag s k (AUpd (pr (cx s c)) c))) else Some SFreed
      | ALeft c => if alive s c
                   then if wflag (cx s c) || match loc (cx s c) with Away => true | _ => false end
                        then Some (SOk (log (VRet k) (setag s k ANone)))
                        else Some (SOk (setag s k (AUpd (pr (cx s c)) c)))
                   else Some SFreed
      | _ => None
      end
  | Upd2 k =>
      match ag s k with
      | AUpd p _ => if unlocked s then Some (SOk (log (VRet k) (setag (setmin s (lower (minp s) p)) k ANone))) else None
      | _ => None
      end
  | Enter c r => if alive s c then Some (SOk (log (VEnter c r) (setcx s c (enter_w (cx s c) r)))) else None
  | Leave k c r =>
      match ag s k with
      | ANone => if alive s c then Some (SOk (log (VRel k c r) (setag (setcx s c (leave_w (cx s c) r)) k (ALeft c)))) else None
      | _ => None
      end
  | Prio c z =>
      let p := clamp z in
      let o := pr (cx s c) in
      if alive s c && unlocked s
      then if p =? o then Some (SOk s)
           else match loc (cx s c) with
                | Away => Some (SOk (log (VPrio c p) (setcx s c (set_pr (cx s c) p))))
                | _ => if existsb (Nat.eqb c) (qs s o)
                       then let s1 := setq s o (rm c (qs s o)) (count s) in
                            let s2 := setq s1 p (qs s1 p ++ [c]) (count s) in
                            Some (SOk (log (VPrio c p) (setmin (setcx s2 c (set_pr (cx s c) p)) (lower (minp s) p))))
                       else Some SErase
                end
      else None
  | Finish =>
      match cur s with
      | Some c => match stt (cx s c) with
                  | Runn => if running s then Some (SOk (log (VFin c) (setcx s c (set_stt (cx s c) Fin)))) else None
                  | _ => None
                  end
      | None => None
      end
  | Unlock c => if alive s c then Some (SOk (log (VDet c) (setcx s c (unlock_d (cx s c))))) else None
  | PickB => if running s then Some (SOk (setscn s (Some (minp s, qs s (minp s))))) else None
  | PickS =>
      match scn s with
      | Some (i, []) => if S i <? nprio then Some (SOk (setscn s (Some (S i, qs s (S i))))) else Some (SOk (do_idle s))
      | Some (i, c :: r) => if can_schedule (cx s c) then Some (SOk (do_pick s i c)) else Some (SOk (setscn s (Some (i, r))))
      | None => None
      end
  | Mark =>
      match pnd s with
      | Some c => let s1 := setcx s c (set_stt (cx s c) Susp) in
                  Some (SOk (mkS (cx s1) (qs s1) (minp s1) (cur s1) (count s1) (scn s1) None (ag s1) (shi s1)))
      | None => None
      end
  | Reap c =>
      match loc (cx s c), stt (cx s c) with
      | Here, Fin =>
          if running s && negb (lockd (cx s c)) && match cur s with Some d => negb (c =? d) | None => true end
          then let p := pr (cx s c) in
               Some (SOk (log (VReap c) (setcx (setq s p (rm c (qs s p)) (count s - 1)) c (set_loc (cx s c) Dead))))
          else None
      | _, _ => None
      end
  | Take =>
      match unlocked s, scan_mv (cx s) (qs s) (minp s) (nprio - minp s) with
      | true, Some (i, c) => Some (SOk (log (VTake c) (setcx (setq s i (rm c (qs s i)) (count s - 1)) c (set_loc (cx s c) Taken))))
      | _, _ => None
      end
  | Depart c => match loc (cx s c) with Taken => Some (SOk (setcx s c (set_loc (cx s c) Away))) | _ => None end
  | Other c t =>
      match loc (cx s c), stt (cx s c) with
      | Away, Fin => None
      | Away, _ => let s1 := setcx s c (set_stt (cx s c) t) in
                   Some (SOk (match t with Fin => log (VFin c) s1 | _ => s1 end))
      | _, _ => None
      end
  end.
(** A step that is not undefined behaviour. *)
Definition sstep_ok (s : sst) (l : slbl) : option sst := match sstep s l with Some (SOk s') => Some s' | _ => None end.
