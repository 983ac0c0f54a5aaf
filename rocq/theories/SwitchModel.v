(** Model of the scheduling loop of one co_env on its thread (source/cocpp/core/co_env.cpp 201-347, 367-418), of the switch
    forced from outside (core/co_vos_gcc_x86_64.cpp 142-165) and of the monitor that asks for it (core/co_manager.cpp
    247-264), with the pointers these functions keep: curr_ctx__, pre_ctx, shared_stack_switch_info__, and the saved
    registers of every context as the continuation they denote.  Line numbers without a file name refer to co_env.cpp.

    Granularity.  One step is a stretch of code during which schedule_lock__ is held or its counter is raised, so that no
    signal can switch (can_force_schedule, 687-690); the places in between, where a signal can switch, are states.
    What other threads do (create, detach, wake, tick of the monitor) happens between the steps: these calls share with the
    steps only the queues and flags, each behind its own mutex, and could be moved to the end of a step.

    Simplifications.  Priorities and the order of the queues are left out (they are the subject of C36 and C37): a step
    that chooses gets the coroutine chosen as part of its label and checks that it can be scheduled, or that none can.
    The state destroying (219-222, 392) is left out, so is moving coroutines to other threads (C44).  A touch of a
    destroyed coroutine is the outcome WFreed; the code would go on with undefined behaviour. *)
From Coq Require Import List Arith Bool.
From Verif Require Import Base SwitchSpec.
Import ListNotations.

(** Where the code of a context is: in code of the user, or for context 0 in the loop 393-413; in real_entry after the
    state has been set to finished (co_ctx.cpp 79-82); not yet started; in prepare_to_switch between 257 and 263 with
    curr = [f]; in switch_normal_ctx__ after 306 with curr = [f], next = [t]; in switch_shared_stack_ctx__ after 383 with
    to = [t]; after the return of switch_to in 307; after the return of switch_to in 384. *)
Inductive pc := PUser | PEnd | PFresh | PSleep (f : nat) | PWin (f t : nat) | PShared (t : nat) | PPost | PPostS.
(** A continuation: whose code on whose stack, and where. *)
Record cont := mkK { own : nat; at_ : pc }.

(** The queues (co_env.h 77) as one list, without the order; state finished, can_destroy (co_ctx.cpp 146-149), destroyed and
    CO_CTX_FLAG_WAITING of each coroutine; curr_ctx__ (343-347: nullptr means the idle context, here 0); what the thread
    executes; the registers saved for each context; pre_ctx (co_ctx.cpp 291-299); shared_stack_switch_info__ when need_switch;
    the counter of schedule_lock__ (770-811) as seen outside the locked stretches; ghost: how many guards the code of each
    context holds; CO_ENV_FLAG_SCHEDULED; env state busy or blocked; a signal is pending; where the stack contents of each
    coroutine are; ghost history. *)
Record wst := mkW { queue : list nat; fin : nat -> bool; det : nat -> bool; freed : nat -> bool; wt : nat -> bool; curr : nat; now : cont; regs : nat -> cont; pre : nat -> option nat; info : option (nat * nat); cnt : nat; gds : nat -> nat; sflag : bool; busy : bool; pend : bool; loc : nat -> place; whist : list wev }.
(** Assignments to the fields above, one definition per field. *)
Definition set_queue (v : list nat) (s : wst) : wst := mkW v (fin s) (det s) (freed s) (wt s) (curr s) (now s) (regs s) (pre s) (info s) (cnt s) (gds s) (sflag s) (busy s) (pend s) (loc s) (whist s).
(** See set_queue. *)
Definition set_fin (v : nat -> bool) (s : wst) : wst := mkW (queue s) v (det s) (freed s) (wt s) (curr s) (now s) (regs s) (pre s) (info s) (cnt s) (gds s) (sflag s) (busy s) (pend s) (loc s) (whist s).
(** See set_queue. *)
Definition set_det (v : nat -> bool) (s : wst) : wst := mkW (queue s) (fin s) v (freed s) (wt s) (curr s) (now s) (regs s) (pre s) (info s) (cnt s) (gds s) (sflag s) (busy s) (pend s) (loc s) (whist s).
(** See set_queue. *)
Definition set_freed (v : nat -> bool) (s : wst) : wst := mkW (queue s) (fin s) (det s) v (wt s) (curr s) (now s) (regs s) (pre s) (info s) (cnt s) (gds s) (sflag s) (busy s) (pend s) (loc s) (whist s).
(** See set_queue. *)
Definition set_wt (v : nat -> bool) (s : wst) : wst := mkW (queue s) (fin s) (det s) (freed s) v (curr s) (now s) (regs s) (pre s) (info s) (cnt s) (gds s) (sflag s) (busy s) (pend s) (loc s) (whist s).
(** See set_queue. *)
Definition set_curr (v : nat) (s : wst) : wst := mkW (queue s) (fin s) (det s) (freed s) (wt s) v (now s) (regs s) (pre s) (info s) (cnt s) (gds s) (sflag s) (busy s) (pend s) (loc s) (whist s).
(** See set_queue. *)
Definition set_now (v : cont) (s : wst) : wst := mkW (queue s) (fin s) (det s) (freed s) (wt s) (curr s) v (regs s) (pre s) (info s) (cnt s) (gds s) (sflag s) (busy s) (pend s) (loc s) (whist s).
(** See set_queue. *)
Definition set_regs (v : nat -> cont) (s : wst) : wst := mkW (queue s) (fin s) (det s) (freed s) (wt s) (curr s) (now s) v (pre s) (info s) (cnt s) (gds s) (sflag s) (busy s) (pend s) (loc s) (whist s).
(** See set_queue. *)
Definition set_pre (v : nat -> option nat) (s : wst) : wst := mkW (queue s) (fin s) (det s) (freed s) (wt s) (curr s) (now s) (regs s) v (info s) (cnt s) (gds s) (sflag s) (busy s) (pend s) (loc s) (whist s).
(** See set_queue. *)
Definition set_info (v : option (nat * nat)) (s : wst) : wst := mkW (queue s) (fin s) (det s) (freed s) (wt s) (curr s) (now s) (regs s) (pre s) v (cnt s) (gds s) (sflag s) (busy s) (pend s) (loc s) (whist s).
(** See set_queue. *)
Definition set_cnt (v : nat) (s : wst) : wst := mkW (queue s) (fin s) (det s) (freed s) (wt s) (curr s) (now s) (regs s) (pre s) (info s) v (gds s) (sflag s) (busy s) (pend s) (loc s) (whist s).
(** See set_queue. *)
Definition set_gds (v : nat -> nat) (s : wst) : wst := mkW (queue s) (fin s) (det s) (freed s) (wt s) (curr s) (now s) (regs s) (pre s) (info s) (cnt s) v (sflag s) (busy s) (pend s) (loc s) (whist s).
(** See set_queue. *)
Definition set_sflag (v : bool) (s : wst) : wst := mkW (queue s) (fin s) (det s) (freed s) (wt s) (curr s) (now s) (regs s) (pre s) (info s) (cnt s) (gds s) v (busy s) (pend s) (loc s) (whist s).
(** See set_queue. *)
Definition set_busy (v : bool) (s : wst) : wst := mkW (queue s) (fin s) (det s) (freed s) (wt s) (curr s) (now s) (regs s) (pre s) (info s) (cnt s) (gds s) (sflag s) v (pend s) (loc s) (whist s).
(** See set_queue. *)
Definition set_pend (v : bool) (s : wst) : wst := mkW (queue s) (fin s) (det s) (freed s) (wt s) (curr s) (now s) (regs s) (pre s) (info s) (cnt s) (gds s) (sflag s) (busy s) v (loc s) (whist s).
(** See set_queue. *)
Definition set_loc (v : nat -> place) (s : wst) : wst := mkW (queue s) (fin s) (det s) (freed s) (wt s) (curr s) (now s) (regs s) (pre s) (info s) (cnt s) (gds s) (sflag s) (busy s) (pend s) v (whist s).
(** See set_queue. *)
Definition set_whist (v : list wev) (s : wst) : wst := mkW (queue s) (fin s) (det s) (freed s) (wt s) (curr s) (now s) (regs s) (pre s) (info s) (cnt s) (gds s) (sflag s) (busy s) (pend s) (loc s) v.
(** co_env.h 58-92, co_env.cpp 31-56, 388-394: the thread enters the loop. *)
Definition winit : wst :=
  mkW [] (fun _ => false) (fun _ => false) (fun _ => false) (fun _ => false) 0 (mkK 0 PUser) (fun c => mkK c PFresh)
      (fun _ => None) None 0 (fun _ => 0) false false false (fun _ => Own) [].

(** Append to the ghost history. *)
Definition log (e : wev) (s : wst) : wst := set_whist (e :: whist s) s.
(** The code that is executed goes on at [p]. *)
Definition goto (p : pc) (s : wst) : wst := set_now (mkK (own (now s)) p) s.
(** co_ctx::can_schedule (co_ctx.cpp 141-144). *)
Definition can (s : wst) (c : nat) : bool := negb (fin s c) && negb (wt s c).
(** Membership in the queues. *)
Definition inq (s : wst) (c : nat) : bool := existsb (Nat.eqb c) (queue s).
(** choose_ctx_from_normal_list__ (527-548) may return [n]; 0 stands for nullptr. *)
Definition pick (s : wst) (n : nat) : bool :=
  if n =? 0 then negb (existsb (can s) (queue s)) else inq s n && can s n.
(** Which coroutines remove_detached_ctx__ removes (201-214). *)
Definition victim (s : wst) (c : nat) : bool := inq s c && fin s c && det s c && negb (c =? curr s).
(** remove_detached_ctx__ (201-214), remove_ctx (331-340), destroy_ctx (co_ctx_factory.cpp 36-45). *)
Definition reap (s : wst) : wst :=
  set_whist (map WReap (filter (victim s) (queue s)) ++ whist s)
    (set_freed (fun c => freed s c || victim s c) (set_queue (filter (fun c => negb (victim s c)) (queue s)) s)).

(** Outcomes: the next state, or coroutine [c] touched after it was destroyed. *)
Inductive wres := WOk (s : wst) | WFreed (c : nat).

(** The end of schedule_switch (323-327): shrink the stack of pre_ctx (co_ctx.cpp 301-314) and forget it. *)
Definition tail (s : wst) : wres :=
  if freed s (curr s) then WFreed (curr s) else
  match pre s (curr s) with
  | None => WOk (goto PUser s)
  | Some p => if freed s p then WFreed p
              else WOk (goto PUser (set_pre (upd (pre s) (curr s) None) (log (WShrink p (loc s p)) s)))
  end.
(** choose_ctx_from_normal_list__ sets curr_ctx__ (541, 546); prepare_to_switch sets SCHEDULED and busy (249-253). *)
Definition chosen (n : nat) (s : wst) : wst :=
  set_sflag true (if n =? 0 then set_curr n s else set_busy true (set_curr n s)).
(** The second half of prepare_to_switch (265-293): no switch, or a switch from one context to another. *)
Inductive plan := Stay (s : wst) | Swap (s : wst) (f t : nat).
(** co_env.cpp 265-293. *)
Definition prepare (sh : nat -> bool) (s : wst) (cu n : nat) : plan :=
  if cu =? n then Stay s
  else if sh cu || sh n then
    let s' := set_info (Some (cu, n)) s in if cu =? 0 then Stay s' else Swap s' cu 0
  else Swap s cu n.
(** prepare_to_switch (265-293) and switch_normal_ctx__ (296-306) of schedule_switch. *)
Definition finish_prepare (sh : nat -> bool) (s : wst) (cu n : nat) : wres :=
  if freed s cu then WFreed cu else
  match prepare sh s cu n with
  | Stay s' => tail s'
  | Swap s' f t => WOk (goto (PWin f t) s')
  end.
(** The registers of context [c] are loaded: its code starts in real_entry (co_ctx.cpp 65-70) or goes on. *)
Definition load (c : nat) (s : wst) : wst :=
  let k := regs s c in
  log (WRun (own k)) (set_now (match at_ k with PFresh => mkK (own k) PUser | _ => k end) s).
(** switch_to (co_vos_gcc_x86_64.cpp 64-121; C52): save the registers of the code that runs in the slot of [f], record [f] as
    pre_ctx of [t], load the slot of [t].  [p] is where the saved code goes on. *)
Definition switch (s : wst) (f t : nat) (p : pc) : wres :=
  if freed s f then WFreed f else if freed s t then WFreed t else
  WOk (load t (log (WSwitch f t) (set_pre (upd (pre s) t (Some f)) (set_regs (upd (regs s) f (mkK (own (now s)) p)) s)))).

(** Where a stretch of unlocked code is: a signal can be handled there. *)
Definition sigpoint (p : pc) : bool := match p with PUser | PSleep _ | PWin _ _ | PPost => true | _ => false end.

(** A coroutine is added to the env (58-97); its handle is given up (unlock_destroy, co_ctx.cpp 156-159); it starts to wait
    (co_ctx.cpp 181-190); it is woken (co_ctx.cpp 192-207); it takes or drops a CoPreemptGuard (813-833, co_define.h 127); one
    period of the monitor (co_manager.cpp 247-264); its function ends (co_ctx.cpp 67-81); schedule_switch up to the first
    unlocked place; the sleep of prepare_to_switch ends; switch_to; the rest of schedule_switch; the signal. *)
Inductive wlab := LCreate (c : nat) | LDetach (c : nat) | LWait | LUnwait (c : nat) | LGuard | LUnguard | LTick | LFinish
                | LYield (n : nat) | LWake | LGo | LPost | LSignal (n : nat).

(** In code of a coroutine. *)
Definition inuser (s : wst) : bool := match at_ (now s) with PUser => negb (own (now s) =? 0) | _ => false end.

(** schedule_switch (311-322) with [sh] the coroutines that have CO_CTX_FLAG_SHARED_STACK; from the loop 393-413 the state idle
    is set before (407, here without the sleep 409).  With a pending shared stack switch it is switch_shared_stack_ctx__
    (367-383) with save_shared_stack__ and restore_shared_stack__ (447-475) as changes of place (their contents: C53). *)
Definition yield (sh : nat -> bool) (s0 : wst) (n : nat) : option wres :=
  let s := reap (match info s0 with None => if own (now s0) =? 0 then set_busy false s0 else s0 | Some _ => s0 end) in
  match info s with
  | Some (f, t) =>
      if negb (n =? 0) then None else
      if freed s f then Some (WFreed f) else if freed s t then Some (WFreed t) else
      let l1 := if sh f then upd (loc s) f Saved else loc s in
      let l2 := if sh t then upd l1 t OnShared else l1 in
      Some (WOk (goto (PShared t) (set_loc l2 (set_cnt (S (cnt s)) (set_info None s)))))
  | None =>
      if negb (pick s n) then None else
      let cu := curr s in
      let s' := chosen n s in
      Some (if n =? 0 then WOk (goto (PSleep cu) s') else finish_prepare sh s' cu n)
  end.

(** switch_from_outside (co_vos_gcc_x86_64.cpp 142-165).  The sleep in prepare_to_switch, when there is nothing to schedule,
    is inside the handler with the signal masked: part of the step. *)
Definition signal (sh : nat -> bool) (s : wst) (n : nat) : option wres :=
  if negb (pend s) then None else
  let s1 := set_pend false s in
  if negb (cnt s =? 0) then (if n =? 0 then Some (WOk s1) else None) else
  if negb (sigpoint (at_ (now s)) && pick s n) then None else
  let cu := curr s in
  let s2 := chosen n s1 in
  Some (if freed s cu then WFreed cu else
        match prepare sh s2 cu n with
        | Stay s' => WOk s'
        | Swap s' f t => WOk (load t (log (WSig (own (now s'))) (set_regs (upd (regs s') f (now s')) s')))
        end).

(** One step.  [sh]: the coroutines created with a shared stack. *)
Definition wstep_res (sh : nat -> bool) (s : wst) (l : wlab) : option wres :=
  let o := own (now s) in
  match l with
  (* move_ctx_to_here (80-97) for a coroutine just made (co_ctx_factory.cpp 15-34, co_env.cpp 58-78) *)
  | LCreate c => if (c =? 0) || inq s c || freed s c then None
                 else Some (WOk (log (WNew c) (set_busy true (set_queue (queue s ++ [c]) s))))
  (* co_ctx.cpp 156-159 *)
  | LDetach c => if inq s c then Some (WOk (log (WDet c) (set_det (upd (det s) c true) s))) else None
  (* co_ctx.cpp 181-190 *)
  | LWait => if inuser s then Some (WOk (set_wt (upd (wt s) o true) s)) else None
  (* co_ctx.cpp 192-207; a destroyed coroutine is the subject of sched_wake_freed_refuted *)
  | LUnwait c => Some (WOk (set_wt (upd (wt s) c false) s))
  (* 825-833 *)
  | LGuard => if inuser s then Some (WOk (set_gds (upd (gds s) o (S (gds s o))) (set_cnt (S (cnt s)) s))) else None
  | LUnguard => if inuser s && negb (gds s o =? 0)
                then Some (WOk (set_gds (upd (gds s) o (gds s o - 1)) (set_cnt (cnt s - 1) s))) else None
  (* co_manager.cpp 255-262 *)
  | LTick => Some (WOk (set_sflag false (if busy s && negb (sflag s) && (1 <? length (queue s)) then set_pend true s else s)))
  (* co_ctx.cpp 67-81 *)
  | LFinish => if inuser s then Some (WOk (goto PEnd (log (WFin o) (set_fin (upd (fin s) o true) (set_cnt (S (cnt s)) s))))) else None
  | LYield n => match at_ (now s) with PUser | PEnd => yield sh s n | _ => None end
  (* 259-263 *)
  | LWake => match at_ (now s) with
             | PSleep cu => if existsb (can s) (queue s) || negb (wt s cu) then Some (finish_prepare sh s cu 0) else None
             | _ => None
             end
  (* 307, 384 *)
  | LGo => match at_ (now s) with
           | PWin f t => Some (switch s f t PPost)
           | PShared t => Some (switch s 0 t PPostS)
           | _ => None
           end
  (* 308, 323-327 and 385, the end of the guard of 369, 323-327 *)
  | LPost => match at_ (now s) with
             | PPost => Some (tail s)
             | PPostS => Some (tail (set_cnt (cnt s - 1) s))
             | _ => None
             end
  | LSignal n => signal sh s n
  end.
(** Executions in which nothing destroyed has been touched yet. *)
Definition wstep (sh : nat -> bool) (s : wst) (l : wlab) : option wst :=
  match wstep_res sh s l with Some (WOk s') => Some s' | _ => None end.
