(** Model of the sleeping of a scheduler thread, on top of the run queues of SchedModel.v: sleep_if_need__ (co_env.cpp
    667-685), need_sleep__ (519-525), can_schedule__ (502-512), wake_up (660-665), stop_schedule (349-357).  Line numbers
    without a file name refer to source/cocpp/core/co_env.cpp.

    The thread sleeps in two places: in prepare_to_switch after the decision to go idle, while the coroutine that gave up
    the processor still waits (258-263; then [pnd] is that coroutine), and in the loop of start_schedule_routine__ (411; then
    [pnd] and [cur] are none).  Each check holds schedule_lock__ throughout, and mu_normal_ctx__ and mu_min_priority__ during
    its scan.  Waiting on cv_sleep__ releases schedule_lock__; it may end for no reason.

    Simplifications.  When the thread is not in sleep_if_need__, schedule_lock__ counts as free, so wake-ups may come more
    often than they can.  set_state(busy) (94) is left out: need_sleep__ looks only at the state destroying, which is final
    (core/co_env.h).  leave_wait_resource_state reads env__ for the wake-up (co_ctx.cpp 205) in the same step as it wakes. *)
From Coq Require Import List Arith Bool ZArith.
From Verif Require Import Base SchedSpec SchedModel IdleSpec.
Import ListNotations.

(** Where the thread is with respect to sleep_if_need__ (667-685): not in it; holding schedule_lock__, about to check; in the
    scan of can_schedule__ (506-511) at a level with a rest of its queue; in cv_sleep__.wait, notified or not. *)
Inductive islp := Up | Lk | Scn (i : nat) (r : list nat) | Down (n : bool).

(** The run queues; the thread; the calls that have still to execute wake_up, with the coroutine they are about (96,
    co_ctx.cpp 205); whether call k is a move_ctx_to_here, which wakes this env (96), or a leave_wait_resource_state, which
    wakes env__ of the coroutine (co_ctx.cpp 205); the state destroying (353); stop_schedule calls before their wake_up (356);
    ghost history. *)
Record ist := mkI { bs : sst; slp : islp; wk : nat -> option nat; org : nat -> bool; dst : bool; stp : nat -> bool;
                    ih : ihist }.

(** SchedModel.sinit; the thread is not in sleep_if_need__ (388-392). *)
Definition iinit (cfg : nat -> Z * bool * bool * bool) : ist :=
  mkI (sinit cfg) Up (fun _ => None) (fun _ => false) false (fun _ => false) [].

(** The steps. *)
Inductive ilbl :=
| Base (l : slbl)    (* a step of SchedModel.v *)
| SleepB             (* sleep_if_need__ 669-670 or 678-679 *)
| ScanB              (* can_schedule__ 504-506 *)
| ScanS              (* can_schedule__ 508-509: one coroutine or one level; at the end 524 and the test of WAITING (261) *)
| Rise               (* the end of cv_sleep__.wait (673, 682) *)
| Wake (k : nat)     (* wake_up (660-665) from 96 or co_ctx.cpp 205 *)
| Stop (k : nat)     (* stop_schedule 351-354 *)
| StopW (k : nat).   (* stop_schedule 356 *)

(** Steps of the thread itself: end of a coroutine, prepare_to_switch, remove_detached_ctx__. *)
Definition own (l : slbl) : bool :=
  match l with Finish | PickB | PickS | Mark | Reap _ => true | _ => false end.
(** Steps that need mu_normal_ctx__ or mu_min_priority__ (87, 493, 577, 597, 616). *)
Definition locking (l : slbl) : bool :=
  match l with Push _ | Upd2 _ | Prio _ _ | Take => true | _ => false end.
(** schedule_lock__ is free for another thread (662, 669-685). *)
Definition sfree (s : ist) : bool := match slp s with Up | Down _ => true | _ => false end.
(** The thread is in the scan of can_schedule__ (504-511). *)
Definition scanning (s : ist) : bool := match slp s with Scn _ _ => true | _ => false end.
(** The thread is not in sleep_if_need__ (667-685). *)
Definition up (s : ist) : bool := match slp s with Up => true | _ => false end.
(** cv_sleep__.notify_one (664). *)
Definition notify (p : islp) : islp := match p with Down _ => Down true | _ => p end.

(** The events a base step has added. *)
Definition news (s s' : sst) : ihist := map IB (firstn (length (shi s') - length (shi s)) (shi s')).
(** Call k starts (85, co_ctx.cpp 192): it is not in another call. *)
Definition fits (s : ist) (l : slbl) : bool :=
  match l with
  | SetEnv k _ | Leave k _ _ => match wk s k with None => negb (stp s k) | Some _ => false end
  | _ => true
  end.
(** Which of the two functions call k is in (80, co_ctx.cpp 192). *)
Definition origin (s : ist) (l : slbl) : nat -> bool :=
  match l with SetEnv k _ => upd (org s) k true | Leave k _ _ => upd (org s) k false | _ => org s end.
(** The coroutine call k is about when update_min_priority__ ends (93, co_ctx.cpp 204). *)
Definition about (a : apc) : option nat := match a with AUpd _ c => Some c | _ => None end.

(** One step; each case is the function named at its label above, with the lines cited there. *)
Definition istep (s : ist) (l : ilbl) : option ist :=
  match l with
  | Base l =>
      if fits s l && (negb (own l) || up s) && (negb (locking l) || negb (scanning s))
      then match sstep_ok (bs s) l with
           | Some b =>
               match l with
               | Upd2 k => Some (mkI b (slp s) (upd (wk s) k (about (ag (bs s) k))) (org s) (dst s) (stp s) (ih s))
               | _ => Some (mkI b (slp s) (wk s) (origin s l) (dst s) (stp s) (news (bs s) b ++ ih s))
               end
           | None => None
           end
      else None
  | SleepB =>
      match slp s, cur (bs s), scn (bs s) with
      | Up, None, None => Some (mkI (bs s) Lk (wk s) (org s) (dst s) (stp s) (ih s))
      | _, _, _ => None
      end
  | ScanB =>
      match slp s with
      | Lk => Some (mkI (bs s) (Scn (minp (bs s)) (qs (bs s) (minp (bs s)))) (wk s) (org s) (dst s) (stp s) (ih s))
      | _ => None
      end
  | ScanS =>
      match slp s with
      | Scn i (c :: r) =>
          if can_schedule (cx (bs s) c)
          then Some (mkI (bs s) Up (wk s) (org s) (dst s) (stp s) (IGo :: ih s))
          else Some (mkI (bs s) (Scn i r) (wk s) (org s) (dst s) (stp s) (ih s))
      | Scn i [] =>
          if S i <? nprio
          then Some (mkI (bs s) (Scn (S i) (qs (bs s) (S i))) (wk s) (org s) (dst s) (stp s) (ih s))
          else if negb (dst s) && match pnd (bs s) with Some c => wflag (cx (bs s) c) | None => true end
               then Some (mkI (bs s) (Down false) (wk s) (org s) (dst s) (stp s) (ISleep :: ih s))
               else Some (mkI (bs s) Up (wk s) (org s) (dst s) (stp s) (IGo :: ih s))
      | _ => None
      end
  | Rise =>
      match slp s with
      | Down _ => Some (mkI (bs s) Lk (wk s) (org s) (dst s) (stp s) (IUp :: ih s))
      | _ => None
      end
  | Wake k =>
      match wk s k with
      | Some c =>
          if sfree s
          then match org s k, loc (cx (bs s) c) with
               | false, Away => Some (mkI (bs s) (slp s) (upd (wk s) k None) (org s) (dst s) (stp s) (IB (VRet k) :: ih s))
               | false, Dead => None
               | _, _ => Some (mkI (bs s) (notify (slp s)) (upd (wk s) k None) (org s) (dst s) (stp s)
                                   (IB (VRet k) :: INote k :: ih s))
               end
          else None
      | None => None
      end
  | Stop k =>
      match ag (bs s) k, wk s k with
      | ANone, None =>
          if sfree s && negb (stp s k)
          then Some (mkI (bs s) (slp s) (wk s) (org s) true (upd (stp s) k true) (IStop k :: ih s))
          else None
      | _, _ => None
      end
  | StopW k =>
      if stp s k && sfree s
      then Some (mkI (bs s) (notify (slp s)) (wk s) (org s) (dst s) (upd (stp s) k false) (IStopRet k :: INote k :: ih s))
      else None
  end.

(** ** A thread of the program *)
(** An env made from a thread of the program has no coroutines (co_env.cpp 31-50, 60-66), so need_sleep__ (519-525) is true
    and the thread sleeps while its idle context waits (258-263).  Its wait set and WAITING flag (core/co_ctx.h 48-54); the
    thread: not in sleep_if_need__, about to check, in cv_sleep__.wait; the calls of leave_wait_resource_state: none, after
    the critical section (co_ctx.cpp 201), about to wake (205; ctx_leave_wait_state 558-563 does nothing for the idle
    context); ghost history. *)
Inductive npc := NNone | NLeft | NWk.
(** The state described above (core/co_ctx.h 48-54, co_env.cpp 258-263, 519-525). *)
Record nst := mkN { nw : list nat; nfl : bool; nsl : islp; nag : nat -> npc; nh : nhist }.
(** core/co_ctx.h 36-57. *)
Definition ninit : nst := mkN [] false Up (fun _ => NNone) [].
Inductive nlbl :=
| NE (r : nat)       (* enter_wait_resource_state, co_ctx.cpp 181-190, by the thread *)
| NL (k r : nat)     (* leave_wait_resource_state, co_ctx.cpp 194-201 *)
| NT (k : nat)       (* co_ctx.cpp 202 *)
| NW (k : nat)       (* co_ctx.cpp 205: wake_up 660-665 *)
| NSB                (* sleep_if_need__ 678-679 *)
| NC                 (* the check 680, 261 *)
| NR.                (* the end of cv_sleep__.wait 682 *)
(** One step, with the lines cited at its label. *)
Definition nstep (s : nst) (l : nlbl) : option nst :=
  match l with
  | NE r => match nsl s with
            | Up => Some (mkN (if existsb (Nat.eqb r) (nw s) then nw s else r :: nw s) true Up (nag s) (NEnter r :: nh s))
            | _ => None
            end
  | NL k r => match nag s k with
              | NNone => let w := filter (fun y => negb (r =? y)) (nw s) in
                         Some (mkN w (match w with [] => false | _ => nfl s end) (nsl s) (upd (nag s) k NLeft) (NRel k r :: nh s))
              | _ => None
              end
  | NT k => match nag s k with
            | NLeft => if nfl s then Some (mkN (nw s) (nfl s) (nsl s) (upd (nag s) k NNone) (NRet k :: nh s))
                       else Some (mkN (nw s) (nfl s) (nsl s) (upd (nag s) k NWk) (nh s))
            | _ => None
            end
  | NW k => match nag s k, nsl s with
            | NWk, Up | NWk, Down _ =>
                Some (mkN (nw s) (nfl s) (notify (nsl s)) (upd (nag s) k NNone) (NRet k :: NNote k :: nh s))
            | _, _ => None
            end
  | NSB => match nsl s with Up => Some (mkN (nw s) (nfl s) Lk (nag s) (nh s)) | _ => None end
  | NC => match nsl s with
          | Lk => if nfl s then Some (mkN (nw s) (nfl s) (Down false) (nag s) (NSleep :: nh s))
                  else Some (mkN (nw s) (nfl s) Up (nag s) (NGo :: nh s))
          | _ => None
          end
  | NR => match nsl s with Down _ => Some (mkN (nw s) (nfl s) Lk (nag s) (NUp :: nh s)) | _ => None end
  end.
