(** The step-by-step composition of co_mutex, co_condition_variable and the methods of an object (FineModel.v) has no other
    histories than Monitor.v, and comes to rest only where Monitor.v does.  So what C11-C18 and C21-C26 say of API histories
    holds of the step-by-step executions. *)
From Coq Require Import List Arith Bool ZArith Lia.
From Verif Require Import Base LinSpec HistSpec Monitor MonitorProofs FineModel FineProofs.
From Verif Require MutexSpec MutexModel.
From Verif Require SemSpec SemModel SemProps LatchSpec LatchModel LatchProps WgSpec WgModel WgProps.
From Verif Require BarrierSpec BarrierModel BarrierProps ChanSpec ChanModel ChanProofs ChanProps.
Import ListNotations.

(** Every execution is matched by an execution with segments in one step: same history, same data, and if nothing can move in
    the one nothing can move in the other. *)
Theorem fine_refines_monitor : forall (D Op Res Aux Loc : Type) (entry : Op -> Loc)
    (body : tid -> Loc -> bool -> D -> outcome D Res Aux Loc) (d : D) ls s,
  run (fstep entry body) (finit Op Res Aux Loc d) ls = Some s ->
  exists ls' a, run (mstep entry body) (minit Op Res Aux Loc d) ls' = Some a /\
    mhist a = fhist s /\ dat a = fdat s /\ (fquiet entry body s -> quiescent entry body a).
Proof. intros. eapply fine_sim; eauto. Qed.
Print Assumptions fine_refines_monitor.

(** The mutex of the object is held by one coroutine at a time: two coroutines never execute segments together. *)
Definition in_segment (D Op Res Aux Loc : Type) (s : fst_ D Op Res Aux Loc) (t : tid) : Prop :=
  match fpcs s t with FSeg _ _ _ | FN _ _ _ _ => True | _ => False end.
Theorem fine_segments_exclude : forall (D Op Res Aux Loc : Type) (entry : Op -> Loc)
    (body : tid -> Loc -> bool -> D -> outcome D Res Aux Loc) (d : D) ls s t u,
  run (fstep entry body) (finit Op Res Aux Loc d) ls = Some s ->
  in_segment _ _ _ _ _ s t -> in_segment _ _ _ _ _ s u -> t = u.
Proof.
  intros D Op Res Aux Loc entry body d ls s t u H A B. destruct (sim_run entry body d ls H) as (V&_).
  apply (kh_one t u V); unfold in_segment in *; destruct (fpcs s t), (fpcs s u); try contradiction; reflexivity.
Qed.
Print Assumptions fine_segments_exclude.

(** A schedule: [k] steps of each coroutine of the list in turn, as long as they can move. *)
Section Sched.
  Variables (D Op Res Aux Loc : Type) (entry : Op -> Loc) (body : tid -> Loc -> bool -> D -> outcome D Res Aux Loc).
  Fixpoint turns (fuel : nat) (s : fst_ D Op Res Aux Loc) (ts : list tid) : list (flbl Op) :=
    match fuel with
    | 0 => []
    | S f => match ts with
             | [] => []
             | t :: r => match fstep entry body s (FRun t false) with
                         | Some s' => FRun t false :: turns f s' (r ++ [t])
                         | None => turns f s (r ++ [t])
                         end
             end
    end.
  (** Calls, then turns. *)
  Fixpoint calls (s : fst_ D Op Res Aux Loc) (cs : list (tid * Op)) (ts : list tid) (fuel : nat) : list (flbl Op) :=
    match cs with
    | [] => turns fuel s ts
    | (t, o) :: r => match fstep entry body s (FCall t o) with Some s' => FCall t o :: calls s' r ts fuel | None => [] end
    end.
  (** Some rounds of this. *)
  Fixpoint rounds (s : fst_ D Op Res Aux Loc) (rs : list (list (tid * Op) * list tid)) : list (flbl Op) :=
    match rs with
    | [] => []
    | (cs, ts) :: r => let ls := calls s cs ts 400 in
                       ls ++ match run (fstep entry body) s ls with Some s' => rounds s' r | None => [] end
    end.
End Sched.
Arguments rounds {D Op Res Aux Loc}.
Ltac resting := intros t b; do 8 (destruct t as [|t]; [reflexivity|]); reflexivity.

(** ** Semaphore: C11, C12 *)
Definition sem_fine (max : Z) := fstep SemModel.sem_entry (SemModel.sem_body max).
Definition sem_fine_init (init : Z) := finit SemSpec.sop SemSpec.sres SemSpec.saux SemModel.sloc init.
Theorem fine_sem : forall init max ls s, (0 <= init <= max)%Z ->
  run (sem_fine max) (sem_fine_init init) ls = Some s ->
  always (fun h => (0 <= SemSpec.permits init h <= max)%Z) (fhist s) /\
  always_at (SemSpec.sem_event_ok init max) (fhist s) /\ always_at SemSpec.units_ok (fhist s).
Proof.
  intros init max ls s Hi H. destruct (fine_refines_monitor _ _ _ _ _ _ _ _ _ _ H) as (ls'&a&A&<-&_&_). split; [|split].
  - eapply SemProps.sem_bounds; eauto.
  - eapply SemProps.sem_permits_decide; eauto.
  - eapply SemProps.sem_release_units; eauto.
Qed.
Print Assumptions fine_sem.
Theorem fine_sem_no_stranded_waiter : forall init max ls s t o, (0 <= init <= max)%Z ->
  run (sem_fine max) (sem_fine_init init) ls = Some s -> fquiet SemModel.sem_entry (SemModel.sem_body max) s ->
  phase_of SemSpec.sop_eqb SemSpec.sres_eqb (fhist s) t = Some (PPending o) ->
  match o with
  | SemSpec.OAcquire => SemSpec.permits init (fhist s) = 0%Z
  | SemSpec.ORelease _ => SemSpec.permits init (fhist s) = max
  | SemSpec.OTryAcq | SemSpec.OTryUntil => False
  end.
Proof.
  intros init max ls s t o Hi H Q. destruct (fine_refines_monitor _ _ _ _ _ _ _ _ _ _ H) as (ls'&a&A&<-&_&QA).
  eapply SemProps.sem_no_stranded_waiter; eauto.
Qed.
Print Assumptions fine_sem_no_stranded_waiter.
(** 1 and 2 call acquire() at the same time on an empty semaphore and contend for the mutex, step by step in turn; both wait.  3 calls
    release(1) while 4 calls try_acquire(): one of 1, 2 and 4 gets the unit. *)
Definition sem_fine_run : list (flbl SemSpec.sop) :=
  rounds SemModel.sem_entry (SemModel.sem_body 1) (sem_fine_init 0)
    [([(1, SemSpec.OAcquire); (2, SemSpec.OAcquire)], [1; 2]); ([(3, SemSpec.ORelease 1); (4, SemSpec.OTryAcq)], [1; 4; 3; 2])].
Example fine_sem_case : exists s,
  run (sem_fine 1) (sem_fine_init 0) sem_fine_run = Some s /\ fquiet SemModel.sem_entry (SemModel.sem_body 1) s /\
  length sem_fine_run = 79 /\ SemSpec.permits 0 (fhist s) = 0%Z /\
  phase_of SemSpec.sop_eqb SemSpec.sres_eqb (fhist s) 1 = Some PIdle /\
  phase_of SemSpec.sop_eqb SemSpec.sres_eqb (fhist s) 2 = Some (PPending SemSpec.OAcquire).
Proof.
  eexists. split; [vm_compute; reflexivity|]. split; [resting|]. repeat split; vm_compute; reflexivity.
Qed.

(** ** Latch: C13, C14 *)
Definition latch_fine := fstep LatchModel.latch_entry LatchModel.latch_body.
Definition latch_fine_init (init : Z) := finit LatchSpec.lop LatchSpec.lres LatchSpec.laux LatchModel.lloc init.
Theorem fine_latch : forall init ls s, (0 <= init)%Z ->
  run latch_fine (latch_fine_init init) ls = Some s -> LatchSpec.amounts_ok (fhist s) ->
  always_at (LatchSpec.latch_event_ok init) (fhist s) /\ (0 <= LatchSpec.downs (fhist s) <= init)%Z /\
  (forall newer older, fhist s = newer ++ older -> LatchSpec.downs older = init -> LatchSpec.downs (fhist s) = init).
Proof.
  intros init ls s Hi H. destruct (fine_refines_monitor _ _ _ _ _ _ _ _ _ _ H) as (ls'&a&A&<-&_&_). intros Am. split; [|split].
  - eapply LatchProps.latch_opens_exactly; eauto.
  - eapply LatchProps.latch_never_below_zero; eauto.
  - intros newer older. eapply LatchProps.latch_stays_open; eauto.
Qed.
Print Assumptions fine_latch.
Theorem fine_latch_releases_everybody : forall init ls s t o, (0 <= init)%Z ->
  run latch_fine (latch_fine_init init) ls = Some s -> LatchSpec.amounts_ok (fhist s) ->
  fquiet LatchModel.latch_entry LatchModel.latch_body s ->
  phase_of LatchSpec.lop_eqb LatchSpec.lres_eqb (fhist s) t = Some (PPending o) ->
  (LatchSpec.downs (fhist s) < init)%Z /\ (o = LatchSpec.OWaitL \/ exists n, o = LatchSpec.OArrive n).
Proof.
  intros init ls s t o Hi H. destruct (fine_refines_monitor _ _ _ _ _ _ _ _ _ _ H) as (ls'&a&A&<-&_&QA). intros Am Q.
  eapply LatchProps.latch_releases_everybody; eauto.
Qed.
Print Assumptions fine_latch_releases_everybody.
(** Latch of 3: 1 waits and 2 arrives with 2, contending; 3 counts down 1 while 1 or 2 is still on its way into the wait: all return. *)
Definition latch_fine_run : list (flbl LatchSpec.lop) :=
  rounds LatchModel.latch_entry LatchModel.latch_body (latch_fine_init 3)
    [([(1, LatchSpec.OWaitL); (2, LatchSpec.OArrive 2)], [1; 2]); ([(5, LatchSpec.OTryWait)], [5]);
     ([(3, LatchSpec.OCount 1); (4, LatchSpec.OWaitL)], [4; 3; 1; 2])].
Example fine_latch_case : exists s,
  run latch_fine (latch_fine_init 3) latch_fine_run = Some s /\ LatchSpec.amounts_ok (fhist s) /\ LatchSpec.downs (fhist s) = 3%Z /\
  In (ERet 5 LatchSpec.OTryWait LatchSpec.RFalse) (fhist s) /\ In (ERet 4 LatchSpec.OWaitL LatchSpec.ROk) (fhist s) /\
  In (ERet 1 LatchSpec.OWaitL LatchSpec.ROk) (fhist s).
Proof.
  eexists. split; [vm_compute; reflexivity|]. split.
  { intros t o H. simpl in H. repeat (destruct H as [H|H]; [inversion H; subst; try exact I; discriminate|]). destruct H. }
  split; [vm_compute; reflexivity|]. simpl. tauto.
Qed.
Example fine_latch_resting_case : exists s,
  run latch_fine (latch_fine_init 3) (rounds LatchModel.latch_entry LatchModel.latch_body (latch_fine_init 3)
    [([(1, LatchSpec.OWaitL); (2, LatchSpec.OArrive 2)], [1; 2])]) = Some s /\ LatchSpec.amounts_ok (fhist s) /\
  fquiet LatchModel.latch_entry LatchModel.latch_body s /\
  phase_of LatchSpec.lop_eqb LatchSpec.lres_eqb (fhist s) 2 = Some (PPending (LatchSpec.OArrive 2)).
Proof.
  eexists. split; [vm_compute; reflexivity|]. split; [|split; [resting|vm_compute; reflexivity]].
  intros t o H. simpl in H. repeat (destruct H as [H|H]; [inversion H; subst; try exact I; discriminate|]). destruct H.
Qed.

(** ** Wait group: C15 *)
Definition wg_fine (count : Z) := fstep WgModel.wg_entry (WgModel.wg_body count).
Definition wg_fine_init := finit WgSpec.wop WgSpec.wres WgSpec.waux WgModel.wloc 0%Z.
Theorem fine_wg : forall count ls s, run (wg_fine count) wg_fine_init ls = Some s ->
  always_at (WgSpec.wg_event_ok count) (fhist s).
Proof.
  intros count ls s H. destruct (fine_refines_monitor _ _ _ _ _ _ _ _ _ _ H) as (ls'&a&A&<-&_&_). eapply WgProps.wg_waits_for_count; eauto.
Qed.
Print Assumptions fine_wg.
Theorem fine_wg_releases_everybody : forall count ls s t o, run (wg_fine count) wg_fine_init ls = Some s ->
  fquiet WgModel.wg_entry (WgModel.wg_body count) s ->
  phase_of WgSpec.wop_eqb WgSpec.wres_eqb (fhist s) t = Some (PPending o) ->
  o <> WgSpec.ODone /\ (WgSpec.dones (fhist s) < count)%Z.
Proof.
  intros count ls s t o H Q. destruct (fine_refines_monitor _ _ _ _ _ _ _ _ _ _ H) as (ls'&a&A&<-&_&QA). eapply WgProps.wg_releases_everybody; eauto.
Qed.
Print Assumptions fine_wg_releases_everybody.
(** Group of 2: 1 waits while 2 calls done(); at rest 1 waits.  Then 3 calls done(): 1 returns. *)
Example fine_wg_case : exists s s',
  run (wg_fine 2) wg_fine_init (rounds WgModel.wg_entry (WgModel.wg_body 2) wg_fine_init
    [([(1, WgSpec.OWaitG); (2, WgSpec.ODone)], [1; 2])]) = Some s /\
  fquiet WgModel.wg_entry (WgModel.wg_body 2) s /\
  phase_of WgSpec.wop_eqb WgSpec.wres_eqb (fhist s) 1 = Some (PPending WgSpec.OWaitG) /\
  run (wg_fine 2) wg_fine_init (rounds WgModel.wg_entry (WgModel.wg_body 2) wg_fine_init
    [([(1, WgSpec.OWaitG); (2, WgSpec.ODone)], [1; 2]); ([(3, WgSpec.ODone)], [1; 3])]) = Some s' /\
  In (ERet 1 WgSpec.OWaitG WgSpec.ROk) (fhist s').
Proof.
  eexists. eexists. split; [vm_compute; reflexivity|]. split; [resting|]. split; [vm_compute; reflexivity|].
  split; [vm_compute; reflexivity|]. simpl. tauto.
Qed.

(** ** Barrier: C16-C18 *)
Definition barrier_fine (me : nat) (max : Z) := fstep BarrierModel.barrier_entry (BarrierModel.barrier_body me max).
Definition barrier_fine_init (max : Z) :=
  finit BarrierSpec.bop BarrierSpec.bres BarrierSpec.baux BarrierModel.bloc (BarrierModel.mkB max max 0).
Theorem fine_barrier : forall me max ls s, (0 < max)%Z ->
  run (barrier_fine me max) (barrier_fine_init max) ls = Some s -> BarrierSpec.usage_ok (fhist s) ->
  always_at (BarrierSpec.barrier_event_ok me max) (fhist s) /\
  (BarrierSpec.waited (fhist s) <= BarrierSpec.arrived (fhist s) <= (BarrierSpec.completed max (fhist s) + 1) * max)%Z.
Proof.
  intros me max ls s Hm H. destruct (fine_refines_monitor _ _ _ _ _ _ _ _ _ _ H) as (ls'&a&A&<-&_&_). intros U. split.
  - eapply BarrierProps.barrier_events; eauto.
  - eapply BarrierProps.barrier_phase_bounds; eauto.
Qed.
Print Assumptions fine_barrier.
Theorem fine_barrier_releases_phase : forall me max ls s t o, (0 < max)%Z ->
  run (barrier_fine me max) (barrier_fine_init max) ls = Some s -> BarrierSpec.usage_ok (fhist s) ->
  fquiet BarrierModel.barrier_entry (BarrierModel.barrier_body me max) s ->
  phase_of BarrierSpec.bop_eqb BarrierSpec.bres_eqb (fhist s) t = Some (PPending o) ->
  match o with
  | BarrierSpec.OWaitT k => (BarrierSpec.passed (fhist s) < (BarrierSpec.tgen k + 1) * max)%Z
  | BarrierSpec.OArriveWait => exists k, BarrierSpec.own_tok (fhist s) t = Some k /\ (BarrierSpec.passed (fhist s) < (BarrierSpec.tgen k + 1) * max)%Z
  | _ => False
  end.
Proof.
  intros me max ls s t o Hm H. destruct (fine_refines_monitor _ _ _ _ _ _ _ _ _ _ H) as (ls'&a&A&<-&_&QA). intros U Q.
  eapply BarrierProps.barrier_releases_phase; eauto.
Qed.
Print Assumptions fine_barrier_releases_phase.
Ltac usage :=
  repeat (apply always_at_cons; split; [try exact I; vm_compute; first [reflexivity|discriminate]|]); apply always_at_nil.
(** Barrier of 2: 1 and 2 arrive and wait, contending; both return. *)
Example fine_barrier_case : exists s,
  run (barrier_fine 7 2) (barrier_fine_init 2) (rounds BarrierModel.barrier_entry (BarrierModel.barrier_body 7 2) (barrier_fine_init 2)
    [([(1, BarrierSpec.OArriveWait); (2, BarrierSpec.OArriveWait)], [1; 2])]) = Some s /\
  BarrierSpec.usage_ok (fhist s) /\ BarrierSpec.completed 2 (fhist s) = 1%Z /\
  phase_of BarrierSpec.bop_eqb BarrierSpec.bres_eqb (fhist s) 1 = Some PIdle /\
  phase_of BarrierSpec.bop_eqb BarrierSpec.bres_eqb (fhist s) 2 = Some PIdle.
Proof. eexists. split; [vm_compute; reflexivity|]. split; [usage|]. repeat split; vm_compute; reflexivity. Qed.
Example fine_barrier_resting_case : exists s,
  run (barrier_fine 7 3) (barrier_fine_init 3) (rounds BarrierModel.barrier_entry (BarrierModel.barrier_body 7 3) (barrier_fine_init 3)
    [([(1, BarrierSpec.OArriveWait); (2, BarrierSpec.OArriveWait)], [1; 2])]) = Some s /\
  BarrierSpec.usage_ok (fhist s) /\ fquiet BarrierModel.barrier_entry (BarrierModel.barrier_body 7 3) s /\
  phase_of BarrierSpec.bop_eqb BarrierSpec.bres_eqb (fhist s) 1 = Some (PPending BarrierSpec.OArriveWait).
Proof. eexists. split; [vm_compute; reflexivity|]. split; [usage|]. split; [resting|vm_compute; reflexivity]. Qed.
(** C18 is false of the step-by-step executions as well. *)
Theorem fine_barrier_drop_refuted : exists ls s k,
  run (barrier_fine 7 2) (barrier_fine_init 2) ls = Some s /\ BarrierSpec.usage_ok (fhist s) /\
  fquiet BarrierModel.barrier_entry (BarrierModel.barrier_body 7 2) s /\
  phase_of BarrierSpec.bop_eqb BarrierSpec.bres_eqb (fhist s) 1 = Some (PPending BarrierSpec.OArriveWait) /\
  BarrierSpec.own_tok (fhist s) 1 = Some k /\ BarrierSpec.arrived (fhist s) = ((BarrierSpec.tgen k + 1) * 2)%Z.
Proof.
  exists (rounds BarrierModel.barrier_entry (BarrierModel.barrier_body 7 2) (barrier_fine_init 2)
    [([(1, BarrierSpec.OArriveWait); (2, BarrierSpec.ODrop)], [1; 2])]).
  eexists. exists (BarrierSpec.mkTok 0 7 1). split; [vm_compute; reflexivity|]. split; [usage|]. split; [resting|].
  repeat split; vm_compute; reflexivity.
Qed.
Print Assumptions fine_barrier_drop_refuted.

(** ** Channel: C21-C26 *)
Definition chan_fine (size : Z) := fstep ChanModel.chan_entry (ChanModel.chan_body (ChanSpec.kind_of_size size)).
Definition chan_fine_init := finit ChanSpec.cop ChanSpec.cres ChanSpec.caux ChanModel.cloc (ChanModel.mkC [] false).
Theorem fine_chan : forall size ls s, run (chan_fine size) chan_fine_init ls = Some s ->
  always_at (ChanSpec.chan_event_ok (ChanSpec.kind_of_size size)) (fhist s) /\
  ChanSpec.accepted (fhist s) = ChanSpec.delivered (fhist s) ++ ChanModel.cbuf (fdat s) /\
  always (fun h => exists rest, ChanSpec.accepted h = ChanSpec.delivered h ++ rest) (fhist s) /\
  always (fun h => ((size > 0)%Z -> (Z.of_nat (ChanSpec.buffered h) <= size)%Z) /\ (size = 0%Z -> ChanSpec.buffered h <= 1)) (fhist s).
Proof.
  intros size ls s H. destruct (fine_refines_monitor _ _ _ _ _ _ _ _ _ _ H) as (ls'&a&A&<-&<-&_). split; [|split; [|split]].
  - eapply ChanProps.chan_events; eauto.
  - eapply ChanProps.chan_exactly_once_fifo; eauto.
  - eapply ChanProps.chan_exactly_once_fifo; eauto.
  - eapply ChanProps.chan_capacity; eauto.
Qed.
Print Assumptions fine_chan.
Theorem fine_chan_rendezvous : forall ls s newer older t v,
  run (chan_fine 0) chan_fine_init ls = Some s ->
  fhist s = newer ++ ELin t (ChanSpec.OPush v) ChanSpec.RTrue :: older ->
  ChanSpec.own_puts older t = [v] /\
  (ChanSpec.is_closed older = true \/
   (ChanSpec.put_index older t < length (ChanSpec.delivered older) /\ nth_error (ChanSpec.delivered older) (ChanSpec.put_index older t) = Some v)).
Proof.
  intros ls s newer older t v H. destruct (fine_refines_monitor _ _ _ _ _ _ _ _ _ _ H) as (ls'&a&A&<-&_&_). eapply ChanProps.chan_rendezvous; eauto.
Qed.
Print Assumptions fine_chan_rendezvous.
Theorem fine_chan_no_lost_wakeup : forall size ls s t o,
  run (chan_fine size) chan_fine_init ls = Some s ->
  fquiet ChanModel.chan_entry (ChanModel.chan_body (ChanSpec.kind_of_size size)) s ->
  phase_of ChanSpec.cop_eqb ChanSpec.cres_eqb (fhist s) t = Some (PPending o) ->
  ChanSpec.is_closed (fhist s) = false /\
  match o with
  | ChanSpec.OPop => ChanSpec.buffered (fhist s) = 0
  | ChanSpec.OPush _ => (size >= 0 /\ (size > 0 -> Z.of_nat (ChanSpec.buffered (fhist s)) = size))%Z
  | _ => False
  end.
Proof.
  intros size ls s t o H Q. destruct (fine_refines_monitor _ _ _ _ _ _ _ _ _ _ H) as (ls'&a&A&<-&_&QA). eapply ChanProps.chan_no_lost_wakeup; eauto.
Qed.
Print Assumptions fine_chan_no_lost_wakeup.
(** Unbuffered: 1 pushes 10, 2 pops, contending: both return.  Capacity 1: 1 and 2 push at the same time; at rest one of them waits. *)
Example fine_chan_case : exists s,
  run (chan_fine 0) chan_fine_init (rounds ChanModel.chan_entry (ChanModel.chan_body (ChanSpec.kind_of_size 0)) chan_fine_init
    [([(1, ChanSpec.OPush 10); (2, ChanSpec.OPop)], [1; 2])]) = Some s /\
  ChanSpec.delivered (fhist s) = [10] /\ In (ERet 1 (ChanSpec.OPush 10) ChanSpec.RTrue) (fhist s) /\
  In (ERet 2 ChanSpec.OPop (ChanSpec.RSome 10)) (fhist s).
Proof. eexists. split; [vm_compute; reflexivity|]. split; [vm_compute; reflexivity|]. simpl. tauto. Qed.
Example fine_chan_resting_case : exists s,
  run (chan_fine 1) chan_fine_init (rounds ChanModel.chan_entry (ChanModel.chan_body (ChanSpec.kind_of_size 1)) chan_fine_init
    [([(1, ChanSpec.OPush 10); (2, ChanSpec.OPush 20)], [1; 2])]) = Some s /\
  fquiet ChanModel.chan_entry (ChanModel.chan_body (ChanSpec.kind_of_size 1)) s /\
  phase_of ChanSpec.cop_eqb ChanSpec.cres_eqb (fhist s) 2 = Some (PPending (ChanSpec.OPush 20)).
Proof. eexists. split; [vm_compute; reflexivity|]. split; [resting|vm_compute; reflexivity]. Qed.
(** C26 is false of the step-by-step executions as well: a producer and a consumer stay blocked together. *)
Theorem fine_sync_progress_refuted : exists ls s,
  run (chan_fine 0) chan_fine_init ls = Some s /\
  fquiet ChanModel.chan_entry (ChanModel.chan_body (ChanSpec.kind_of_size 0)) s /\ ChanSpec.is_closed (fhist s) = false /\
  phase_of ChanSpec.cop_eqb ChanSpec.cres_eqb (fhist s) 2 = Some (PPending (ChanSpec.OPush 20)) /\
  phase_of ChanSpec.cop_eqb ChanSpec.cres_eqb (fhist s) 4 = Some (PPending ChanSpec.OPop).
Proof.
  exists (rounds ChanModel.chan_entry (ChanModel.chan_body (ChanSpec.kind_of_size 0)) chan_fine_init
    [([(1, ChanSpec.OPush 10); (2, ChanSpec.OPush 20)], [1; 2]); ([(3, ChanSpec.OPop); (4, ChanSpec.OPop)], [3; 1; 4])]).
  eexists. split; [vm_compute; reflexivity|]. split; [resting|]. repeat split; vm_compute; reflexivity.
Qed.
Print Assumptions fine_sync_progress_refuted.
Theorem fine_sync_progress_partial : forall p ls s t o,
  run (chan_fine 0) chan_fine_init ls = Some s -> ChanSpec.single_producer p (fhist s) ->
  fquiet ChanModel.chan_entry (ChanModel.chan_body (ChanSpec.kind_of_size 0)) s ->
  phase_of ChanSpec.cop_eqb ChanSpec.cres_eqb (fhist s) t = Some (PPending o) ->
  match o with
  | ChanSpec.OPush v => ChanSpec.is_closed (fhist s) = false /\ ChanSpec.own_puts (fhist s) t = [v] /\
      length (ChanSpec.delivered (fhist s)) <= ChanSpec.put_index (fhist s) t /\ ChanSpec.buffered (fhist s) = 1
  | ChanSpec.OPop => ChanSpec.is_closed (fhist s) = false /\ ChanSpec.buffered (fhist s) = 0
  | _ => False
  end.
Proof.
  intros p ls s t o H. destruct (fine_refines_monitor _ _ _ _ _ _ _ _ _ _ H) as (ls'&a&A&<-&_&QA). intros S Q.
  eapply ChanProps.sync_progress_partial; eauto.
Qed.
Print Assumptions fine_sync_progress_partial.
