{
 "claims": [
  {
   "property": "C01",
   "status": "proved",
   "theorems": [
    "mutex_mutual_exclusion",
    "mutex_is_linearizable",
    "mutex_relock_unsupported"
   ],
   "note": "hypothesis no_relock = the usage rule in the statement"
  },
  {
   "property": "C02",
   "status": "proved",
   "theorems": [
    "mutex_unlock_owner_only",
    "mutex_throwing_unlock_inert",
    "mutex_is_linearizable"
   ],
   "note": ""
  },
  {
   "property": "C03",
   "status": "proved",
   "theorems": [
    "mutex_fifo_no_overtaking"
   ],
   "note": ""
  },
  {
   "property": "C04",
   "status": "proved",
   "theorems": [
    "mutex_no_lost_wakeup",
    "mutex_free_progress",
    "mutex_granted_progress"
   ],
   "note": ""
  },
  {
   "property": "C05",
   "status": "proved",
   "theorems": [
    "rec_mutex_linearizable",
    "rec_mutex_exclusion",
    "rec_mutex_balanced",
    "rec_mutex_unlock_owner_only",
    "rec_mutex_throwing_unlock_inert",
    "rec_mutex_reentrant",
    "rec_mutex_fifo",
    "rec_mutex_no_lost_wakeup",
    "rec_mutex_counter_wraps"
   ],
   "note": "Fine-grained spin-lock model; holds while no coroutine nests 2^64 lock() calls (rec_mutex_counter_wraps shows this bound is needed)."
  },
  {
   "property": "C06",
   "status": "partial",
   "theorems": [
    "shared_mutex_exclusion_refuted",
    "shared_mutex_owner_unlock_throws_refuted",
    "shared_mutex_linearizable_partial",
    "shared_mutex_exclusion_partial",
    "shared_mutex_unlock_owner_only_partial",
    "shared_mutex_single_writer_partial"
   ],
   "note": "REFUTED: wake_up_waiters__ uses std::remove_if as a partition (co_shared_mutex.cpp 209-217), so an exclusive waiter can be granted together with shared ones. Proved for executions that never release the mutex completely while a reader heads a line containing a writer, in particular for single-writer programs."
  },
  {
   "property": "C07",
   "status": "partial",
   "theorems": [
    "shared_mutex_forgets_waiter_refuted",
    "shared_mutex_line_partial",
    "shared_mutex_no_lost_wakeup_partial"
   ],
   "note": "REFUTED: the same misuse of std::remove_if drops the first waiting reader for ever. Proved for executions without the bad situation."
  },
  {
   "property": "C08",
   "status": "proved",
   "theorems": [
    "cv_calls_well_formed",
    "cv_returns_with_lock",
    "cv_no_spurious_wakeup",
    "cv_no_lost_wakeup"
   ],
   "note": "Fine-grained model (internal spin lock, waiter queue, park/unpark, timer callbacks as extra agents). The spurious-wake-up half is stated for condition variables without timed waits; cv_stale_timer_refuted (C63) shows why."
  },
  {
   "property": "C09",
   "status": "partial",
   "theorems": [
    "cv_pred_wait_blocks_refuted",
    "cv_pred_wait_true_partial"
   ],
   "note": "REFUTED second half: the do-while in wait(lock,pred) parks before it looks at the predicate. First half proved for all predicates, data and interleavings."
  },
  {
   "property": "C10",
   "status": "partial",
   "theorems": [
    "cv_timeout_sticks_refuted",
    "cv_timeout_lost_refuted",
    "cv_timed_false_partial",
    "cv_timed_once_partial",
    "cv_timeout_reported_partial"
   ],
   "note": "REFUTED: timeout__ is a member that is never reset, and a timer that fires before the caller is queued is lost. Proved: false is returned only after some deadline on this condition variable passed, and the call's own one if it is the only timed wait."
  },
  {
   "property": "C11",
   "status": "proved",
   "theorems": [
    "sem_bounds",
    "sem_permits_decide",
    "sem_release_units",
    "sem_calls_well_formed",
    "fine_sem",
    "fine_refines_monitor"
   ],
   "note": ""
  },
  {
   "property": "C12",
   "status": "proved",
   "theorems": [
    "sem_no_stranded_waiter",
    "fine_sem_no_stranded_waiter",
    "sem_until_deadline"
   ],
   "note": ""
  },
  {
   "property": "C13",
   "status": "proved",
   "theorems": [
    "latch_opens_exactly",
    "latch_stays_open",
    "latch_never_below_zero",
    "latch_calls_well_formed",
    "latch_negative_amount_reopens",
    "fine_latch"
   ],
   "note": "the last theorem shows why the hypothesis on amounts is needed"
  },
  {
   "property": "C14",
   "status": "proved",
   "theorems": [
    "latch_releases_everybody",
    "fine_latch_releases_everybody"
   ],
   "note": ""
  },
  {
   "property": "C15",
   "status": "proved",
   "theorems": [
    "wg_waits_for_count",
    "wg_calls_well_formed",
    "wg_releases_everybody",
    "fine_wg",
    "fine_wg_releases_everybody"
   ],
   "note": ""
  },
  {
   "property": "C16",
   "status": "proved",
   "theorems": [
    "barrier_events",
    "barrier_phase_bounds",
    "barrier_calls_well_formed",
    "fine_barrier",
    "fine_segments_exclude"
   ],
   "note": ""
  },
  {
   "property": "C17",
   "status": "proved",
   "theorems": [
    "barrier_events",
    "barrier_releases_phase",
    "barrier_token_reuse_unsafe",
    "fine_barrier_releases_phase",
    "barrier_waits_decided"
   ],
   "note": ""
  },
  {
   "property": "C18",
   "status": "partial",
   "theorems": [
    "barrier_drop_refuted",
    "barrier_drop_stops_for_ever",
    "barrier_drop_partial",
    "fine_barrier_drop_refuted"
   ],
   "note": "REFUTED: the last arrival by arrive_and_drop does not complete the phase; barrier_drop_partial is what does hold"
  },
  {
   "property": "C19",
   "status": "proved",
   "theorems": [
    "call_once_at_most_once",
    "call_once_exactly_once",
    "call_once_runner_waits"
   ],
   "note": ""
  },
  {
   "property": "C20",
   "status": "partial",
   "theorems": [
    "call_once_returns_early_refuted",
    "call_once_exception_refuted",
    "call_once_done_partial"
   ],
   "note": "REFUTED: losers of the compare-exchange do not wait, and an exception leaves the flag set. Proved: once all calls are back and none threw, the callable has completed."
  },
  {
   "property": "C21",
   "status": "proved",
   "theorems": [
    "chan_exactly_once_fifo",
    "chan_events",
    "chan_calls_well_formed",
    "fine_chan"
   ],
   "note": ""
  },
  {
   "property": "C22",
   "status": "proved",
   "theorems": [
    "chan_capacity",
    "chan_unlimited_push_never_blocks",
    "fine_chan"
   ],
   "note": ""
  },
  {
   "property": "C23",
   "status": "proved",
   "theorems": [
    "chan_close",
    "chan_events",
    "fine_chan"
   ],
   "note": ""
  },
  {
   "property": "C24",
   "status": "proved",
   "theorems": [
    "chan_no_lost_wakeup",
    "fine_chan_no_lost_wakeup"
   ],
   "note": ""
  },
  {
   "property": "C25",
   "status": "proved",
   "theorems": [
    "chan_rendezvous",
    "fine_chan_rendezvous"
   ],
   "note": ""
  },
  {
   "property": "C26",
   "status": "partial",
   "theorems": [
    "sync_progress_refuted",
    "sync_taken_push_stuck_refuted",
    "sync_progress_partial",
    "sync_never_both_blocked_partial",
    "fine_sync_progress_refuted",
    "fine_sync_progress_partial"
   ],
   "note": "REFUTED with two producers; holds with a single producer coroutine"
  },
  {
   "property": "C27",
   "status": "proved",
   "theorems": [
    "iter_visits_what_it_takes",
    "iter_stops_at_end",
    "iter_leaves_on_none"
   ],
   "note": ""
  },
  {
   "property": "C28",
   "status": "proved",
   "theorems": [
    "pipe_prefix",
    "pipe_complete",
    "pipe_fun_prefix",
    "pipe_fun_complete"
   ],
   "note": "pipe_rel/pipe_fun are the list functions; holds with fork stages too (up to their order). Group sizes at least 1 (group 0 has no list meaning, see C64)."
  },
  {
   "property": "C29",
   "status": "proved",
   "theorems": [
    "fork_multiset",
    "fork_contained"
   ],
   "note": "At closing: a permutation of the images of the whole input; at any time: a sub-multiset."
  },
  {
   "property": "C30",
   "status": "proved",
   "theorems": [
    "pipe_never_stuck",
    "pipe_finite",
    "pipe_finishes"
   ],
   "note": "Progress while the reader has not seen the end, an explicit bound on the number of steps, and the final result. Group sizes at least 1."
  },
  {
   "property": "C31",
   "status": "partial",
   "theorems": [
    "pipe_stops_partial",
    "pipe_source_stuck_refuted",
    "pipe_source_runs_refuted"
   ],
   "note": "REFUTED: filter/map/skip/fork do not close their input when their output is closed, so the source can stay blocked for ever or run for ever after take has ended the pipeline. Proved: when nothing moves every stage has ended, and the source too unless its consumer is such a stage and its channel is bounded."
  },
  {
   "property": "C32",
   "status": "partial",
   "theorems": [
    "join_completes_refuted",
    "join_results",
    "join_value",
    "join_completes_partial",
    "join_steps_bounded"
   ],
   "note": "REFUTED with preemption: a timer signal between unlock_schedule and unlock_finished_state leaves the recursive lock with the thread of the waiter, and the target on another thread blocks for ever. Results are proved for every interleaving, with preemption; without it every call returns, after boundedly many steps."
  },
  {
   "property": "C33",
   "status": "partial",
   "theorems": [
    "exception_once_refuted",
    "exception_partial"
   ],
   "note": "REFUTED: two calls that read exception__ before one of them clears it both throw. Proved: the exception is not lost, and once one call has ended with it no call picks it up again."
  },
  {
   "property": "C34",
   "status": "partial",
   "theorems": [
    "wait_for_pub_refuted",
    "wait_for_queue_refuted",
    "wait_for_start_refuted",
    "wait_for_freed_refuted",
    "join_results",
    "wait_for_priority",
    "wait_for_stuck_partial",
    "wait_for_end_partial",
    "wait_for_expiry_partial"
   ],
   "note": "REFUTED: a timed wait can stay blocked for ever by the lock inversion event/timer, by the lock inversion timer/timer queue, or by a cycle schedule lock/timer queue/timer mutex of two callers on one thread; a timer callback can run on a destroyed target. Results and priority are proved for every interleaving; these are the only ways to get stuck."
  },
  {
   "property": "C35",
   "status": "proved",
   "theorems": [
    "handle_kill",
    "handle_alive",
    "handle_reclaimable",
    "handle_move",
    "sched_reap_partial",
    "handle_shut_refuted",
    "sched_reap_enabled"
   ],
   "note": "For every sequence of operations on handles and switches, as the property is quantified; sched_reap_partial ties the reclamation step to the scheduler. Shutting down a thread is outside the quantifier: it destroys everything on it (handle_shut_refuted)."
  },
  {
   "property": "C36",
   "status": "proved",
   "theorems": [
    "sched_priority",
    "sched_idle"
   ],
   "note": "A coroutine counts as runnable from the end of the call that added or released it; sched_priority_busy_ex shows that before that end a less urgent one can still be picked."
  },
  {
   "property": "C37",
   "status": "proved",
   "theorems": [
    "round_robin",
    "round_robin_once",
    "round_robin_n"
   ],
   "note": ""
  },
  {
   "property": "C38",
   "status": "proved",
   "theorems": [
    "wait_set_respected",
    "wait_set_released",
    "wait_release_other"
   ],
   "note": ""
  },
  {
   "property": "C39",
   "status": "proved",
   "theorems": [
    "idle_no_oversleep",
    "idle_wakes",
    "idle_quiet",
    "idle_stop",
    "native_no_oversleep",
    "native_wakes",
    "native_go"
   ],
   "note": "On top of the scheduler model: for every interleaving with wakers and stop_schedule, a thread that sleeps with a runnable coroutine has a call in flight that will wake it; native waiters likewise."
  },
  {
   "property": "C40",
   "status": "proved",
   "theorems": [
    "sched_conservation",
    "sched_workload",
    "sched_takes",
    "sched_take_finds"
   ],
   "note": "One thread and all calls other threads make on it; a coroutine given to another thread becomes a member there by the same theorem."
  },
  {
   "property": "C41",
   "status": "partial",
   "theorems": [
    "prio_config_refuted",
    "prio_range",
    "prio_int",
    "prio_inherit",
    "prio_config_partial",
    "prio_event",
    "prio_no_event"
   ],
   "note": "REFUTED for config values of 2^31 and more (the conversion size_t -> int makes 2^31 the highest priority); proved for every int and every size_t below 2^31; always within 0..99."
  },
  {
   "property": "C42",
   "status": "partial",
   "theorems": [
    "best_good",
    "best_idle",
    "best_new",
    "best_exclusive_refuted",
    "best_exclusive_partial"
   ],
   "note": "REFUTED in its last part: an idle thread is returned before the exclusive mark is looked at. Proved: idle thread, else least loaded eligible one or a new one; never an exclusive thread that is not idle."
  },
  {
   "property": "C43",
   "status": "partial",
   "theorems": [
    "reclaim_selects",
    "reclaim_create_refuted",
    "reclaim_lost_refuted",
    "reclaim_use_refuted",
    "reclaim_create_partial",
    "new_env_ok"
   ],
   "note": "REFUTED in its last part: between the choice of a thread and add_ctx the thread can be reclaimed: the creation throws, or the coroutine is destroyed unrun, or the deleted thread is used. Proved: only reclaimable threads are selected and no more than the surplus; creations are disturbed in no other way."
  },
  {
   "property": "C44",
   "status": "partial",
   "theorems": [
    "steal_refuted",
    "redistribute_refuted",
    "steal_never",
    "redistribute_never",
    "steal_conserves_partial",
    "redistribute_conserves_partial",
    "redistribute_resets_partial"
   ],
   "note": "REFUTED: both routines take the schedule lock and then require that nobody, themselves included, holds it; so nothing is ever moved, in any configuration (steal_never, redistribute_never)."
  },
  {
   "property": "C45",
   "status": "partial",
   "theorems": [
    "forced_refuted",
    "forced_never",
    "forced_partial",
    "unforced_partial"
   ],
   "note": "REFUTED: the guard taken in real_entry is never released, so once a coroutine has ended on a thread no signal ever switches there again (forced_never, for all executions). Proved: before that, with no guard held and no shared stacks, two monitor periods without a yield force the switch."
  },
  {
   "property": "C46",
   "status": "partial",
   "theorems": [
    "switch_freed_refuted",
    "switch_shared_freed_refuted",
    "switch_freed_partial",
    "sched_add_freed_refuted",
    "sched_wake_freed_refuted",
    "sched_freed_partial"
   ],
   "note": "REFUTED in four ways: through pre_ctx of a coroutine on its first turn, through the pending shared-stack switch, and by calls of other threads that are still at work on the coroutine. Proved: there are no other ways (without preemption)."
  },
  {
   "property": "C47",
   "status": "proved",
   "theorems": [
    "timer_never_early",
    "timer_relative",
    "timer_periodic",
    "sleep_never_early",
    "wait_set_respected"
   ],
   "note": "Timers: a callback is launched once per start and not before its due time; sleeps: sleep_until does not return before its time point. A sleeping coroutine is resumed only when its wait set is empty (wait_set_respected)."
  },
  {
   "property": "C48",
   "status": "partial",
   "theorems": [
    "timer_periodic",
    "timer_equal_refuted",
    "timer_restart_refuted",
    "timer_all_fired_partial",
    "timer_fires_partial"
   ],
   "note": "REFUTED: of two timers due at the same time only one is queued, so the other never fires; a start between launch and retirement of the timer is lost. Proved for distinct due times: nothing due is left when the timer thread sleeps, and it does not stop short of that."
  },
  {
   "property": "C49",
   "status": "partial",
   "theorems": [
    "timer_stop_refuted",
    "timer_stop_other_refuted",
    "timer_stop_partial"
   ],
   "note": "REFUTED: a callback already launched still runs after stop has returned; stop of one timer can remove another one due at the same time. Proved: nothing is launched after stop."
  },
  {
   "property": "C50",
   "status": "partial",
   "theorems": [
    "timer_stop_deadlock_refuted",
    "timer_callback_deadlock_refuted",
    "timer_deadlock_partial",
    "wait_for_pub_refuted",
    "wait_for_queue_refuted",
    "wait_for_start_refuted",
    "wait_for_stuck_partial"
   ],
   "note": "REFUTED: stop against the expiry of the same timer, a callback that starts a timer, completion of a coroutine against a timed wait. Proved: without stop, periodic timers and callbacks that use timers the timer thread only ever waits for a callback to return; for timed waits, the listed cycles are the only ways to get stuck."
  },
  {
   "property": "C51",
   "status": "partial",
   "theorems": [
    "timer_empty_refuted",
    "timer_empty_partial"
   ],
   "note": "REFUTED: a timer stopped before the timer thread has woken up leaves it reading an empty set. Proved when no program thread stops a timer and there are no spurious wake-ups."
  },
  {
   "property": "C52",
   "status": "proved",
   "theorems": [
    "switch_preserves",
    "switch_records"
   ],
   "note": "switch_to as its instruction list over registers and byte memory; any number of coroutines, any computation in between; switches by signal included."
  },
  {
   "property": "C53",
   "status": "proved",
   "theorems": [
    "shared_kept",
    "shared_writes"
   ],
   "note": "Byte memory, any number of shared-stack and ordinary coroutines, any switch sequence, creation by other threads at any time."
  },
  {
   "property": "C54",
   "status": "proved",
   "theorems": [
    "shrink_dead",
    "shrink_dead_life",
    "shrink_often",
    "switch_shrink"
   ],
   "note": "For stacks that begin at a page, as mmap delivers them. Discarding is the effect of madvise on private anonymous memory."
  },
  {
   "property": "C55",
   "status": "partial",
   "theorems": [
    "new_start_partial",
    "new_start_size_partial",
    "new_start_align_refuted",
    "new_start_tiny_refuted"
   ],
   "note": "REFUTED: for stack sizes that are not multiples of 16 the stack is misaligned in every function of the coroutine, for sizes below 8 the first stack pointer lies outside the stack. Proved: entry point, argument and position for every size from 16, alignment exactly if 16 divides the top of the stack."
  },
  {
   "property": "C56",
   "status": "partial",
   "theorems": [
    "event_pub_exact_partial",
    "event_pub_reentrant_partial",
    "event_handles_partial",
    "event_no_ub_partial",
    "event_self_unsub_refuted",
    "event_order_refuted",
    "event_lost_refuted"
   ],
   "note": "REFUTED: a callback that cancels itself invalidates the iterator of pub; the int key wraps after 2^31 subscriptions. Proved for at most 2^31 subscriptions and no self-cancelling."
  },
  {
   "property": "C57",
   "status": "proved",
   "theorems": [
    "any_get",
    "any_return_value"
   ],
   "note": ""
  },
  {
   "property": "C58",
   "status": "partial",
   "theorems": [
    "local_private",
    "local_no_ub_partial",
    "local_type_reuse_refuted"
   ],
   "note": "Privacy proved in full. REFUTED: using a name at a second type is not detected but dereferences a null pointer."
  },
  {
   "property": "C59",
   "status": "proved",
   "theorems": [
    "finished_final",
    "finished_state_final",
    "env_final",
    "env_stop",
    "turn_order_partial",
    "env_new",
    "env_accepts"
   ],
   "note": ""
  },
  {
   "property": "C60",
   "status": "partial",
   "theorems": [
    "write_n_exact",
    "write_n_error",
    "write_n_ends",
    "read_n_exact_partial",
    "read_n_eof_refuted",
    "read_n_eof_always_refuted",
    "read_n_ends_partial",
    "write_n_offers"
   ],
   "note": "write_n: everything proved. read_n: REFUTED at the end of the stream, where it asks for ever; the bytes are right in every case, and it returns if the stream is long enough."
  },
  {
   "property": "C61",
   "status": "partial",
   "theorems": [
    "io_truthful",
    "net_truthful",
    "client_truthful",
    "accept_partial",
    "accept_refuted",
    "connect_zero_refuted",
    "connect_failed_refuted",
    "connect_intr_refuted",
    "connect_fdset_refuted",
    "connect_partial",
    "accept_exact_partial"
   ],
   "note": "read, write, send, recv, recvfrom, sendmsg, recvmsg and the loop of accept: proved for all answers. REFUTED for connect in three ways (connected at once, refused later, interrupted), undefined behaviour for descriptors from 1024; accept ignores a failing init_fd."
  },
  {
   "property": "C62",
   "status": "partial",
   "theorems": [
    "timed_wait_thread_refuted",
    "timed_wait_thread_partial",
    "timed_wait_thread_stuck",
    "hold_depth",
    "hold_blocks"
   ],
   "note": "REFUTED: wait_until takes the schedule lock again before it re-acquires the mutex; if that has to wait, the thread goes to sleep with its schedule lock held, and the calls that would wake it block on it. Proved: this happens only after a timed wait whose mutex was taken, and then for as long as it waits."
  },
  {
   "property": "C63",
   "status": "partial",
   "theorems": [
    "cv_stale_timer_refuted",
    "cv_no_spurious_wakeup",
    "cv_deadlines_inside_partial",
    "cv_timer_armed"
   ],
   "note": "REFUTED: a timer callback already handed to a coroutine when stop() runs wakes the coroutine out of a later wait. Without timed waits no such event exists."
  },
  {
   "property": "C64",
   "status": "partial",
   "theorems": [
    "pipe_finite_refuted",
    "pipe_finite"
   ],
   "note": "REFUTED: group(0, f) pushes for ever. For group sizes at least 1 see C30."
  },
  {
   "property": "C65",
   "status": "partial",
   "theorems": [
    "any_copy_refuted",
    "any_get",
    "any_private_partial"
   ],
   "note": "REFUTED: copies share one object. Without writes through references copies are independent (any_get); with writes, a variable not copied since its last assignment is independent (any_private_partial)."
  },
  {
   "property": "C66",
   "status": "partial",
   "theorems": [
    "prio_move_refuted",
    "prio_safe_partial"
   ],
   "note": "REFUTED: handle_priority_changed erases end() if the coroutine is in no queue; happens only between taking a coroutine from a thread and adding it to the next."
  },
  {
   "property": "C67",
   "status": "partial",
   "theorems": [
    "handle_terminate_refuted",
    "handle_terminate_partial"
   ],
   "note": "REFUTED: join rethrows inside the noexcept destructor and move assignment; proved that this is the only way."
  },
  {
   "property": "C68",
   "status": "partial",
   "theorems": [
    "handle_null_refuted",
    "handle_null_partial"
   ],
   "note": "REFUTED for wait<T> and wait_for; proved for wait<void>, join, detach, destruction and moves."
  },
  {
   "property": "C69",
   "status": "partial",
   "theorems": [
    "fcntl_refuted"
   ],
   "note": "REFUTED: the address of the va_list is passed. There is no positive part: commands without argument are outside the statement."
  },
  {
   "property": "C70",
   "status": "partial",
   "theorems": [
    "preempt_partial",
    "preempt_vec_refuted",
    "preempt_red_refuted",
    "shared_red_refuted"
   ],
   "note": "REFUTED: the vector registers of an interrupted coroutine are not saved, switch_to overwrites 8 bytes of its red zone when it resumes it, and the copy of a shared stack begins at the stack pointer and so loses the red zone. Proved: general purpose registers, flags, next instruction and the stack above the stack pointer survive."
  },
  {
   "property": "C71",
   "status": "partial",
   "theorems": [
    "shared_held_partial",
    "shared_leak_refuted"
   ],
   "note": "REFUTED: destroy_ctx does not destroy the stack of a shared-stack coroutine, so the copy made when it ended is never given back. Proved: no other memory is held; every piece belongs to exactly one saved coroutine."
  },
  {
   "property": "C72",
   "status": "partial",
   "theorems": [
    "lost_refuted",
    "lost_idle_refuted",
    "lost_partial"
   ],
   "note": "REFUTED: between unlock_schedule and switch_to curr_ctx__ names the coroutine switched to, and a signal there overwrites its saved registers: it never runs again. Proved: saved registers are right as long as signals find the thread in user code."
  },
  {
   "property": "C73",
   "status": "proved",
   "theorems": [
    "timed_mutex_calls",
    "timed_mutex_not_early",
    "timed_mutex_is_mutex",
    "timed_mutex_never_parks",
    "timed_mutex_returns_soon",
    "timed_rec_mutex_calls",
    "timed_rec_mutex_not_early",
    "timed_rec_mutex_is_mutex",
    "timed_rec_mutex_never_parks",
    "timed_rec_mutex_returns_soon"
   ],
   "note": "The timed methods as a client of the step-by-step mutex models; for all executions in which the holder does not lock() again (co_timed_mutex) or the nesting stays below 2^64 (co_recursive_timed_mutex)."
  },
  {
   "property": "C74",
   "status": "partial",
   "theorems": [
    "timed_shared_mutex_refuted",
    "timed_shared_mutex_calls_partial",
    "timed_shared_mutex_not_early_partial",
    "timed_shared_mutex_is_mutex_partial",
    "timed_shared_mutex_never_parks_partial",
    "timed_shared_mutex_returns_soon"
   ],
   "note": "REFUTED as a consequence of C06: a stale queue entry lets a release grant the mutex to a coroutine inside try_lock_until, which then answers false. Proved: everything when no complete release meets a reader in front of a writer; the bound on the steps after the deadline always."
  },
  {
   "property": "C75",
   "status": "partial",
   "theorems": [
    "shutdown_returns_refuted",
    "shutdown_returns_partial"
   ],
   "note": "REFUTED: set_clean_up__ notifies the timer thread without its lock; when that thread has found the queue empty but does not wait yet, the destructor never returns. Proved: outside that window every execution of the manager's and the environments' steps is finite and ends only with the destructor returned."
  },
  {
   "property": "C76",
   "status": "proved",
   "theorems": [
    "env_destroyed_well",
    "env_expired_once"
   ],
   "note": "For all executions, before, during and after shutdown."
  },
  {
   "property": "C77",
   "status": "partial",
   "theorems": [
    "use_after_free_refuted",
    "cleaner_uses_freed",
    "use_by_client_refuted",
    "use_after_free_partial"
   ],
   "note": "REFUTED: destroy_env runs CoPreemptGuard on the cleaner thread, which makes an environment for it; at shutdown that environment is destroyed and then used, in every execution in which the destructor returns and any environment was destroyed (cleaner_uses_freed). Proved: destroyed environments are used by no other thread than the one they were made for; those with their own thread never."
  },
  {
   "property": "C78",
   "status": "partial",
   "theorems": [
    "shutdown_complete_refuted",
    "shutdown_early_refuted",
    "shutdown_told_partial",
    "shutdown_service_done_partial"
   ],
   "note": "REFUTED: environments with a thread are only told to stop; they are never destroyed and their threads use the manager after its destructor returned. Proved: all are told to stop, taken out of service or destroyed, and the manager's own threads do not use it afterwards."
  },
  {
   "property": "C79",
   "status": "partial",
   "theorems": [
    "internal_locks_deadlock_refuted",
    "sleep_and_timer_deadlock_refuted",
    "preemption_deadlock_refuted",
    "waiting_thread_does_not_step",
    "lock_order_partial"
   ],
   "note": "REFUTED three ways, each a circle that is there for ever: two timed waits on condition variables hold their own schedule lock and want each other's; sleep_until holds the schedule lock and wants the timer queue while the timer thread holds the queue and wants the schedule lock; a coroutine preempted inside a queue's lock. Proved: without preemption and without calls that start or stop a timer there is no circle, and every chain of waiting ends at a thread that is working."
  },
  {
   "property": "C80",
   "status": "partial",
   "theorems": [
    "critical_sections_refuted",
    "critical_sections_partial",
    "guarded_not_preempted"
   ],
   "note": "REFUTED: the signal handler only looks at the schedule lock; a coroutine preempted inside the lock of the queues is followed by another one of the same thread that enters too. Proved for all executions: one thread at a time in each section, one activity in an environment's own schedule section; without preemption one activity in each section; no switch signal switches a thread one of whose activities is inside a CoPreemptGuard section."
  },
  {
   "property": "C81",
   "status": "partial",
   "theorems": [
    "monitor_kept_waiting_refuted",
    "monitor_kept_waiting_partial"
   ],
   "note": "REFUTED: a coroutine preempted inside get_best_env__ keeps the lock of the environment set; the monitor waits for it as long as the coroutine that runs instead makes no call, and no signal is sent. Proved: without preemption whoever holds a lock is executing, inside a call, neither asleep nor switched away."
  },
  {
   "property": "C82",
   "status": "partial",
   "theorems": [
    "own_file_copy_refuted",
    "own_file_close_refuted",
    "own_file_partial"
   ],
   "note": "REFUTED by copies (get_endpoint): after one copy is closed the other acts on whatever got the descriptor next; REFUTED without copies: a close that reports an error has given up the descriptor, closing again closes another object's file. Proved for all executions: calls go to the object's file as long as that is open; nothing is done through an object closed with success; without copies and failing closes every call goes to its own file."
  },
  {
   "property": "C83",
   "status": "partial",
   "theorems": [
    "descriptor_leak_refuted",
    "descriptor_scope_refuted",
    "descriptor_kept_partial"
   ],
   "note": "REFUTED: if fcntl fails in init_fd the descriptor stays open and no object has it; an object that goes out of scope leaves its descriptor open; in both cases for ever, whatever is done. Proved: otherwise every file is closed or some object's close closes it."
  },
  {
   "property": "C84",
   "status": "partial",
   "theorems": [
    "io_blocks_refuted",
    "io_blocks_partial"
   ],
   "note": "REFUTED: setting a flag through co_io::fcntl may end the non-blocking mode. Proved: without such settings all calls on an object's own file are non-blocking; the sleeps of connect add up to at most its time-out."
  },
  {
   "property": "C85",
   "status": "partial",
   "theorems": [
    "failed_creation_refuted",
    "failed_creation_stop_refuted",
    "failed_creation_partial"
   ],
   "note": "REFUTED: if new co_stack fails after mmap the mapping is lost for ever (the check for nullptr is never reached); with memory for everything, a coroutine created for an environment that is stopping is lost with its stack. Proved for all executions: a creation that throws takes nothing away, changes no environment's coroutines or state, leaves at most six new things behind, none if the first allocation or the mapping fails, and later creations succeed."
  },
  {
   "property": "C86",
   "status": "proved",
   "theorems": [
    "given_back_once"
   ],
   "note": "Whatever fails: nothing is given back that is not held, all that the environments consist of is held, everything held has an owner but for at most six things per creation that threw; if none threw, held = owned, and nothing is held when no environment is left."
  },
  {
   "property": "C87",
   "status": "partial",
   "theorems": [
    "timer_dies_refuted",
    "timer_dies_partial"
   ],
   "note": "REFUTED: the exception ends timer_routine__; no timer is launched ever after, though start still succeeds. Proved with any failures: callbacks are never early and not launched after stop, start and stop are not blocked; without failure the timers behave as in C47-C51."
  },
  {
   "property": "C88",
   "status": "partial",
   "theorems": [
    "sleep_ends_refuted",
    "sleep_ends_partial"
   ],
   "note": "REFUTED: of two sleeps until the same moment the second is not taken into the queue and never returns, in no continuation. Proved for sleeps until different moments: in every reachable state every call under way can still return (no call lost, nothing stuck); timers of other kinds and spurious wake-ups of the timer thread are left out."
  },
  {
   "property": "C89",
   "status": "partial",
   "theorems": [
    "crash_code",
    "crash_report_refuted",
    "crash_report_partial",
    "crash_exit_refuted",
    "crash_exit_partial"
   ],
   "note": "REFUTED: a second, different signal while the first is reported ends the program at once with its own code and an incomplete report, and two threads that crash together can both call exit because in_exception is tested and set in two steps. Proved: the program ends only with the code of a delivered signal, and an incomplete report means a second signal; with one signal the report is complete; with further signals only after in_exception was set exit is called once."
  },
  {
   "property": "C90",
   "status": "partial",
   "theorems": [
    "crash_background",
    "crash_ends_refuted",
    "crash_ends_partial"
   ],
   "note": "REFUTED: exit called on the cleaner, monitor or timer thread waits for that very thread, in every continuation. Proved: with one signal on a thread of the client, or a worker thread that is not finishing, the library's own steps can end the program with the signal's code and a full report (provided the timer thread has not lost the notification of C75)."
  },
  {
   "property": "C91",
   "status": "partial",
   "theorems": [
    "report_deadlock_refuted",
    "report_order_partial"
   ],
   "note": "REFUTED: a signal inside handle_priority_changed while the monitor waits for that queue: the report waits for the manager's lock, the monitor for the interrupted thread, for ever. Proved: with signals only on threads that hold no internal lock, no timer calls and no preemption there is no circle and everyone waits for a thread that works."
  },
  {
   "property": "C92",
   "status": "partial",
   "theorems": [
    "mutex_starvation_refuted",
    "mutex_no_starvation_partial"
   ],
   "note": "REFUTED for a weakly fair scheduler: co_spinlock is a test-and-set lock, and a coroutine that spins on it can find it taken whenever it looks, while another one locks and unlocks the mutex for ever. Proved: with a strongly fair scheduler (nobody is passed over for ever while able again and again) every call returns, since the queue of the mutex is first come, first served and unlock hands the mutex over."
  },
  {
   "property": "C93",
   "status": "proved",
   "theorems": [
    "mutex_orders",
    "mutex_no_race",
    "mutex_passes_on"
   ],
   "note": "happens-before of the C++ standard on the trace of memory accesses; each coroutine counted as its own thread, so only the acquire and release operations of co_spinlock order them. Hypothesis: clients do not lock again what they hold."
  },
  {
   "property": "C94",
   "status": "partial",
   "theorems": [
    "internals_race_refuted",
    "internals_race_partial",
    "internals_unlock"
   ],
   "note": "REFUTED: eleven objects can be raced on: base_env_count, max_env_count and default_shared_stack_size__ are set without a lock; timer_duration__ is read through a reference after its lock was released; clean_up__ is written under one lock and read under another; schedule_thread_tid__ is stored by the thread without a lock while the monitor reads it; exception__ is taken by two waiters; shared_stack__, priority__, locals__ and regs__ are read by the dump without their locks. Proved: there is no race on anything else (sets of environments, timer queue, flags, states, lists and counts of coroutines, least priority, wait sets, timers, events, pending switches), and on those only if a call that causes it was made; every lock is unlocked by its holder."
  },
  {
   "property": "C95",
   "status": "proved",
   "theorems": [
    "object_accesses_ordered",
    "effect_before_return",
    "latch_passes_on",
    "wg_passes_on",
    "sem_release_passes_on",
    "sem_acquire_passes_on",
    "barrier_passes_on"
   ],
   "note": "for executions of single steps with a trace of the memory accesses; usage rules of C13 and C16 (amounts not negative; tokens of arrive() passed once)"
  },
  {
   "property": "C96",
   "status": "proved",
   "theorems": [
    "chan_push_passes_on",
    "chan_pop_passes_on",
    "chan_unbuffered_pop_passes_on",
    "chan_unbuffered_next_passes_on",
    "chan_close_passes_on"
   ],
   "note": "for executions of single steps with a trace of the memory accesses; object_accesses_ordered covers the channel's own fields"
  },
  {
   "property": "C97",
   "status": "partial",
   "theorems": [
    "call_once_visible_refuted",
    "call_once_never_publishes",
    "call_once_visible_partial",
    "call_once_others_acquire"
   ],
   "note": "REFUTED: the flag is set before the callable runs and nothing is released afterwards, so nothing the callable does ever happens before anything another caller does, even a caller that starts long after the first call returned. What the runner did before its call is passed on"
  },
  {
   "property": "C98",
   "status": "proved",
   "theorems": [
    "rec_mutex_orders_clients",
    "rec_mutex_members_ordered"
   ],
   "note": "for executions of single steps with a trace of the memory accesses; nesting below 2^64"
  },
  {
   "property": "C99",
   "status": "partial",
   "theorems": [
    "shared_mutex_orders_clients_refuted",
    "shared_mutex_orders_clients_partial",
    "shared_mutex_orders_single_writer",
    "shared_mutex_members_ordered"
   ],
   "note": "REFUTED: after the defect of C06 the exclusive holder and a shared holder use the data at the same time, a data race of clients that keep all rules. Without that situation (unmixed; in particular with one writer) the data is ordered; the members always are"
  },
  {
   "property": "C100",
   "status": "partial",
   "theorems": [
    "cv_no_race_refuted",
    "cv_no_race_single_refuted",
    "cv_no_race_partial",
    "cv_no_race_untimed"
   ],
   "note": "REFUTED: timeout__ is written by a timer's callback under cv_lock__ but read by timed waits under the user's lock only, a data race with the waits of others and even with the only wait there is. Every race is of this form (callback writes, timed wait reads timeout__); without timed waits there is none"
  },
  {
   "property": "C101",
   "status": "partial",
   "theorems": [
    "wait_preempt_refuted",
    "wait_preempt_never",
    "wait_preempt_lock",
    "shared_preempt_refuted",
    "wait_preempt_stuck",
    "wait_preempt_exact",
    "wait_preempt_table",
    "wait_preempt_partial",
    "guard_balanced"
   ],
   "note": "REFUTED: co_condition_variable keeps its CoPreemptGuard while it waits, so one coroutine waiting at a channel, semaphore, latch, barrier, wait group or condition variable switches off preemption on its thread: a computing coroutine then stays for ever. So do co_call_once, taken spin locks inside guards, and switches to coroutines with shared stacks. Proved: a static check of the guards of every function is exact, the table of the functions that pass it, preemption works when only those are called, and the counter is always balanced"
  },
  {
   "property": "C102",
   "status": "partial",
   "theorems": [
    "source_early_refuted",
    "source_early",
    "source_waited_refuted",
    "source_closed_refuted",
    "source_taken_refuted",
    "source_copied_partial",
    "source_waited_partial",
    "source_taken_partial",
    "source_empty_partial"
   ],
   "note": "REFUTED: a pipeline made from a list in braces, an array or iterators keeps only pointers: if the object ends before the feeding coroutine runs, every execution that delivers an item reads dead memory; with take or a reader that closes, it does so even if the object is kept until the results have ended; a std::list must outlive its last item. Proved: containers, bounds and functions are copied; without stages that stop early, keeping the object until the end of the results is enough; for arrays, until all items have left the first channel"
  },
  {
   "property": "C103",
   "status": "partial",
   "theorems": [
    "stream_bound_refuted",
    "stage_bound_refuted",
    "first_bound_partial"
   ],
   "note": "REFUTED: stream(n) ignores n, and every stage after the first channel has an unlimited channel of its own, so any number of items can be under way whatever size was given. Proved: the first channel of a pipeline made by a constructor keeps to its size, which is the whole claim for a pipeline without stages"
  },
  {
   "property": "C104",
   "status": "proved",
   "theorems": [
    "stack_dump_complete",
    "stack_dump_outside"
   ],
   "note": "For stack pointers that are multiples of eight (stack_dump_unaligned shows that this is needed) and stacks made of whole pages, as mmap gives them."
  },
  {
   "property": "C105",
   "status": "partial",
   "theorems": [
    "report_name_refuted",
    "report_unwritten_refuted"
   ],
   "note": "REFUTED: exe_path tests the result of realpath the wrong way round: it returns the empty string when the path was found, and the contents of a buffer nobody has written when it was not"
  },
  {
   "property": "C106",
   "status": "proved",
   "theorems": [
    "wg_no_starvation",
    "latch_no_starvation",
    "barrier_no_starvation"
   ],
   "note": "On infinite executions of the monitor model, in which getting the object's mutex and running one critical section is one step; that a co_mutex is got in the end is C92. Latch: amounts >= 0. Barrier: a token from arrive() is passed to wait() once."
  },
  {
   "property": "C107",
   "status": "partial",
   "theorems": [
    "sem_starvation_refuted",
    "sem_progress_partial",
    "sem_overtaken_partial",
    "sem_try_partial"
   ],
   "note": "REFUTED: release() wakes a waiter but leaves the permit in the counter, and another acquire() can take it before the woken coroutine runs; with one coroutine that releases and acquires in a loop, a waiter is woken and put back for ever, even if everybody who can run again and again does run. Proved: a permit that is there while somebody waits is taken by somebody, room is used by somebody, a starving acquire() is overtaken for ever, try_acquire() returns."
  },
  {
   "property": "C108",
   "status": "proved",
   "theorems": [
    "chan_close_releases"
   ],
   "note": "On infinite executions of the monitor model, as C106."
  },
  {
   "property": "C109",
   "status": "partial",
   "theorems": [
    "chan_starvation_refuted",
    "chan_progress_partial",
    "chan_overtaken_partial"
   ],
   "note": "REFUTED: push() wakes a coroutine in pop(), but another pop() can take the value before the woken coroutine runs, for ever, even if everybody who can run again and again does run. Proved: a value that is there while somebody is in pop() is handed out to somebody, and a starving pop() is overtaken for ever."
  },
  {
   "property": "C110",
   "status": "partial",
   "theorems": [
    "long_refuted",
    "timer_due_refuted",
    "wait_for_refuted",
    "try_for_partial",
    "try_for_ends_partial",
    "timed_call_partial",
    "timed_call_ends_partial",
    "timer_due_partial",
    "wait_for_partial",
    "wait_until_partial"
   ],
   "note": "REFUTED: co::wait_for and co::wait_until drop the part of a millisecond (wait_for(1999us) gives up after 1 ms, wait_for(999us) at once); a relative timer with one of the longest intervals is due before its start, since the unsigned interval is converted to a negative number; durations such as hours::max() overflow, which is undefined behaviour. Proved for everything that can be expressed in 64-bit nanoseconds: the polling calls are exact, wait_for is less than a millisecond early and exact for whole milliseconds, timers are due exactly after their interval."
  },
  {
   "property": "C111",
   "status": "partial",
   "theorems": [
    "threads_set_refuted",
    "threads_max_refuted",
    "tick_set",
    "threads_set_partial",
    "threads_new_partial"
   ],
   "note": "REFUTED: numbers of threads are cut to 32 bits after the test for zero, so 2^32 sets none; the maximum is not looked at when threads are made, so a base count above it wins. Proved: the tick for every duration, the counts below 2^32, and no thread is made above the maximum if the base count is not above it."
  },
  {
   "property": "C112",
   "status": "partial",
   "theorems": [
    "rec_starvation_refuted",
    "rec_no_starvation_partial"
   ],
   "note": "REFUTED for weak fairness: the spin lock is a test-and-set lock, so a coroutine can find it taken each time it looks while another locks and unlocks for ever. Proved for strong fairness: every call returns, whatever the nesting below 2^64."
  },
  {
   "property": "C113",
   "status": "partial",
   "theorems": [
    "shared_writer_starvation_refuted",
    "shared_no_starvation_partial"
   ],
   "note": "REFUTED even for strong fairness: lock_shared joins other readers though a writer is parked, so a writer waits for ever while two readers take turns. Proved for strong fairness (without the situation of C06): every call other than lock() returns, and lock() returns if the readers pause now and then."
  },
  {
   "property": "C114",
   "status": "proved",
   "theorems": [
    "sched_no_starvation",
    "sched_picked_often"
   ],
   "note": "The example shows beside three coroutines that take turns a less urgent one that is never picked: the proviso on higher priorities is needed."
  },
  {
   "property": "C115",
   "status": "proved",
   "theorems": [
    "cv_fair_calls",
    "cv_fair_notified",
    "cv_fair_predicate",
    "cv_fair_deadline"
   ],
   "note": "The deadline must find the wait in the line: one that passes earlier is lost (C10).  The user lock is the abstract lock of CvModel; C92 shows the same of co_mutex."
  },
  {
   "property": "C116",
   "status": "proved",
   "theorems": [
    "timer_fair_launched",
    "timer_fair_periodic"
   ],
   "note": "That no two pending timers are due at the same moment is needed: otherwise one is lost (C48).  That the mutexes of timers are free again and again is C50/C117's concern."
  },
  {
   "property": "C117",
   "status": "partial",
   "theorems": [
    "timer_calls_refuted",
    "timer_calls_partial"
   ],
   "note": "REFUTED: timer_routine__ gives up mu_timer_queue__ only while it waits; with a timer that is always due (period 0) it never does, and a call of start on another timer never returns.  timer_calls_partial: if the timer thread sleeps again and again, every call returns."
  },
  {
   "property": "C118",
   "status": "proved",
   "theorems": [
    "sleep_fair_returns"
   ],
   "note": "Equal moments are excluded because then a sleep may never end (C88, sleep_ends_refuted); spurious wake-ups of the timer thread because with an empty queue they are undefined behaviour (C51)."
  },
  {
   "property": "C119",
   "status": "partial",
   "theorems": [
    "tick_refuted",
    "tick_new_refuted",
    "tick_partial",
    "tick_signals",
    "tick_keeps",
    "tick_corrected_refuted",
    "tick_corrected_all"
   ],
   "note": "REFUTED: a thread that sleeps in prepare_to_switch because all its coroutines wait keeps the state busy and is signalled at every period; an idle thread that gets two coroutines just before the tick is signalled. Proved: a thread that decides during a period is not signalled at its end (tick_partial); a tick signals exactly the threads with the state busy or blocked, no decision and two coroutines (tick_signals) and changes nothing else but stopping surplus idle threads (tick_keeps). With the lock count of C44 corrected, redistribute_ctx__ would take the coroutines of every busy thread, because force_schedule__ has just reset the mark (tick_corrected_refuted, tick_corrected_all)."
  },
  {
   "property": "C120",
   "status": "proved",
   "theorems": [
    "mem_reads",
    "mem_none",
    "mem_from_line",
    "mem_odd",
    "mem_short"
   ],
   "note": "A number too large for unsigned long makes std::stoul throw (part of mem_reads), as does a word that does not begin with a digit (mem_odd)."
  },
  {
   "property": "C121",
   "status": "proved",
   "theorems": [
    "config_made",
    "asked_last",
    "asked_none"
   ],
   "note": "What the number given as priority becomes is C41, failing creation is C85, the choice of the env C42."
  },
  {
   "property": "C122",
   "status": "partial",
   "theorems": [
    "shl_lost_refuted",
    "op_partial",
    "lt_exact"
   ],
   "note": "REFUTED for <<: on a closed channel it comes back as if the value had been accepted, and the value never is. Proved for all programs and interleavings: receives are exact and leave the variable as it was if they fail (>> by an exception); < is exact; << is exact as long as the channel is open."
  },
  {
   "property": "C123",
   "status": "partial",
   "theorems": [
    "errno_same_thread_refuted",
    "errno_moved_refuted",
    "errno_lost_refuted",
    "errno_partial",
    "errno_corrected_all"
   ],
   "note": "REFUTED: nothing keeps the switch signal away between the system call and the look at errno, which belongs to the thread and is not saved: a call that would block fails because of another coroutine of the thread, and a real error is taken for would-block and lost; if coroutines were moved as intended (C44), a move would do the same. Proved: results other than -1 are always those of the last system call, and -1 is returned only if that failed; with preemption closed in between the claim holds in all executions."
  },
  {
   "property": "C124",
   "status": "partial",
   "theorems": [
    "move_refuted",
    "move_guard_refuted",
    "move_stuck",
    "move_never_preempted",
    "move_partial",
    "move_corrected_all",
    "move_held",
    "move_library"
   ],
   "note": "REFUTED as soon as coroutines are moved, which the code means to do but never does (C44): a guard lowers the counter of the env it was made on, CoDisablePreempt raises that of the env it runs on; one waiting lock moved once leaves counters -1 and 1, and neither env is ever preempted again. Proved: without moves the counters are right in all executions; with guards that act on the current env and moves outside guards also with moves; coroutines that only lock and unlock mutexes are then preempted exactly when they run outside guards, and all counters end at 0."
  },
  {
   "property": "C125",
   "status": "partial",
   "theorems": [
    "sendto_refuted",
    "read_intr_refuted",
    "waits_partial",
    "waits_goes_on"
   ],
   "note": "REFUTED for sendto, which has no loop and fails on a full buffer, and for read and write, which fail if interrupted. Proved for all answers: accept, send, recv, recvfrom, sendmsg, recvmsg wait out both, read and write the first; each call goes on exactly as long as it gets such answers."
  },
  {
   "property": "C126",
   "status": "partial",
   "theorems": [
    "join_fair_refuted",
    "join_fair_partial",
    "join_fair_end_partial",
    "join_weak_refuted"
   ],
   "note": "REFUTED by the preemption signal between the two unlocks of wait_ctx (C32): that execution is fair. Proved for all strongly fair executions in which the signal does not come just there, any number of untimed calls: the end is published and each call returns. With weak fairness only (a lock that passes over a waiting thread again and again) false: callers can keep the lock from the finishing coroutine for ever. Calls with a time-out: C34."
  },
  {
   "property": "C127",
   "status": "proved",
   "theorems": [
    "chan_is_pipe_chan",
    "pipe_chan_is_chan"
   ],
   "note": "Values are numbers in the model of co_chan, which never looks at them."
  },
  {
   "property": "C128",
   "status": "proved",
   "theorems": [
    "pipe_flows"
   ],
   "note": "Weak fairness is assumed of the scheduler; stages other than maps may hold items back for ever and are left out."
  },
  {
   "property": "C129",
   "status": "proved",
   "theorems": [
    "pipe_fair_end",
    "pipe_fair_stops"
   ],
   "note": "Holds for every division of the steps among coroutines, so also for a scheduler that only ever lets somebody go on."
  }
 ]
}