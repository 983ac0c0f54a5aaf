{"id": "C01", "title": "co_mutex gives mutual exclusion", "statement": "At no moment have two coroutines both obtained a co_mutex (lock() returned, or try_lock() returned true) without the first having called unlock() in between, provided no coroutine calls lock() on a mutex it already holds.", "quantifier": "every number of coroutines, every sequence of lock/try_lock/unlock calls, every interleaving at the granularity of individual shared-memory accesses, every outcome of the 10ms spin deadline", "why_tests_cant": "a test samples a handful of interleavings of a few coroutines; the claim is about every interleaving of any number of coroutines", "anchors": ["source/cocpp/sync/co_mutex.cpp: co_mutex::lock/try_lock/unlock", "source/cocpp/sync/co_spinlock.cpp: co_spinlock"]}
{"id": "C02", "title": "co_mutex unlock is owner-only", "statement": "unlock() called by a coroutine that does not hold the mutex throws logic_error and changes nothing; unlock() called by the holder never throws; try_lock() returns true exactly when the mutex was free, and then the caller holds it.", "quantifier": "every reachable state of the mutex, every caller, every interleaving", "why_tests_cant": "a test samples a handful of interleavings of a few coroutines; the claim is about every interleaving of any number of coroutines", "anchors": ["source/cocpp/sync/co_mutex.cpp: co_mutex::unlock, co_mutex::try_lock"]}
{"id": "C03", "title": "co_mutex serves parked waiters first-come first-served", "statement": "Coroutines that had to park inside lock() obtain the mutex in exactly the order they parked, and while anyone is parked no other coroutine (lock() or try_lock()) obtains the mutex ahead of them.", "quantifier": "every interleaving, every number of waiters", "why_tests_cant": "a test samples a handful of interleavings of a few coroutines; the claim is about every interleaving of any number of coroutines", "anchors": ["source/cocpp/sync/co_mutex.cpp: wait_deque__ handling in lock/unlock"]}
{"id": "C04", "title": "co_mutex never loses a wake-up", "statement": "Whenever nobody holds the mutex and some coroutine is inside lock(), the coroutines that are already inside mutex methods can by themselves (no new call) run to a point where one of them has obtained the mutex; in particular no waiter is parked forever on a free mutex.", "quantifier": "every reachable state of every interleaving", "why_tests_cant": "a lost wake-up is a hang in one rare interleaving; a passing test does not show that no interleaving hangs", "anchors": ["source/cocpp/sync/co_mutex.cpp: lock/unlock", "source/cocpp/core/co_ctx.cpp: enter_wait_resource_state/leave_wait_resource_state"]}
{"id": "C05", "title": "co_recursive_mutex: exclusive, re-entrant, balanced", "statement": "A co_recursive_mutex is held by at most one coroutine at a time; the holder can re-acquire it any number of times; it is released exactly when the holder has unlocked as many times as it locked; unlock by a non-holder throws and changes nothing; waiters are served in parking order and none is forgotten.", "quantifier": "every interleaving of lock/try_lock/unlock by any number of coroutines, every nesting depth below 2^64", "why_tests_cant": "a test samples a handful of interleavings of a few coroutines; the claim is about every interleaving of any number of coroutines", "anchors": ["source/cocpp/sync/co_recursive_mutex.cpp: lock/try_lock/unlock"]}
{"id": "C06", "title": "co_shared_mutex: a writer excludes everybody", "statement": "While a coroutine holds a co_shared_mutex in exclusive mode no other coroutine holds it in either mode.", "quantifier": "every interleaving of lock/lock_shared/try_*/unlock/unlock_shared, any number of readers and writers queued in any order", "why_tests_cant": "the violation needs a reader queued ahead of a writer at the instant of release; the test-suite never builds a mixed queue", "anchors": ["source/cocpp/sync/co_shared_mutex.cpp: lock, lock_shared, wake_up_waiters__"]}
{"id": "C07", "title": "co_shared_mutex forgets no waiter", "statement": "Every coroutine parked in lock() or lock_shared() stays in line until it is granted the lock: when the mutex becomes free and coroutines are parked, at least the longest-parked one is granted, and nobody leaves the queue without being granted the mode it asked for.", "quantifier": "every interleaving, every queue content", "why_tests_cant": "a test samples a handful of interleavings of a few coroutines; the claim is about every interleaving of any number of coroutines", "anchors": ["source/cocpp/sync/co_shared_mutex.cpp: wake_up_waiters__"]}
{"id": "C08", "title": "co_condition_variable: no lost, no spurious, no duplicated wake-up", "statement": "A coroutine that has entered wait(lock) (i.e. released the lock) before a notify is issued is woken by that notify_all, and by notify_one if it is the longest waiter; notify_one releases at most one waiter; wait() returns only after a notification issued after it released the lock, and returns holding the lock.", "quantifier": "every interleaving of waiters and notifiers at the granularity of the internal spin lock, any number of waiters", "why_tests_cant": "a test samples a handful of interleavings of a few coroutines; the claim is about every interleaving of any number of coroutines", "anchors": ["include/cocpp/sync/co_condition_variable.h: wait", "source/cocpp/sync/co_condition_variable.cpp: notify_one, notify_all"]}
{"id": "C09", "title": "co_condition_variable predicate wait", "statement": "wait(lock, pred) returns only when pred() is true and the lock is held, and it returns without blocking when pred() is already true on entry.", "quantifier": "every predicate and shared state, every interleaving", "why_tests_cant": "whether a call blocks forever depends on when the last notification happened", "anchors": ["include/cocpp/sync/co_condition_variable.h: wait(lock,pred)"]}
{"id": "C10", "title": "co_condition_variable timed waits report timeouts correctly", "statement": "wait_for/wait_until return false only if that call's own deadline passed without the awaited notification; a call that is notified before its deadline returns true.", "quantifier": "every history of timed waits on one condition variable", "why_tests_cant": "the outcome depends on the whole history of the object (an earlier timeout), not on the call", "anchors": ["include/cocpp/sync/co_condition_variable.h: wait_until, timeout__"]}
{"id": "C11", "title": "co_counting_semaphore keeps its count within bounds and conserves permits", "statement": "At every moment 0 <= initial + (units released so far) - (successful acquires so far) <= LeastMaxValue, and this number is exactly what decides whether try_acquire succeeds.", "quantifier": "every interleaving of acquire/try_acquire/try_acquire_until/release(n), any number of coroutines, every initial value in range", "why_tests_cant": "a test samples a handful of interleavings of a few coroutines; the claim is about every interleaving of any number of coroutines", "anchors": ["include/cocpp/sync/co_counting_semaphore.h"]}
{"id": "C12", "title": "co_counting_semaphore never strands a permit or a waiter", "statement": "When no coroutine can run inside the semaphore, a coroutine still blocked in acquire() means the count is 0 and a coroutine still blocked in release() means the count is at its maximum.", "quantifier": "every reachable quiescent state of every interleaving", "why_tests_cant": "a stranded permit is a hang in a rare interleaving", "anchors": ["include/cocpp/sync/co_counting_semaphore.h: acquire, release_one__"]}
{"id": "C13", "title": "co_latch opens exactly when counted down", "statement": "wait() and arrive_and_wait() return only after the count_down amounts add up to the initial count; try_wait() is true exactly from then on and for ever; a count_down exceeding the remaining count throws and changes nothing.", "quantifier": "every interleaving, every initial count >= 0, all amounts n >= 0", "why_tests_cant": "a test samples a handful of interleavings of a few coroutines; the claim is about every interleaving of any number of coroutines", "anchors": ["source/cocpp/sync/co_latch.cpp"]}
{"id": "C14", "title": "co_latch releases every waiter", "statement": "Once the latch has been counted down to zero no coroutine stays blocked in wait().", "quantifier": "every reachable quiescent state", "why_tests_cant": "a hang in a rare interleaving", "anchors": ["source/cocpp/sync/co_latch.cpp: count_down, wait"]}
{"id": "C15", "title": "co_wait_group waits for exactly its count of done()", "statement": "wait() (and the destructor) returns only after done() was called count times, and after that no coroutine stays blocked in wait().", "quantifier": "every interleaving, every count", "why_tests_cant": "a test samples a handful of interleavings of a few coroutines; the claim is about every interleaving of any number of coroutines", "anchors": ["source/cocpp/sync/co_wait_group.cpp"]}
{"id": "C16", "title": "co_barrier holds everybody back until all arrived", "statement": "No wait() of a phase returns, and no arrival of the next phase is accepted, before arrivals of total weight `expected` have been made in this phase; arrivals beyond `expected` in one phase are rejected with an exception.", "quantifier": "every interleaving, every expected > 0, all arrival weights n >= 1", "why_tests_cant": "a test samples a handful of interleavings of a few coroutines; the claim is about every interleaving of any number of coroutines", "anchors": ["source/cocpp/sync/co_barrier.cpp: arrive, wait"]}
{"id": "C17", "title": "co_barrier releases all waiters of a completed phase, and never rejects a fresh token", "statement": "When all tokens of a phase have been passed to wait(), every one of those waits returns; a token obtained from arrive(n>=1) and passed to wait() once is never rejected.", "quantifier": "every interleaving, any number of phases", "why_tests_cant": "a test samples a handful of interleavings of a few coroutines; the claim is about every interleaving of any number of coroutines", "anchors": ["source/cocpp/sync/co_barrier.cpp: wait"]}
{"id": "C18", "title": "co_barrier::arrive_and_drop lets the others proceed", "statement": "When the arrivals of a phase (including arrive_and_drop) add up to `expected`, every coroutine waiting for that phase is released.", "quantifier": "every mix of arrive_and_wait and arrive_and_drop", "why_tests_cant": "needs the history of arrivals without a matching wait; no test uses arrive_and_drop", "anchors": ["source/cocpp/sync/co_barrier.cpp: arrive_and_drop"]}
{"id": "C19", "title": "co_call_once runs the callable at most once", "statement": "Over all co_call_once calls on one flag the callable is started at most once, and it has been started when the first call that got past the flag returns.", "quantifier": "every interleaving of any number of callers", "why_tests_cant": "a test samples a handful of interleavings of a few coroutines; the claim is about every interleaving of any number of coroutines", "anchors": ["include/cocpp/sync/co_call_once.h"]}
{"id": "C20", "title": "co_call_once: done means done", "statement": "When co_call_once returns to any caller, the callable has completed successfully; a callable that throws does not consume the flag.", "quantifier": "every interleaving, every outcome of the callable", "why_tests_cant": "depends on one caller overtaking another inside the callable", "anchors": ["include/cocpp/sync/co_call_once.h"]}
{"id": "C21", "title": "co_chan delivers every accepted value exactly once, in order", "statement": "At any moment the values accepted by push, in acceptance order, are exactly the values returned by pop so far, in order, followed by the values still buffered.", "quantifier": "every channel kind (unlimited, bounded, unbuffered), any number of producers and consumers, every interleaving", "why_tests_cant": "a test samples a handful of interleavings of a few coroutines; the claim is about every interleaving of any number of coroutines", "anchors": ["include/cocpp/event/co_chan.h: push, pop"]}
{"id": "C22", "title": "co_chan respects its capacity", "statement": "A channel created with size n > 0 never buffers more than n values; an unbuffered one never more than 1; an unlimited one never blocks a push.", "quantifier": "every interleaving", "why_tests_cant": "a test samples a handful of interleavings of a few coroutines; the claim is about every interleaving of any number of coroutines", "anchors": ["include/cocpp/event/co_chan.h: fixed_chan::push, sync_chan::push, unlimited_chan::push"]}
{"id": "C23", "title": "co_chan close semantics", "statement": "After close() no further value is accepted (push returns false); pop keeps returning the buffered values in order and returns nullopt only when the channel is closed and everything accepted has been delivered; close() is permanent.", "quantifier": "every interleaving of push/pop/close", "why_tests_cant": "a test samples a handful of interleavings of a few coroutines; the claim is about every interleaving of any number of coroutines", "anchors": ["include/cocpp/event/co_chan.h: close, pop, push"]}
{"id": "C24", "title": "bounded and unlimited co_chan lose no wake-up", "statement": "When no coroutine can run inside the channel: a blocked pop means empty and open; a blocked push means full and open; a closed channel has nobody blocked.", "quantifier": "every reachable quiescent state, any number of producers/consumers", "why_tests_cant": "a hang in a rare interleaving", "anchors": ["include/cocpp/event/co_chan.h: fixed_chan::push, chan_base::pop, close"]}
{"id": "C25", "title": "unbuffered co_chan push is a rendezvous", "statement": "push on a channel of size 0 returns true only after the pushed value has been received by some pop or the channel has been closed.", "quantifier": "every interleaving, any number of producers and consumers", "why_tests_cant": "a test samples a handful of interleavings of a few coroutines; the claim is about every interleaving of any number of coroutines", "anchors": ["include/cocpp/event/co_chan.h: sync_chan::push"]}
{"id": "C26", "title": "unbuffered co_chan makes progress", "statement": "On an open channel of size 0, a push returns once its value has been taken, and a producer and a consumer never stay blocked at the same time.", "quantifier": "every reachable quiescent state, any number of producers and consumers", "why_tests_cant": "needs two concurrent producers; the tests only use one", "anchors": ["include/cocpp/event/co_chan.h: sync_chan::push"]}
{"id": "C27", "title": "range-for over a co_chan visits exactly the delivered values", "statement": "Iterating a channel with begin()/end() until it is closed and drained visits every value popped by the iterator, in order, and stops exactly at the end of the stream.", "quantifier": "every stream of values of any length", "why_tests_cant": "unbounded input length", "anchors": ["include/cocpp/event/co_chan.h: iterator"]}
{"id": "C28", "title": "pipelines compute the list function they spell", "statement": "For a pipeline of map/filter/take/skip/group/reduce stages over a finite source, whatever the scheduling of the stage coroutines, the values received at the end are always a prefix of the sequential result (map = List.map, filter = List.filter, take = firstn, skip = skipn, group = full chunks, reduce = one fold result), and equal to it once the end channel reports closed and drained.", "quantifier": "every list of stages (group sizes at least 1), every finite source, every interleaving of the stage coroutines", "why_tests_cant": "a test samples a handful of interleavings of a few coroutines; the claim is about every interleaving of any number of coroutines", "anchors": ["include/cocpp/pipeline/co_pipeline.h: all constructors"]}
{"id": "C29", "title": "pipeline::fork keeps the multiset", "statement": "With fork_count >= 1 workers the values produced by a fork stage are, when the stage has closed its output, a permutation of f applied to the values it consumed, and it consumed all of its input.", "quantifier": "every worker count >= 1, every input, every interleaving of the workers", "why_tests_cant": "a test samples a handful of interleavings of a few coroutines; the claim is about every interleaving of any number of coroutines", "anchors": ["include/cocpp/pipeline/co_pipeline.h: fork constructor"]}
{"id": "C30", "title": "pipelines never get stuck", "statement": "As long as the end of a pipeline over a finite source has not been reached, some stage coroutine or the reader can make a step, and only finitely many steps are possible.", "quantifier": "every list of stages (group sizes at least 1; group size 0 is C64), every finite source, every source channel size, every interleaving", "why_tests_cant": "absence of hangs over all schedules", "anchors": ["include/cocpp/pipeline/co_pipeline.h"]}
{"id": "C31", "title": "closing the downstream end stops the whole pipeline", "statement": "When the end of a pipeline is no longer wanted (its channel is closed, e.g. by take), every stage coroutine upstream terminates.", "quantifier": "every list of stages, infinite or bounded sources", "why_tests_cant": "an abandoned coroutine is invisible to a test that only looks at the output", "anchors": ["include/cocpp/pipeline/co_pipeline.h: filter, skip, fork, operator|(FuncType)"]}
{"id": "C32", "title": "co::wait/join return after completion, with the result", "statement": "wait() returns only after the coroutine function has finished, returns exactly the value it returned, and a waiter never misses the completion, however completion and waiting interleave.", "quantifier": "every interleaving of the finishing coroutine with any number of waiters", "why_tests_cant": "a test samples a handful of interleavings of a few coroutines; the claim is about every interleaving of any number of coroutines", "anchors": ["source/cocpp/core/co_env.cpp: wait_ctx(ctx)", "source/cocpp/core/co_ctx.cpp: real_entry"]}
{"id": "C33", "title": "an exception leaves the coroutine exactly once", "statement": "If the coroutine function throws, the exception is rethrown to the first waiter and to nobody else, also when several coroutines wait concurrently; it never gets lost when there is a waiter.", "quantifier": "every interleaving of waiters", "why_tests_cant": "the rethrow is a check-then-act on shared state; only particular interleavings break it", "anchors": ["source/cocpp/core/co_ctx.cpp: check_and_rethrow_exception"]}
{"id": "C34", "title": "co::wait_for is truthful and leaves no trace", "statement": "wait_for returns a value only if the coroutine has finished and nullopt only if it had not; whichever of completion and timeout comes first, the waiter is woken, and the priority of the waiter is restored.", "quantifier": "every interleaving of completion, timer expiry and the waiter", "why_tests_cant": "a test samples a handful of interleavings of a few coroutines; the claim is about every interleaving of any number of coroutines", "anchors": ["source/cocpp/core/co_env.cpp: wait_ctx(ctx,timeout)"]}
{"id": "C35", "title": "coroutine storage is reclaimed exactly once and never early", "statement": "A coroutine's storage is destroyed at most once, never while it is unfinished, running, or still referenced by a co handle that has not been joined/detached; moving a co transfers this ownership.", "quantifier": "every sequence of create/join/detach/move/yield", "why_tests_cant": "temporal memory-safety property over all histories", "anchors": ["source/cocpp/co/co.cpp", "source/cocpp/core/co_env.cpp: remove_detached_ctx__"]}
{"id": "C36", "title": "strict priority scheduling", "statement": "Each scheduling decision runs a runnable coroutine of numerically smallest priority among all runnable coroutines of that thread, and goes idle only if none is runnable.", "quantifier": "every history of add/wait/wake/set_priority/finish operations, any number of coroutines", "why_tests_cant": "depends on a cached minimum maintained incrementally over the whole history", "anchors": ["source/cocpp/core/co_env.cpp: choose_ctx_from_normal_list__, update_min_priority__"]}
{"id": "C37", "title": "round-robin within a priority", "statement": "Coroutines of equal priority that stay runnable are run in turn: between two runs of one of them every other one runs exactly once, so with n of them each runs within n decisions.", "quantifier": "every number of coroutines, every history", "why_tests_cant": "fairness over unbounded histories", "anchors": ["source/cocpp/core/co_env.cpp: choose_ctx_from_normal_list__"]}
{"id": "C38", "title": "a blocked coroutine runs only after everything it waits for was released", "statement": "A coroutine that waits for a set of resources is not scheduled until each of them has been released, and is schedulable again as soon as the last one is; releasing a resource it does not wait for changes nothing.", "quantifier": "every history of enter/leave wait calls over any set of resources", "why_tests_cant": "unbounded histories", "anchors": ["source/cocpp/core/co_ctx.cpp: enter_wait_resource_state, leave_wait_resource_state"]}
{"id": "C39", "title": "an idle scheduler thread never oversleeps", "statement": "A scheduler thread does not stay asleep while one of its coroutines is runnable: whenever it sleeps with a runnable coroutine, some other thread is still inside the call that made the coroutine runnable and that call will wake it.", "quantifier": "every interleaving of the sleeping thread with wakers at the granularity of the internal locks", "why_tests_cant": "a lost wake-up is a hang in one rare interleaving", "anchors": ["source/cocpp/core/co_env.cpp: sleep_if_need__, wake_up, move_ctx_to_here"]}
{"id": "C40", "title": "coroutines are neither lost nor duplicated by the scheduler", "statement": "Every coroutine added to a thread and not yet destroyed or moved away is in exactly one of its run queues exactly once, under its current priority, and the reported workload is the number of such coroutines; moves never take a bound, shared-stack, running or finished coroutine.", "quantifier": "every history of add/choose/set_priority/take/remove", "why_tests_cant": "unbounded histories", "anchors": ["source/cocpp/core/co_env.cpp: move_ctx_to_here, remove_ctx, handle_priority_changed, take_*"]}
{"id": "C41", "title": "priorities are clamped to 0..99", "statement": "The effective priority is always within 0..99 whatever value is requested; values in range are taken as they are, too large ones mean lowest priority (99).", "quantifier": "every requested priority (every size_t/int)", "why_tests_cant": "2^64 inputs", "anchors": ["source/cocpp/core/co_ctx.cpp: set_priority", "include/cocpp/core/co_ctx_config.h"]}
{"id": "C42", "title": "new coroutines go to the least loaded thread, never to an exclusive one", "statement": "An unbound coroutine is placed on an idle thread or, if none is idle, on a least-loaded schedulable thread or a fresh one; it is never placed on a thread marked exclusive.", "quantifier": "every set of threads with arbitrary states and loads", "why_tests_cant": "combinatorial state space", "anchors": ["source/cocpp/core/co_manager.cpp: get_best_env__"]}
{"id": "C43", "title": "surplus threads are reclaimed safely", "statement": "Automatic reclamation stops only idle, coroutine-less, auto-destroyable threads, never more than the surplus over the configured maximum, and creating a coroutine never fails because of it.", "quantifier": "every set of threads; every interleaving of reclamation with coroutine creation", "why_tests_cant": "a test samples a handful of interleavings of a few coroutines; the claim is about every interleaving of any number of coroutines", "anchors": ["source/cocpp/core/co_manager.cpp: destroy_redundant_env__, create_and_schedule_ctx", "source/cocpp/core/co_env.cpp: add_ctx"]}
{"id": "C44", "title": "idle threads steal work, blocked threads give it away", "statement": "When a thread is idle and another has a movable coroutine waiting, the stealing routine moves one over; coroutines of a thread stuck in a system call are redistributed.", "quantifier": "every configuration of threads", "why_tests_cant": "the tests never observe whether a move happened", "anchors": ["source/cocpp/core/co_manager.cpp: steal_ctx_routine__, redistribute_ctx__", "source/cocpp/core/co_env.cpp: try_lock, can_force_schedule"]}
{"id": "C45", "title": "a looping coroutine is preempted", "statement": "A thread whose running coroutine has not yielded during a monitor period, and that has other coroutines, is forced to switch, whatever happened on this thread before.", "quantifier": "every history of coroutine completions and waits on the thread", "why_tests_cant": "depends on a counter accumulated over the whole history", "anchors": ["source/cocpp/core/co_env.cpp: co_preempt_guard, can_force_schedule", "source/cocpp/core/co_ctx.cpp: real_entry", "source/cocpp/core/co_vos_gcc_x86_64.cpp: switch_from_outside"]}
{"id": "C46", "title": "the scheduler never touches a destroyed coroutine", "statement": "No scheduling step reads or writes a coroutine object that has been destroyed.", "quantifier": "every history of yields, completions and detaches, normal and shared-stack coroutines", "why_tests_cant": "use-after-free shows only for particular histories and allocator behaviour", "anchors": ["source/cocpp/core/co_env.cpp: schedule_switch, switch_shared_stack_ctx__, remove_detached_ctx__"]}
{"id": "C47", "title": "timers and sleeps are never early", "statement": "A timer callback starts only at or after the timer's expiry time, and sleep_for/sleep_until never return before the requested time.", "quantifier": "every history of timer operations and clock readings", "why_tests_cant": "a test samples a handful of interleavings of a few coroutines; the claim is about every interleaving of any number of coroutines", "anchors": ["source/cocpp/core/co_manager.cpp: timer_routine__", "include/cocpp/co/co_co.h: sleep_until"]}
{"id": "C48", "title": "every started timer fires", "statement": "A timer that has been started and not stopped fires once the clock passes its expiry time and the timer thread runs; in particular every sleeping coroutine is woken.", "quantifier": "every set of concurrently running timers, including equal expiry times", "why_tests_cant": "needs two timers with the same expiry time", "anchors": ["source/cocpp/core/co_timer.cpp: operator<", "source/cocpp/core/co_manager.cpp: insert_timer_to_queue__, timer_routine__"]}
{"id": "C49", "title": "stop() cancels a timer", "statement": "After stop() has returned the callback is not started any more and no other timer is affected.", "quantifier": "every interleaving of stop with expiry", "why_tests_cant": "race between expiry and stop", "anchors": ["source/cocpp/core/co_timer.cpp: stop, run", "source/cocpp/core/co_manager.cpp: timer_routine__"]}
{"id": "C50", "title": "timer and event operations never deadlock", "statement": "start/stop of a timer, its expiry handling, and coroutine completion always terminate, however they interleave.", "quantifier": "every interleaving of the lock acquisitions of two threads", "why_tests_cant": "lock-order inversions hang only in particular interleavings", "anchors": ["source/cocpp/core/co_timer.cpp", "source/cocpp/core/co_manager.cpp: timer_routine__", "include/cocpp/event/co_event.h: pub, unsub", "source/cocpp/core/co_env.cpp: wait_ctx(ctx,timeout)"]}
{"id": "C51", "title": "the timer thread never reads an empty queue", "statement": "The timer thread only inspects the first queued timer when there is one.", "quantifier": "every interleaving of start/stop with the timer thread", "why_tests_cant": "needs start and stop both before the timer thread wakes up", "anchors": ["source/cocpp/core/co_manager.cpp: timer_routine__"]}
{"id": "C52", "title": "a context switch preserves the whole register file", "statement": "When a coroutine is switched out by switch_to and later switched in again, all 16 general purpose registers, the flags and the stack pointer have the values they had at the call, execution continues right after the call, and the coroutine's stack is unmodified.", "quantifier": "every register contents, every number and order of switches in between", "why_tests_cant": "2^64 values per register and unbounded switch sequences", "anchors": ["source/cocpp/core/co_vos_gcc_x86_64.cpp: switch_to"]}
{"id": "C53", "title": "shared-stack coroutines keep their stack contents", "statement": "However coroutines sharing one stack area alternate, whenever one of them is resumed the live part of its stack has exactly the bytes it had when it was suspended, and no byte outside the stack areas is written.", "quantifier": "every number of coroutines, every depth up to the stack size, every switch sequence, every byte content", "why_tests_cant": "unbounded switch sequences and contents", "anchors": ["source/cocpp/core/co_env.cpp: save_shared_stack__, restore_shared_stack__, switch_shared_stack_ctx__"]}
{"id": "C54", "title": "stack shrinking discards only dead memory", "statement": "Giving stack pages back to the system never discards a byte at or above the stack pointer nor any byte outside the coroutine's own stack area.", "quantifier": "every stack address, size and stack pointer", "why_tests_cant": "2^64 addresses", "anchors": ["source/cocpp/core/co_vos_gcc_x86_64.cpp: shrink_mem_to_top", "source/cocpp/core/co_ctx.cpp: shrink_stack"]}
{"id": "C55", "title": "a new coroutine starts on a well-formed stack", "statement": "A new coroutine enters its function with the right argument, inside its own stack area, with the stack alignment required by the x86-64 ABI, for every configured stack size.", "quantifier": "every stack size and base address", "why_tests_cant": "all sizes", "anchors": ["source/cocpp/core/co_vos_gcc_x86_64.cpp: init_ctx"]}
{"id": "C56", "title": "co_event is a faithful publish/subscribe list", "statement": "pub calls exactly the callbacks subscribed and not unsubscribed, each once, in subscription order; handles of live subscriptions are distinct; unsub removes only its own subscription.", "quantifier": "every history of sub/unsub/pub of any length", "why_tests_cant": "unbounded histories, integer wrap of the handle", "anchors": ["include/cocpp/event/co_event.h"]}
{"id": "C57", "title": "co_any / co_return_value are type-safe", "statement": "get<T> returns the stored value iff the stored type is exactly T, otherwise throws bad_cast; assignment replaces type and value; converting the result of wait() to the type the coroutine returned always yields its value.", "quantifier": "every sequence of assignments and reads at arbitrary types", "why_tests_cant": "all types and histories", "anchors": ["include/cocpp/utils/co_any.h", "include/cocpp/core/co_return_value.h"]}
{"id": "C58", "title": "CoLocal storage is private per coroutine and name", "statement": "A CoLocal variable read gives the last value written by the same coroutine under the same name, or the default value; writes by other coroutines or to other names have no effect; re-using a name at another type is detected.", "quantifier": "every history of accesses by any number of coroutines", "why_tests_cant": "unbounded histories", "anchors": ["include/cocpp/core/co_ctx.h: local_storage"]}
{"id": "C59", "title": "finished is final", "statement": "A coroutine that has finished never becomes suspended or running again and is never scheduled again; a thread being destroyed never becomes available again.", "quantifier": "every history of state changes", "why_tests_cant": "unbounded histories", "anchors": ["include/cocpp/utils/co_state_manager.h", "source/cocpp/core/co_env.cpp: update_ctx_state__"]}
{"id": "C60", "title": "write_n/read_n transfer exactly the buffer", "statement": "write_n hands the operating system exactly the buffer's bytes, in order, each once, however the OS splits the writes, or reports an error; read_n fills the buffer with exactly the next bytes of the stream, or reports an error, and it always terminates, also at end of stream.", "quantifier": "every buffer, every split chosen by the OS including would-block, errors and end of file", "why_tests_cant": "unbounded sequences of OS answers", "anchors": ["source/cocpp/io/co_client.cpp: read_n, write_n", "source/cocpp/io/co_io.cpp: read, write"]}
{"id": "C61", "title": "I/O results are reported truthfully", "statement": "read/write/send/recv/accept retry transparently while the OS would block and otherwise return exactly the OS result; connect returns 0 exactly if the connection was established.", "quantifier": "every sequence of OS answers", "why_tests_cant": "OS-dependent answers", "anchors": ["source/cocpp/io/co_io.cpp", "source/cocpp/io/co_net.cpp: connect, accept, send, recv"]}
{"id": "C62", "title": "a timed wait never blocks its whole thread", "statement": "A coroutine re-acquiring its lock at the end of wait_for/wait_until leaves the scheduler of its thread in a state in which other threads can wake it.", "quantifier": "every path through wait_until and lock re-acquisition", "why_tests_cant": "needs a contended lock held by a coroutine of another thread at the end of a timed wait", "anchors": ["include/cocpp/sync/co_condition_variable.h: wait_until", "source/cocpp/sync/co_mutex.cpp: lock", "source/cocpp/core/co_env.cpp: schedule_switch, prepare_to_switch, sleep_if_need__, wake_up"]}
{"id": "C63", "title": "a timed wait that has returned leaves no trace", "statement": "After wait_for/wait_until has returned, its timer has no further effect: it wakes nobody and changes no later result.", "quantifier": "every interleaving of a timer callback with the end of the wait and later calls", "why_tests_cant": "the callback must be handed to a coroutine but not yet started when the wait ends", "anchors": ["include/cocpp/sync/co_condition_variable.h: wait_until", "source/cocpp/core/co_manager.cpp: timer_routine__"]}
{"id": "C64", "title": "every pipeline over a finite source terminates", "statement": "A pipeline over a finite source makes only finitely many steps whatever the parameters of its stages, in particular also when a group stage is given the size 0.", "quantifier": "every list of stages and parameters, every finite source, every interleaving", "why_tests_cant": "termination over all schedules and parameters", "anchors": ["include/cocpp/pipeline/co_pipeline.h: group constructor"]}
{"id": "C65", "title": "copies of co_any are independent", "statement": "Writing through the reference returned by get() of one co_any never changes what another co_any copied from or to it holds.", "quantifier": "every sequence of assignments, copies, writes and reads over any number of variables", "why_tests_cant": "quantifies over all sequences of operations and aliasing patterns", "anchors": ["include/cocpp/utils/co_any.h: co_any, get"]}
{"id": "C66", "title": "changing the priority is always safe", "statement": "set_priority on a coroutine that has not been destroyed never causes undefined behaviour, in particular not while the coroutine is being added to a thread or moved to another one.", "quantifier": "every interleaving of set_priority with additions, moves and scheduling decisions", "why_tests_cant": "needs a change of priority in the few instructions during which a coroutine is in no queue", "anchors": ["source/cocpp/core/co_env.cpp: handle_priority_changed, move_ctx_to_here, take_one_movable_ctx"]}
{"id": "C67", "title": "giving up a handle never terminates the program", "statement": "Destroying a co handle, or assigning another handle over it, never calls std::terminate, whatever the coroutine did: in particular an exception thrown by the coroutine does not leave the noexcept destructor or the noexcept move assignment.", "quantifier": "every sequence of operations on handles and every outcome of the coroutines", "why_tests_cant": "depends on the combination of an exception, nobody having waited, and the way the handle is given up", "anchors": ["source/cocpp/co/co.cpp 31-34, 41-62, 70-79"]}
{"id": "C68", "title": "waiting through an empty handle is safe", "statement": "wait(), wait_for() and wait_until() on a handle that has no coroutine (detached, joined or moved from) return or fail in a defined way; no null pointer is dereferenced.", "quantifier": "every sequence of operations on handles", "why_tests_cant": "needs every way for a handle to become empty combined with every kind of wait", "anchors": ["include/cocpp/co/co_co.h 140-167", "source/cocpp/core/co_env.cpp 99-187"]}
{"id": "C69", "title": "fcntl and ioctl pass their argument on", "statement": "co_io::fcntl(cmd, arg) and co_io::ioctl(cmd, arg) have the effect of the system call with the same command and argument on the descriptor.", "quantifier": "every command that takes an argument, every argument", "why_tests_cant": "the value actually passed is a stack address: whether the command fails, does nothing or sets arbitrary flags depends on the address", "anchors": ["source/cocpp/io/co_io.cpp: fcntl, ioctl"]}
{"id": "C70", "title": "preemption is transparent", "statement": "A coroutine that is interrupted between two instructions by the switch signal and resumed later continues with everything compiled code relies on: its general purpose registers, flags, next instruction, stack, vector registers and the 128 bytes below its stack pointer that the ABI reserves for leaf functions.", "quantifier": "every point of interruption, every register and memory contents, every sequence of switches before the coroutine is resumed, by either way of resuming", "why_tests_cant": "the damage appears only if the signal hits code that has live values in vector registers or in the red zone", "anchors": ["source/cocpp/core/co_vos_gcc_x86_64.cpp: switch_to, switch_from_outside, save_context_to_ctx, restore_context_from_ctx", "source/cocpp/exception/co_exception.cpp: signal_handler"]}
{"id": "C71", "title": "stack copies are given back", "statement": "The memory obtained to keep the stack contents of shared-stack coroutines is given back: when all of them have ended and been destroyed, none is held.", "quantifier": "every number of shared-stack coroutines and every order of switches", "why_tests_cant": "a leak of one mapping per finished coroutine fails no assertion", "anchors": ["source/cocpp/core/co_env.cpp: save_shared_stack__, restore_shared_stack__", "source/cocpp/core/co_ctx_factory.cpp: destroy_ctx"]}
{"id": "C72", "title": "a forced switch loses no coroutine", "statement": "Whenever the preemption signal arrives, the registers saved for each coroutine are its own, so that every coroutine that has not finished can still go on where it was left.", "quantifier": "every moment at which the signal can be handled, every history of the thread", "why_tests_cant": "the window is a few instructions wide and needs a signal sent in the monitor period before", "anchors": ["source/cocpp/core/co_env.cpp: switch_normal_ctx__, prepare_to_switch, current_ctx", "source/cocpp/core/co_vos_gcc_x86_64.cpp: switch_from_outside"]}
{"id": "C73", "title": "timed acquisition of a mutex", "statement": "try_lock_for and try_lock_until of co_timed_mutex and co_recursive_timed_mutex make at least one attempt, repeat failed attempts as long as the clock is before the deadline, return true exactly if their last attempt obtained the mutex, return false only at or after the deadline, never park the caller or put it in line, and once the deadline has passed return within a fixed number of steps of the caller. The mutex keeps all guarantees of the untimed one.", "quantifier": "every number of coroutines, every mix of timed and untimed calls, every deadline (also one in the past), every behaviour of the clock, every interleaving", "why_tests_cant": "the answer depends on the race between the release, the reading of the clock and the attempt", "anchors": ["include/cocpp/sync/co_timed_addition.h: try_lock_for, try_lock_until", "include/cocpp/sync/co_timed_mutex.h", "include/cocpp/sync/co_recursive_timed_mutex.h"]}
{"id": "C74", "title": "timed acquisition of a shared mutex", "statement": "try_lock_for/until and try_lock_shared_for/until of co_shared_timed_mutex behave as stated in C73 for the mode they ask for.", "quantifier": "every number of coroutines, every mix of modes and of timed and untimed calls, every deadline, every interleaving", "why_tests_cant": "as for C73, and the failing case needs a stale entry left by an earlier release", "anchors": ["include/cocpp/sync/co_shared_timed_mutex.h: try_lock_shared_for, try_lock_shared_until", "include/cocpp/sync/co_timed_addition.h", "source/cocpp/sync/co_shared_mutex.cpp: wake_up_waiters__"]}
{"id": "C75", "title": "the manager's destructor returns", "statement": "Once the destruction of co_manager has begun, its cleaner, monitor and timer threads end and ~co_manager returns.", "quantifier": "every number of environments, every position of the three background threads when destruction begins, every interleaving", "why_tests_cant": "the failing case is a window of a few instructions of the timer thread at the moment the process exits", "anchors": ["source/cocpp/core/co_manager.cpp: set_clean_up__, timer_routine__, clean_env_routine__, monitor_routine__, wait_background_task__"]}
{"id": "C76", "title": "environments are destroyed once, after use", "statement": "Every environment is taken out of service at most once and destroyed at most once, only after it was taken out of service, and one that has its own thread only after that thread is through with it.", "quantifier": "every number of environments of every kind, created and reclaimed at any time, during and after shutdown", "why_tests_cant": "a second deletion or a deletion before the end of the thread shows only in some interleavings of reclaiming, shutdown and the end of the scheduling loop", "anchors": ["source/cocpp/core/co_manager.cpp: remove_env__, set_clean_up__, clean_env_routine__", "source/cocpp/core/co_env_factory.cpp: destroy_env", "source/cocpp/core/co_env.cpp: start_schedule_routine__"]}
{"id": "C77", "title": "no environment is used after it was destroyed", "statement": "No thread uses an environment that has been destroyed.", "quantifier": "every number of environments, every interleaving of clients, environments and background threads", "why_tests_cant": "the use of freed memory happens at process exit and usually has no visible effect", "anchors": ["source/cocpp/core/co_env_factory.cpp: destroy_env", "source/cocpp/core/co_ctx_factory.cpp: destroy_ctx", "include/cocpp/core/co_define.h: CoPreemptGuard", "source/cocpp/core/co_manager.cpp: current_env, clean_env_routine__"]}
{"id": "C78", "title": "nothing is left when the manager's destructor returns", "statement": "When ~co_manager returns, every environment has been destroyed and no thread of an environment uses the manager afterwards.", "quantifier": "every number of environments, every moment at which destruction begins, every interleaving", "why_tests_cant": "tests end with the process: threads that outlive the manager are killed before they do harm, or crash only sometimes", "anchors": ["source/cocpp/core/co_manager.cpp: set_clean_up__, clean_env_routine__, ~co_manager", "source/cocpp/core/co_env.cpp: stop_schedule, start_schedule_routine__"]}
{"id": "C79", "title": "the internal locks do not deadlock", "statement": "No threads wait for each other in a circle for the scheduler's internal locks (environment set, timer queue, timers, events, schedule locks, queues, finish, wait and priority locks).", "quantifier": "every interleaving of every number of threads, coroutines, timers and preemption signals, every sequence of calls", "why_tests_cant": "a deadlock needs two threads inside windows of a few instructions; preemption multiplies the windows", "anchors": ["include/cocpp/co/co_co.h: sleep_until", "source/cocpp/core/co_manager.cpp: timer_routine__, get_best_env__, force_schedule__", "include/cocpp/sync/co_condition_variable.h: wait_until", "source/cocpp/core/co_env.cpp: handle_priority_changed, wait_ctx, move_ctx_to_here, wake_up"]}
{"id": "C80", "title": "internal critical sections are exclusive", "statement": "At most one activity (coroutine, thread or signal handler) is inside each critical section of the scheduler's internal locks.", "quantifier": "every interleaving, every moment of preemption", "why_tests_cant": "the recursive locks belong to threads: a second coroutine enters without any error, and the broken queue shows up elsewhere", "anchors": ["source/cocpp/core/co_vos_gcc_x86_64.cpp: switch_from_outside", "source/cocpp/core/co_env.cpp: can_force_schedule, handle_priority_changed, schedule_switch", "source/cocpp/core/co_ctx.cpp: set_priority"]}
{"id": "C81", "title": "client code cannot keep the monitor from its work", "statement": "A coroutine that computes without calling the library does not keep the monitor thread, which preempts such coroutines, waiting for a lock.", "quantifier": "every interleaving, every continuation in which that coroutine makes no call", "why_tests_cant": "one preemption at the wrong moment ends all further preemption, silently", "anchors": ["source/cocpp/core/co_manager.cpp: monitor_routine__, force_schedule__, get_best_env__", "source/cocpp/core/co_vos_gcc_x86_64.cpp: switch_from_outside"]}
{"id": "C82", "title": "I/O goes to the object's own file", "statement": "Whatever is done through a co_file or co_net object is done to the open file it was made for; never to one opened later under the same descriptor.", "quantifier": "every sequence of open, socket, accept, copy, destruction, close and I/O, every answer of the kernel, every use of descriptors by the rest of the program", "why_tests_cant": "the wrong file is hit only when the kernel gives the same number to the next file, or when an error of close or fcntl happens", "anchors": ["source/cocpp/io/co_io.cpp: close, init_fd, read, write", "source/cocpp/io/co_server.cpp: get_endpoint", "source/cocpp/io/co_client.cpp: get_endpoint"]}
{"id": "C83", "title": "no descriptor is lost", "statement": "Every descriptor that open, socket or accept obtained from the kernel is closed or can be closed through an object of the client.", "quantifier": "every sequence of operations, every answer of the kernel", "why_tests_cant": "the wrong file is hit only when the kernel gives the same number to the next file, or when an error of close or fcntl happens", "anchors": ["source/cocpp/io/co_file.cpp: open", "source/cocpp/io/co_net.cpp: socket, accept", "source/cocpp/io/co_io.cpp: init_fd", "include/cocpp/io/co_io.h: destructor"]}
{"id": "C84", "title": "I/O never blocks the thread", "statement": "System calls are made on descriptors in non-blocking mode, and connect sleeps no longer than its time-out in total.", "quantifier": "every sequence of operations, every answer of the kernel", "why_tests_cant": "a blocking call is only slow; whether it blocks depends on the peer", "anchors": ["source/cocpp/io/co_io.cpp: init_fd, fcntl, ioctl", "source/cocpp/io/co_net.cpp: accept, connect"]}
{"id": "C85", "title": "failed creation leaves nothing behind", "statement": "When the creation of a coroutine or environment throws, everything it had acquired is given back: nothing is held afterwards that was not held before, and all else is as before.", "quantifier": "every sequence of creations, removals, stops and destructions, every allocation failing or succeeding", "why_tests_cant": "no test makes an allocation or a thread start fail at a chosen moment, and the loss shows only in the memory still mapped much later", "anchors": ["source/cocpp/core/co_stack_factory.cpp: create_stack", "source/cocpp/core/co_ctx_factory.cpp: create_ctx", "source/cocpp/core/co_env_factory.cpp: create_env", "source/cocpp/core/co_manager.cpp: create_and_schedule_ctx, create_env", "source/cocpp/core/co_env.cpp: add_ctx"]}
{"id": "C86", "title": "everything is given back exactly once", "statement": "Mappings, stacks, coroutines and environments are each given back exactly once: never twice, never while an environment still has them, and all of them when the last environment is destroyed.", "quantifier": "every sequence of creations, removals, stops and destructions, every allocation failing or succeeding", "why_tests_cant": "no test makes an allocation or a thread start fail at a chosen moment, and the loss shows only in the memory still mapped much later", "anchors": ["source/cocpp/core/co_stack_factory.cpp: destroy_stack", "source/cocpp/core/co_ctx_factory.cpp: destroy_ctx", "source/cocpp/core/co_env_factory.cpp: destroy_env", "source/cocpp/core/co_env.cpp: remove_all_ctx__"]}
{"id": "C87", "title": "a failed creation does not end the timers", "statement": "If the creation of the coroutine for a timer's callback fails, other timers, and timers started later, still fire.", "quantifier": "every kind of timers, all interleavings of calls, callbacks, the timer thread, the clock and failures", "why_tests_cant": "needs a creation that throws exactly when the timer thread launches a callback", "anchors": ["source/cocpp/core/co_manager.cpp: timer_routine__, create_background_task__, create_and_schedule_ctx"]}
{"id": "C88", "title": "a sleep ends", "statement": "A coroutine that sleeps until a moment or for some time is woken up when that time has come, also if other coroutines sleep.", "quantifier": "every set of sleeping coroutines and times, every interleaving of the calls, the timer thread, the callbacks and the clock", "why_tests_cant": "the tests sleep in few coroutines and for different times; whether two sleeps end at the same clock reading is chance", "anchors": ["include/cocpp/co/co_co.h: this_co::sleep_until, sleep_for", "source/cocpp/core/co_manager.cpp: insert_timer_to_queue__, timer_routine__", "source/cocpp/core/co_timer.cpp: operator<"]}
{"id": "C89", "title": "a fatal signal is reported in full and ends the program with its code", "statement": "When a fatal signal is delivered, the handler prints all its sections once, in order, and ends the program with the code of that signal; exit is called at most once, whatever further signals come.", "quantifier": "every sequence of signals on any threads, every interleaving of the handlers, the manager's threads, the environments and the client", "why_tests_cant": "no test delivers a fatal signal, let alone two at nearly the same time", "anchors": ["source/cocpp/exception/co_exception.cpp: handle_exception, signal_handler, set_up", "source/cocpp/core/co_manager.cpp: signal list in the constructor"]}
{"id": "C90", "title": "after a fatal signal the program ends", "statement": "After a fatal signal the program ends: exit runs the destructor of the manager and its wait for the background threads is over at some time.", "quantifier": "every thread the signal can reach, every state of the manager and of the environments", "why_tests_cant": "whether the destructor waits for the thread it runs on depends on which thread crashed", "anchors": ["source/cocpp/exception/co_exception.cpp: handle_exception", "source/cocpp/core/co_manager.cpp: ~co_manager, wait_background_task__"]}
{"id": "C91", "title": "the report of a fatal signal does not deadlock", "statement": "The report of a fatal signal and the destructor run by exit take the library's internal locks; no thread waits for ever because of it.", "quantifier": "every state of the internal locks in which the signal arrives, every environment, coroutine and timer", "why_tests_cant": "a signal would have to arrive inside a critical section of a few instructions while the monitor waits for it", "anchors": ["source/cocpp/exception/co_exception.cpp: handle_exception", "source/cocpp/core/co_manager.cpp: manager_info, set_clean_up__", "source/cocpp/core/co_env.cpp: env_info"]}
{"id": "C92", "title": "nobody starves at a co_mutex", "statement": "If the scheduler is fair, the clock advances and every holder unlocks at some time, then every call of lock, try_lock and unlock of a co_mutex returns.", "quantifier": "every infinite execution with any number of coroutines, every fair schedule", "why_tests_cant": "the claim is about infinite executions; a finite test cannot tell slow from never", "anchors": ["source/cocpp/sync/co_mutex.cpp: lock, try_lock, unlock", "source/cocpp/sync/co_spinlock.cpp: lock", "source/cocpp/utils/co_utils.cpp: lock_without_interrupt"]}
{"id": "C93", "title": "a co_mutex orders what its holders do", "statement": "In the sense of the C++ memory model, whatever one holder of a co_mutex does before it unlocks happens before whatever a later holder does after it locked: there is no data race on data used only by holders, nor on owner__ and wait_deque__ themselves.", "quantifier": "every execution with any number of coroutines on any threads, every interleaving, all parked, handed over, timed and failed acquisitions", "why_tests_cant": "on x86 a missing happens-before edge rarely shows; absence of races is about all executions and about the order, not about values", "anchors": ["source/cocpp/sync/co_mutex.cpp: lock, try_lock, unlock", "source/cocpp/sync/co_spinlock.cpp: lock, unlock (memory orders)"]}
{"id": "C94", "title": "the library's own data is free of data races", "statement": "In the sense of the C++ memory model, no execution of the scheduler, the manager, the timers and their threads contains a data race on the library's own (non-atomic) data: any two conflicting accesses are ordered by happens-before.", "quantifier": "every execution: any number of threads, environments, coroutines and timers, any calls in any order, every interleaving of single memory accesses", "why_tests_cant": "a race detector sees only the executions that happened; the rule that protects each object must hold in all of them", "anchors": ["source/cocpp/core/co_manager.cpp: all functions", "source/cocpp/core/co_env.cpp: all functions", "source/cocpp/core/co_ctx.cpp", "source/cocpp/core/co_timer.cpp", "include/cocpp/event/co_event.h", "include/cocpp/utils/co_state_manager.h, co_flag_manager.h"]}
{"id": "C95", "title": "latch, wait group, semaphore and barrier pass on what was done before them", "statement": "In the sense of the C++ memory model: everything a coroutine did before counting a latch down (before done() of a wait group, before releasing a unit of a semaphore, before arriving at a barrier) happens before everything another coroutine does after it got through (after a successful wait of the latch or of the wait group, after the acquisition that the unit allows, after a wait for that phase or a later one). The objects' own fields (owner__ and wait_deque__ of the mutex, waiters__ of the condition variables, counters) are free of data races.", "quantifier": "every execution of single memory accesses, any number of coroutines and calls, every interleaving, every initial number", "why_tests_cant": "missing happens-before edges show only as rare stale reads on some machines; the pairing of the n-th release with the m-th acquisition ranges over all histories", "anchors": ["source/cocpp/sync/co_latch.cpp", "source/cocpp/sync/co_wait_group.cpp", "include/cocpp/sync/co_counting_semaphore.h", "source/cocpp/sync/co_barrier.cpp", "source/cocpp/sync/co_mutex.cpp", "include/cocpp/sync/co_condition_variable.h"]}
{"id": "C96", "title": "a channel passes on what was done before push, pop and close", "statement": "The rules of the Go memory model for channels, in the sense of the C++ memory model: what was done before the push of the k-th value happens before what follows the pop that takes the k-th value (and it is the same value); with capacity n, what was done before the k-th pop happens before what follows the (k+n)-th push; without a buffer, what was done before the pop happens before what follows the return of the push of this value, unless the channel was closed; what was done before the close happens before what follows an operation that finds the channel closed.", "quantifier": "every execution of single memory accesses, any number of producers and consumers, every interleaving, every capacity", "why_tests_cant": "as for C95; the rule for capacity n pairs operations that are arbitrarily far apart", "anchors": ["include/cocpp/event/co_chan.h", "source/cocpp/sync/co_mutex.cpp", "include/cocpp/sync/co_condition_variable.h"]}
{"id": "C97", "title": "what the callable of co_call_once did is visible to everyone who returns from co_call_once", "statement": "In the sense of the C++ memory model (and as std::call_once promises): everything the callable did happens before everything another coroutine does after its own co_call_once on the same flag returned.", "quantifier": "every execution of single memory accesses, any number of callers, every interleaving", "why_tests_cant": "a late caller sees the result of the callable in almost every run; the missing happens-before edge shows only on some machines and only rarely", "anchors": ["include/cocpp/sync/co_call_once.h"]}
{"id": "C98", "title": "co_recursive_mutex orders its holders in the C++ memory model", "statement": "Data that is used only while holding a co_recursive_mutex (between a successful lock or try_lock, nested or not, and the matching unlock) is free of data races: of two conflicting uses by different coroutines the earlier happens before the later, also across a hand-off to a parked coroutine. The members owner__, lock_count__ and wait_deque__ are free of data races, whoever calls what.", "quantifier": "every execution of single memory accesses, any number of coroutines and calls, every interleaving, nesting below 2^64", "why_tests_cant": "a missing happens-before edge, e.g. on the path of the hand-off, shows only as a rare stale read on some machines", "anchors": ["source/cocpp/sync/co_recursive_mutex.cpp", "source/cocpp/sync/co_spinlock.cpp"]}
{"id": "C99", "title": "co_shared_mutex orders its holders in the C++ memory model", "statement": "Data that is written only while holding a co_shared_mutex exclusively and read only while holding it in either mode is free of data races. The members owners__, lock_type__ and wait_deque__ are free of data races, whoever calls what.", "quantifier": "every execution of single memory accesses, any number of coroutines and calls, every interleaving, no coroutine asks for a mutex it holds", "why_tests_cant": "as for C98; the situation in which it fails needs a reader, a writer and a reader parked in this order", "anchors": ["source/cocpp/sync/co_shared_mutex.cpp", "source/cocpp/sync/co_spinlock.cpp"]}
{"id": "C100", "title": "co_condition_variable is free of data races", "statement": "Of two conflicting accesses of different threads to a member of a co_condition_variable (waiters__, timeout__), made by waits, timed waits, notifications and the callbacks of the waits' timers, the earlier happens before the later; so do the accesses to the data protected by the user's lock, including those made by predicates.", "quantifier": "every execution of single memory accesses, any number of coroutines, calls, timers and callbacks, every interleaving, clients that hold the user's lock when they must", "why_tests_cant": "the race needs a callback that runs while another or the same timed wait returns, and a race detector that follows coroutines across threads; the effect is a stale or torn flag", "anchors": ["include/cocpp/sync/co_condition_variable.h", "source/cocpp/sync/co_condition_variable.cpp", "source/cocpp/core/co_timer.cpp"]}
{"id": "C101", "title": "waiting coroutines do not switch off preemption", "statement": "While no coroutine of a thread has ended and no other thread is inside a call on its environment, a coroutine that runs client code can be preempted by the switch signal, whatever calls of the library the other coroutines of the thread, or the coroutine itself, are in.", "quantifier": "every execution of a thread, any number of coroutines, every sequence of calls of any function of the library, every moment", "why_tests_cant": "the counter is only visible as the absence of a switch in a coroutine that computes for long while others wait", "anchors": ["source/cocpp/core/co_env.cpp: count, can_force_schedule, schedule_switch, switch_shared_stack_ctx__", "include/cocpp/sync/co_condition_variable.h", "include/cocpp/sync/co_call_once.h", "source/cocpp/sync/co_mutex.cpp", "source/cocpp/core/co_vos_gcc_x86_64.cpp: switch_from_outside"]}
{"id": "C102", "title": "a pipeline reads the object it was made from only while it exists", "statement": "The coroutine that feeds a pipeline reads the caller's list, array or container only before that object ends, if the object lives at least until the constructor has returned; and in any case if it lives until the reader has seen the end of the results.", "quantifier": "every way to make a pipeline, every list of stages, every schedule, every moment at which the object ends", "why_tests_cant": "dead stack memory mostly still holds the old items, and whether the feeding coroutine runs before or after the end of the expression depends on the scheduler", "anchors": ["include/cocpp/pipeline/co_pipeline.h: constructors 124-248, operator| 110-120", "include/cocpp/event/co_chan.h: push"]}
{"id": "C103", "title": "the size given to a pipeline limits the items under way in it", "statement": "A pipeline made with a channel size n, by a constructor or by stream(n), never has more than n items (one, for size 0) waiting in its channels.", "quantifier": "every size, every source, every list of stages, every schedule", "why_tests_cant": "an unlimited channel shows only as memory use under a slow reader", "anchors": ["include/cocpp/pipeline/co_pipeline.h: 62-120, 250-459", "include/cocpp/pipeline/co_pipeline_op.h: stream", "include/cocpp/event/co_chan.h: co_chan"]}
{"id": "C104", "title": "the stack dump of a crash report shows the whole live stack and reads only the stack's memory", "statement": "For a coroutine whose saved stack pointer lies in its stack, the dump shows every byte from the stack pointer up to the top of the stack with its value at its address, no address twice, and reads no memory outside the stack's pages.", "quantifier": "every memory content, every stack address and size, every aligned stack pointer", "why_tests_cant": "no test crashes; reading a few bytes too far shows only when the next page is not mapped", "anchors": ["source/cocpp/exception/co_exception.cpp: dump_memory", "source/cocpp/core/co_ctx.cpp: ctx_info", "source/cocpp/core/co_stack.cpp", "source/cocpp/core/co_stack_factory.cpp: create_stack"]}
{"id": "C105", "title": "the crash report names the program", "statement": "The line exe: of a crash report holds the path of the program's file.", "quantifier": "every path, every result of realpath", "why_tests_cant": "no test crashes or reads the report", "anchors": ["source/cocpp/exception/co_exception.cpp: exe_path, maps_info"]}
{"id": "C106", "title": "in a fair execution everybody gets through a gate that has opened", "statement": "In every infinite execution in which no coroutine that can run is passed over for ever: done() of a co_wait_group, count_down() and try_wait() of a co_latch, arrive() and arrive_and_drop() of a co_barrier return; wait() of a wait group or latch returns if the count is reached at some moment, and a barrier wait returns if its phase is completed at some moment, whatever other coroutines go on doing with the object.", "quantifier": "every weakly fair infinite execution, any number of coroutines, every count", "why_tests_cant": "a statement about what happens in the end, in infinitely long executions", "anchors": ["source/cocpp/sync/co_wait_group.cpp", "source/cocpp/sync/co_latch.cpp", "source/cocpp/sync/co_barrier.cpp", "source/cocpp/sync/co_condition_variable.cpp"]}
{"id": "C107", "title": "nobody starves at a co_counting_semaphore", "statement": "In every fair infinite execution in which permits become available again and again, every acquire() returns.", "quantifier": "every strongly fair infinite execution, any number of coroutines", "why_tests_cant": "a statement about infinitely long executions and an adverse schedule", "anchors": ["include/cocpp/sync/co_counting_semaphore.h: acquire, release", "source/cocpp/sync/co_condition_variable.cpp: notify_one"]}
{"id": "C108", "title": "closing a channel releases everybody in the end", "statement": "In every fair infinite execution, once a co_chan is closed at some moment every push() and pop() on it returns, whether called before or after; close(), closed(), empty() always return, and push() on an unlimited channel always returns.", "quantifier": "every weakly fair infinite execution, every channel kind, any number of coroutines", "why_tests_cant": "a statement about what happens in the end, in infinitely long executions", "anchors": ["include/cocpp/event/co_chan.h"]}
{"id": "C109", "title": "nobody starves at a co_chan", "statement": "In every fair infinite execution in which there are values in the channel again and again, every pop() returns.", "quantifier": "every strongly fair infinite execution, any number of coroutines", "why_tests_cant": "a statement about infinitely long executions and an adverse schedule", "anchors": ["include/cocpp/event/co_chan.h: pop, push", "source/cocpp/sync/co_condition_variable.cpp: notify_one"]}
{"id": "C110", "title": "no timed call gives up before its time", "statement": "try_lock_for, try_lock_shared_for, try_acquire_for, co_timed_call, sleep_for, co::wait_for, co::wait_until and relative timers, given any duration and called at any time, give up (fire) only when that duration has passed since the call.", "quantifier": "every duration that can be passed, every reading of the clock, every sequence of failed attempts", "why_tests_cant": "tests wait for a few round durations; the claim is about all of them, including those meant as for ever", "anchors": ["include/cocpp/co/co_co.h: wait_for, wait_until, sleep_for", "include/cocpp/sync/co_timed_addition.h", "include/cocpp/sync/co_shared_timed_mutex.h", "include/cocpp/sync/co_counting_semaphore.h: try_acquire_for", "source/cocpp/core/co_env.cpp: wait_ctx(ctx,timeout)", "source/cocpp/core/co_timer.cpp: update_timeout_time__", "source/cocpp/utils/co_utils.cpp: co_timed_call"]}
{"id": "C111", "title": "the manager's settings mean what they say", "statement": "After set_base_schedule_thread_count(n) or set_max_schedule_thread_count(n) the number is n, or one if n is zero; no thread is made when the maximum number of threads is in use; after set_timer_tick_duration(d) the tick is d, or ten milliseconds if d is shorter.", "quantifier": "every value of the parameters' types, every history of creations", "why_tests_cant": "tests use a few small numbers", "anchors": ["source/cocpp/core/co_manager.cpp: set_base_schedule_thread_count, set_max_schedule_thread_count, set_timer_tick_duration, get_best_env__, destroy_redundant_env__"]}
{"id": "C112", "title": "nobody starves at a co_recursive_mutex", "statement": "Under a fair scheduler, if the clock advances and whoever holds the mutex unlocks it as often as it locked it, every call of lock, try_lock and unlock on a co_recursive_mutex returns.", "quantifier": "every infinite fair execution, any number of coroutines, any nesting below 2^64", "why_tests_cant": "starvation shows only in infinite executions under particular schedules; a test sees a finite prefix of one", "anchors": ["source/cocpp/sync/co_recursive_mutex.cpp: lock, try_lock, unlock", "source/cocpp/sync/co_spinlock.cpp: lock, unlock", "source/cocpp/utils/co_utils.cpp: co_timed_call"]}
{"id": "C113", "title": "nobody starves at a co_shared_mutex", "statement": "Under a fair scheduler, if the clock advances and whoever holds the mutex lets go of it, every call on a co_shared_mutex returns, of readers and writers alike.", "quantifier": "every infinite fair execution, any number of readers and writers", "why_tests_cant": "starvation shows only in infinite executions under particular schedules; a test sees a finite prefix of one", "anchors": ["source/cocpp/sync/co_shared_mutex.cpp: lock, try_lock, unlock, lock_shared, try_lock_shared, unlock_shared, wake_up_waiters__", "source/cocpp/utils/co_utils.cpp: co_timed_call"]}
{"id": "C114", "title": "a scheduler thread does not pass over a runnable coroutine for ever", "statement": "If decisions that are not in favour of a higher priority are made again and again and the calls of other threads return, every coroutine that stays runnable on a thread at some priority is picked, again and again, whatever coroutines arrive, leave, wait or change their priority meanwhile.", "quantifier": "every infinite interleaving of the thread with any number of calls of other threads, any set of coroutines and priorities", "why_tests_cant": "an infinite execution cannot be tested; the races with the cached minimum priority and with arrivals need particular interleavings", "anchors": ["source/cocpp/core/co_env.cpp: choose_ctx_from_normal_list__, move_ctx_to_here, update_min_priority__, handle_priority_changed, take_one_movable_ctx, remove_detached_ctx__", "source/cocpp/core/co_ctx.cpp: leave_wait_resource_state, set_priority"]}
{"id": "C115", "title": "in a fair execution the calls on a condition variable come to their end", "statement": "If the scheduler is strongly fair and every client that gets the lock gives it up again: lock, unlock, notify_one and notify_all return; a wait without predicate returns once it has been notified; a wait with predicate returns once it has been notified if the predicate holds from then on; a timed wait without predicate whose deadline passes while it is in the line returns, notified or not.", "quantifier": "every strongly fair infinite execution, any number of coroutines, notifiers, timers, any data and predicates", "why_tests_cant": "an infinite execution cannot be tested; a waiter starved by others that take the lock shows no failure, only delay", "anchors": ["include/cocpp/sync/co_condition_variable.h: wait, wait_until", "source/cocpp/sync/co_condition_variable.cpp: notify_one, notify_all"]}
{"id": "C116", "title": "in a fair execution every started timer is launched", "statement": "If the timer thread is treated fairly, calls and callbacks of timers end, and no two pending timers are due at the same moment: a started timer whose time comes is launched or stopped, whatever other timers are started meanwhile; a periodic timer that has been launched is launched again or stopped, if time goes on.", "quantifier": "every strongly fair infinite execution, any number and kinds of timers, any calls of start and stop by any threads, any spurious wake-ups", "why_tests_cant": "an infinite execution cannot be tested; a timer that others are put before again and again shows no failure, only delay", "anchors": ["source/cocpp/core/co_manager.cpp: timer_routine__, insert_timer_to_queue__, remove_timer_from_queue__", "source/cocpp/core/co_timer.cpp: start, stop, reset"]}
{"id": "C117", "title": "start and stop of a timer return in fair executions", "statement": "If the timer thread and the threads that call start and stop are treated fairly, every call of start and stop returns.", "quantifier": "every strongly fair infinite execution, any number and kinds of timers and threads", "why_tests_cant": "a call that waits for ever for a mutex that is never given up looks like a slow one; it needs a timer that is always due", "anchors": ["source/cocpp/core/co_manager.cpp: timer_routine__ (lock taken before the loop, given up only in the waits), insert_timer_to_queue__, remove_timer_from_queue__", "source/cocpp/core/co_timer.cpp: start, stop"]}
{"id": "C118", "title": "in a fair execution every sleep ends", "statement": "If all timers belong to coroutines that sleep, no two of them until the same moment, and the timer thread, the callbacks and the sleeping calls are treated fairly, then every call of sleep_until that has begun returns when its moment comes, and not before.", "quantifier": "every strongly fair infinite execution, any number of sleeping coroutines, any different moments (past and future), any interleaving of the calls, the timer thread, the callbacks and the clock, without spurious wake-ups of the timer thread", "why_tests_cant": "an infinite execution cannot be tested; a test sees a few sleeps on few interleavings, and one that is never woken up looks like a slow one", "anchors": ["include/cocpp/co/co_co.h: this_co::sleep_until, sleep_for", "source/cocpp/core/co_manager.cpp: timer_routine__, insert_timer_to_queue__, remove_timer_from_queue__", "source/cocpp/core/co_timer.cpp: start, run"]}
{"id": "C119", "title": "the monitor disturbs only threads that one coroutine has held for a whole period", "statement": "The monitor interrupts a thread only if one coroutine has run on it through the whole period since the monitor's last look, with another one there to run; threads that sleep, idle threads that have just got work, and threads that switch are left alone.", "quantifier": "every execution of the scheduling loop with creation, waiting, waking, ends of coroutines, guards, signals and ticks of the monitor; for a single tick every set of threads", "why_tests_cant": "a superfluous signal shows only as lost time or an interrupted system call; the tests never look at what the monitor does", "anchors": ["source/cocpp/core/co_manager.cpp: subscribe_manager_event__, force_schedule__, redistribute_ctx__", "source/cocpp/core/co_env.cpp: is_blocked, prepare_to_switch, reset_scheduled_flag"]}
{"id": "C120", "title": "the memory use reported is the one the system reports", "statement": "get_process_phy_mem returns the number of the VmRSS line of /proc/self/status, for every contents of that file in which this line is written as the kernel writes it, and 0 if the line or the file is not there; a number other than 0 always comes from that line.", "quantifier": "every contents of the file, any number of lines and digits, any white space around the number", "why_tests_cant": "the file cannot be chosen by a test; the value changes from call to call and is only compared with itself", "anchors": ["source/cocpp/core/co_vos_gcc_x86_64.cpp: get_process_phy_mem"]}
{"id": "C121", "title": "a coroutine is made as its options say", "statement": "A coroutine started with options has the name and the requested priority of the last option of each kind, or the defaults; it is bound to the env of the last with_bind_env and added to it, and unbound on the env the manager chooses without one; it runs on the shared stack if asked to, otherwise on its own stack of the size asked for.", "quantifier": "every list of options in any order, with repetitions, every default size and every choice of the manager", "why_tests_cant": "tests use one or two options at a time; orders, repetitions and combinations are unbounded", "anchors": ["include/cocpp/core/co_ctx_config.h", "include/cocpp/co/co_co.h: co::co", "source/cocpp/core/co_ctx_factory.cpp: create_ctx", "source/cocpp/core/co_manager.cpp: create_and_schedule_ctx"]}
{"id": "C122", "title": "the operators of a channel tell what they did", "statement": "A coroutine that uses <, >, << and >> on a channel knows from what it sees which values were accepted from it and which it took: an operator that comes back without telling of a failure has done its work, the values received are those taken, in order, a failed receive takes nothing and leaves the variable as it was, and fails only at the end of a closed channel.", "quantifier": "every program of operators, every kind of channel, every interleaving with other users of the channel", "why_tests_cant": "programs and interleavings are unbounded; a lost value leaves no trace", "anchors": ["include/cocpp/event/co_chan.h: operator<, operator>, operator<<, operator>>"]}
{"id": "C123", "title": "an I/O call looks at the error number of its own system call", "statement": "read, write, send, recv and accept decide by the error number their own last system call set whether to wait and try again or to fail, also if the coroutine is preempted or moved to another thread in between.", "quantifier": "every number of threads and coroutines, every switch at every point, every sequence of answers of the system", "why_tests_cant": "the signal must hit the few instructions between the system call and the look at errno", "anchors": ["source/cocpp/io/co_io.cpp: read, write", "source/cocpp/io/co_net.cpp: accept, send, recv", "source/cocpp/core/co_vos_gcc_x86_64.cpp: switch_from_outside"]}
{"id": "C124", "title": "the counters that hold off preemption stay right when coroutines are moved", "statement": "The counter of every env is the number of guards the coroutines on it are inside of, minus the stretches opened within them, in every state, also if coroutines are moved between envs: an env with nobody inside a guard can be preempted, and a coroutine inside one cannot.", "quantifier": "every number of envs and coroutines, every program of guards, openings and switches, every interleaving with signals and moves", "why_tests_cant": "the wrong counter shows only as a thread that is never preempted again, long after the move", "anchors": ["source/cocpp/core/co_env.cpp: co_recursive_mutex_with_count, co_preempt_guard, can_force_schedule", "include/cocpp/core/co_define.h: CoPreemptGuard, CoEnablePreempt, CoDisablePreempt", "source/cocpp/sync/co_mutex.cpp: lock"]}
{"id": "C125", "title": "transfers wait instead of reporting that they would block", "statement": "read, write, accept, send, sendto, recv, recvfrom, sendmsg and recvmsg of co_io and co_net fail only for a reason other than that the system call would block or was interrupted; while it answers that, they yield and try again.", "quantifier": "every function, every sequence of answers of the system", "why_tests_cant": "full buffers and interruptions are rare in tests, and the sequence of answers is unbounded", "anchors": ["source/cocpp/io/co_io.cpp: read, write", "source/cocpp/io/co_net.cpp: accept, send, sendto, recv, recvfrom, sendmsg, recvmsg"]}
{"id": "C126", "title": "in a fair execution everybody who waits for a coroutine that ends goes on", "statement": "In every infinite execution in which no party that can go on again and again is passed over for ever: if the function of a coroutine ends, its end is published completely, and every call of wait or join on it without time-out returns, whether it began before or after the end and however many others go on to call.", "quantifier": "every strongly fair infinite execution, any number of callers (also infinitely many) on any threads", "why_tests_cant": "a statement about what happens in the end, in infinitely long executions", "anchors": ["source/cocpp/core/co_env.cpp: wait_ctx", "source/cocpp/core/co_ctx.cpp: real_entry"]}
{"id": "C127", "title": "a channel between pipeline stages behaves like a plain queue with a closed flag", "statement": "Every execution of co_chan, with any number of producers and consumers, waits and notifications in between, has the same effects in the same order as one of a queue whose push, pop and close are single steps, and every step of that queue is one that co_chan makes when a coroutine calls the operation and gets the mutex. So what is shown of pipelines with such queues holds of pipelines with co_chan.", "quantifier": "every size, every interleaving, any number of coroutines", "why_tests_cant": "the steps of push and pop interleave in unboundedly many ways", "anchors": ["include/cocpp/event/co_chan.h", "include/cocpp/pipeline/co_pipeline.h"]}
{"id": "C128", "title": "a pipeline of maps over an endless source gives its reader every item", "statement": "In a pipeline whose stages are all maps and whose source never ends, if no coroutine that can go on is passed over for ever and the reader goes on reading without closing, the reader gets, for every n, as its n-th item the n-th item of the source put through all stages in order.", "quantifier": "every number of stages, all functions, every size of the source's channel but a fixed one of 0, every fair infinite execution", "why_tests_cant": "it is about executions without end and every schedule", "anchors": ["include/cocpp/pipeline/co_pipeline.h", "include/cocpp/event/co_chan.h"]}
{"id": "C129", "title": "a pipeline over a source that ends comes to its end in fair executions", "statement": "If the source ends, some coroutine or the reader goes on as long as one of them can, and the reader does not close, the reader sees the end of the pipeline, and what it has got by then is the result the stages spell (for a fork, in some order). If the reader may close, it still sees the end, with a beginning of the result.", "quantifier": "all lists of stages (groups of at least one, see C30 for group(0)), all functions, every size of the source's channel but a fixed one of 0, every fair infinite execution", "why_tests_cant": "it is about every schedule without end, for any number of stages and workers", "anchors": ["include/cocpp/pipeline/co_pipeline.h", "include/cocpp/event/co_chan.h"]}
