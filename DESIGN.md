# Design of the formal model of cocpp

The subject is the C++ coroutine library in /repo (pinned commit).  The model
is written in Rocq (Coq 8.16.1), standard library only.  Nothing in /repo is
built, run or changed; the model is a transcription, by hand, of the source.

## 1. Shape of the development

`rocq/theories/` holds, per area `X`:

| file            | contents                                                              |
|-----------------|-----------------------------------------------------------------------|
| `XModel.v`      | transcription of the code: states, labels, one step function; every definition cites file and lines |
| `XSpec.v`       | the specification: API events and predicates over event histories / observable results; does not import the model |
| `XProofs.v`     | invariants and lemmas                                                  |
| `XProps.v`      | the property theorems only, each followed by `Print Assumptions` and a concrete `Example` |

Small areas put the specification at the top of the Props file.

`Base.v` has the generic part: labelled transition systems as
`step : state -> label -> option state` (`None` = not enabled), `run` over a list
of labels, reachability, the invariant rule, and function update.

Conventions

* Coroutines are natural numbers; there is no bound on how many exist.
* A schedule is a list of labels; each label names the coroutine (or thread)
  that makes the next step and every outcome the environment chooses (clock,
  OS answers, which call a client issues).  A theorem "for all schedules" is a
  theorem about every list of labels.
* Clients are most general: an idle coroutine may issue any call at any time.
  A usage rule (e.g. no relocking of a non recursive mutex) is a guard on the
  call labels and is stated in the theorem.
* Undefined behaviour is an explicit outcome (a `ub`/`uaf` flag or result), never
  silently a default value.
* "Progress" claims are stated on quiescent states (no internal step enabled) or as
  "from every reachable state there is an internal schedule that ...".  Fairness
  (C92, C106-C109, C112-C118) is stated on infinite executions: `FairSpec`.
* If a claim of properties.jsonl is false of the faithful model, the development
  has a theorem `..._refuted` with a concrete execution, checked by computation,
  and a theorem `..._partial` for the largest part found to hold.

Granularity

* Lock implementations (spin lock, mutex, recursive mutex, shared mutex, condition
  variable) are modelled step by step: each access to shared memory is one step,
  and the spin lock protecting the internals is explicit.
* Objects built from one mutex plus condition variables (latch, wait group,
  semaphore, barrier, channels) are modelled as monitors: one step is one
  execution of a code segment between acquiring and releasing the mutex.  A
  refinement theorem (`fine_refines_monitor` in `FineProps.v`) justifies this: each
  execution of the fine-grained composition mutex + condition variables + segments
  has the same API history as a monitor execution, and rests only where it rests.
* Memory model: sequential consistency.  C++ relaxed/acquire/release orderings are
  not modelled.

## 2. Properties

Status words: **prove**, **refute+partial**.

| id  | plan |
|-----|------|
| C01 | prove. `Mutex*`: fine-grained LTS of co_mutex; history spec "holder"; invariant on owner/queue/pcs; guard: no relock by holder. Also show by a run that the guard is needed. |
| C02 | prove. Same model; return events of unlock/try_lock compared with the holder computed from the history. |
| C03 | prove. Same model; park order is an event; grants of parked coroutines are a prefix of the park order; no grant to others while the queue is non-empty. |
| C04 | prove. Same model; from every reachable state with free mutex and a coroutine in lock() there is an internal schedule to an acquisition; and flag invariant (parked => will be woken). |
| C05 | prove. `RecMutex*`: same technique with depth counter; spec counts locks minus unlocks per coroutine. |
| C06 | refute+partial. `SharedMutex*`: wake_up_waiters__ uses std::remove_if as a partition; model libstdc++'s remove_if. Partial: exclusion holds in every execution in which release never sees a mixed queue with a reader in front. |
| C07 | refute+partial. As C06. |
| C08 | prove. `CondVar*`: fine-grained LTS of wait / notify with explicit cv lock, user lock abstract. |
| C09 | first half prove, second half refute: wait(lock,pred) is a do-while. |
| C10 | refute+partial. `timeout__` member is never reset. |
| C11 | prove. `Monitor.v` instance; count = initial + releases - acquires over the history. |
| C12 | prove. Monitor instance; quiescence theorem. |
| C13 | prove. Monitor instance. |
| C14 | prove. Monitor instance. |
| C15 | prove. Monitor instance. |
| C16 | prove. Monitor instance; arrival weight per phase from history. |
| C17 | prove. Monitor instance with tokens used at most once. |
| C18 | refute+partial (holds when nobody drops: C17). |
| C19 | prove. `CallOnce*`. |
| C20 | refute+partial: first caller has the guarantee. |
| C21 | prove. `Chan*`: three monitor instances. |
| C22 | prove. |
| C23 | prove. |
| C24 | prove. |
| C25 | prove. |
| C26 | refute+partial: single producer. |
| C27 | prove. Iterator protocol over a stream of pop results. |
| C28 | prove. `Pipe*`: network of stages connected by bounded buffers; invariant relating buffers to sequential stream functions. |
| C29 | prove. Fork stage with k workers; permutation. |
| C30 | prove. Measure + deadlock freedom on the network. |
| C31 | refute+partial: take/map terminate, filter/skip/fork do not propagate. |
| C32 | prove. `Join*`: LTS of real_entry against wait_ctx with the finish lock. |
| C33 | refute (two concurrent waiters) + partial (atomic check). |
| C34 | prove (on the modelled locks). |
| C35 | prove/partial. `Join*`/`Env*`. |
| C36 | prove. `Env*`: queues per priority with cached minimum; choose function. |
| C37 | prove. |
| C38 | prove. `WaitSet*`. |
| C39 | prove. `Idle*`: sleep_if_need__ against wake_up and stop_schedule, on top of `Sched*`. |
| C40 | prove. `Env*`. |
| C41 | prove in range, refute for values >= 2^31 (conversion size_t -> int). |
| C42 | least loaded: prove; exclusive: refute. `Mgr*`. |
| C43 | first half prove; race with creation refute. `Mgr*`. |
| C44 | refute; prove that nothing is ever moved. `Mgr*`. |
| C45 | refute. |
| C46 | refute+partial. |
| C47 | prove. `Timer*`. |
| C48 | refute (equal expiry times) + partial (distinct times). |
| C49 | refute + partial. |
| C50 | refute. `Timer*`. |
| C51 | refute. |
| C52 | prove. `Asm*`: small x86-64 subset with the instruction list of switch_to. |
| C53 | prove. `SharedStack*`: byte memory. |
| C54 | prove/partial. arithmetic of shrink_mem_to_top. |
| C55 | partial: alignment only for 16-aligned stack tops. |
| C56 | prove for fewer than 2^31 subscriptions; refute beyond. `Event*`. |
| C57 | prove. `Any*`. |
| C58 | prove first half; type reuse refuted (null dereference). |
| C59 | prove. |
| C60 | write_n prove; read_n refute at end of file. `Io*`. |
| C61 | read/write/send/recv/accept prove; connect refute. |
| C62 | refute. `Hold*`: the schedule lock in timed waits. |
| C63 | `CvModel`: refute (stale callback); prove that nothing but notifications wakes waiters when no timed wait is made. |
| C64 | `PipeModel`: refute (a stage that stops reading blocks its predecessor); see `PipeProps.v`. |
| C65 | `AnyModel`: refute (copies share the object). |
| C66 | `SchedModel`: refute (set_priority on a coroutine being moved erases list::end()); prove safe otherwise. |
| C67 | `HandleModel`: refute; prove the cases that are safe. |
| C68 | `HandleModel`: refute (null context dereferenced); prove for handles that hold a coroutine. |
| C69 | `IoModel`: refute (va_list forwarded as an argument). |
| C70 | `AsmModel`: refute (vector registers, red zone); prove for the integer registers and memory outside the red zone. |
| C71 | `SharedModel`: refute (copies of ended coroutines); prove that nothing else is held. |
| C72 | `SwitchModel`: refute with an invariant showing that the lost coroutine never runs again; prove for signals in user code. |
| C73 | prove. `Timed*`: the timed methods as a client of the mutex models; one record per finished call, compared with the API history between its start and its end. |
| C74 | refute (follows from C06) + partial, same technique. |
| C75 | refute+partial. `Shut*`: environments, the three background threads and the destructor as one transition system; stuck state; measure for the termination outside the window. |
| C76 | prove. `Shut*`: invariant of every environment and of the history. |
| C77 | refute+partial. `Shut*`: the cleaner's own environment; for every execution that returns. |
| C78 | refute+partial. `Shut*`. |
| C79 | refute+partial. `Lock*`: every function reduced to the program of its lock operations; circles by witness, with a proof that they last; ranks of the locks, knowledge about unpublished objects and finished coroutines, and a measure along the chain of waiting for the rest. |
| C80 | refute+partial. `Lock*`: holders of each lock; balance of the programs. |
| C81 | refute+partial. `Lock*`: the monitor blocked in every continuation. |
| C82 | refute+partial. `Fd*`: table of descriptors with the kernel's choice of the lowest one, objects with fd__, copies; invariants tie descriptors to open files. |
| C83 | refute+partial. `Fd*`: a lost descriptor stays lost in every continuation. |
| C84 | refute+partial. `Fd*`. |
| C85 | refute+partial. `Alloc*`: creation functions in an exception monad over a tape of allocation outcomes; ownership as a permutation of what is held; lost things stay lost in every continuation. |
| C86 | prove. `Alloc*`: held = owned + lost, each once, per step. |
| C87 | refute+partial. `TimerFail*`: `Timer*` with an exception at the launch. |
| C88 | refute+partial. `SleepLive`: an invariant that a call under way is in the queue, launched, in its callback or in start; a measure brings the timer thread to a wait or to the launch. |
| C89 | refute+partial. `CrashModel`: the handler as an overlay of `ShutModel`, with a history; invariants on the history (`HI`, `PI`). |
| C90 | refute+partial. `CrashLive`: every step is a step of `ShutModel` or none, so that its invariants hold; the "can still end" lemmas of `ShutLive` avoid the crashed thread; on a background thread the invariant `BI` keeps it alive. |
| C91 | refute+partial. `CrashLockModel`: the handler replaces the program of the activity that its thread executes; the invariants of `LockModel` are kept. |
| C92 | refute+partial. `FairSpec`: infinite executions, weak and strong fairness; `FairCycle`: executions that repeat a cycle, as witnesses; `MutexFair`: each stage of a call is left, by fairness and a measure on the place in the queue. |
| C93 | `RaceSpec`: happens-before (program order, synchronises-with, transitive) and data races of a trace of memory accesses; `MutexRaceModel`: MutexModel with the accesses of each step and those of the clients; invariant: what a thread knows and what the last release carries (`RaceLemmas`). |
| C94 | refute+partial. `RaceModel`: every function as a list of operations on locks, atomic and ordinary objects; `RaceRule`: which lock protects which object, all programs keep to it (compositional check); `RaceInv`: who keeps to the rule is ordered; `RaceCheck`: computing that an event does not happen before another, for the witnesses. |
| C95 | full. `OrderModel`: `FineModel` (mutex and condition variables step by step) with the trace of the memory accesses and a history stamped with positions; `OrderEmb`: the accesses of the mutex in the trace are a trace of `MutexRaceModel` (C93), happens-before carries over; `OrderProofs`: of two effects the older one passes on to the younger; `OrderRules`: who should pass on to whom; `OrderProps`: counting arguments show the older one is older. |
| C96 | full. As C95, `ChanOrderProps`. |
| C97 | refuted. `OnceRaceModel`: `CallOnceModel` with the trace of the memory accesses (the compare-exchange of line 22 and the accesses of the clients); after the flag is set no access releases anything, so there is no happens-before between different callers. Partial: what was done before the winning compare-exchange is passed on to the other callers. |
| C98 | full. `SpinRaceModel`: `SpinObj` with the trace of the memory accesses and clients that use data while they hold the mutex; `SpinRace`: what was done before a block under the spin lock is known to whoever takes the spin lock next, and what was done under the mutex to whoever gets the mutex, for any object of this form; `RecMutexRaceProps`: the instance. |
| C99 | refuted (the defect of C06 makes clients race). `SharedMutexRaceProps`: partial for executions without that situation, on the basis of `SpinRace`; the members are ordered without conditions. |
| C100 | refuted (timeout__ is read without cv_lock__). `CvRaceModel`: `CvModel` with the trace of the memory accesses, including the locks of timers, the timer queue and the start of callbacks; `Guarded`: accesses made only by the holder of a lock are ordered, for any trace; `CvRaceProps`: waiters__ and writes of timeout__ are made under cv_lock__, the data and reads of timeout__ under the user's lock, so the only unordered pairs are those of the refutation. |
| C101 | refuted (guards kept across switches). `GuardModel`: every function of the library as a program of counter operations, switches and callbacks, with open branches; one thread with any number of coroutines; `GuardProofs`: depth analysis proved sound (invariant) and complete (a path to the bad switch is constructed); `GuardProps`: exact characterisation, table by computation, never preempted again by induction over continuations. |
| C102 | refuted (lists in braces, arrays, iterators). `SourceModel`: the pipeline of C28 with the caller's object, its end as a label at any moment, and which steps of the source read it; `SourceProps`: invariants over both, using C28's invariant to show that the source has ended when the reader sees the end. |
| C103 | refuted (stream ignores its size; stages have unlimited channels). `StreamModel`: the sizes the constructors and stream pass on; `StreamProps`: bound of the first channel by invariant, unboundedness by induction on the number of items. |
| C104 | proved. `ReportModel`: the loop of dump_memory as tokens, the range check of ctx_info, page-rounded stacks; `ReportProps`: an independent parser of the dump gives back all bytes of the live stack; reads stay in the pages. |
| C105 | refuted. `ReportModel`: exe_path with the result of realpath as input. |
| C106 | proved. `MonFair`: fairness on infinite executions of the monitor model (`FairSpec`): who is not waiting makes its step and until then stays as it is; `FairGateProps`: from the moment the gate is open nobody waits and no segment waits, so every call is served. |
| C107 | refuted by a strongly fair execution that repeats seven steps for ever (`FairCycle`); the partial theorems in `FairSemProps`: progress of the semaphore as a whole, starvation only by being overtaken for ever. |
| C108 | proved. `FairChanProps`: as C106, the gate is closed__. |
| C109 | refuted by a strongly fair execution that repeats seven steps for ever; partial theorems as C107. |
| C110 | refuted (three witnesses, the overflow for every time of day); `DurModel`: chrono's 64-bit arithmetic with overflow as undefined behaviour, the polling loops over any sequence of readings; `DurProps`: deadlines are exact whenever they can be expressed. |
| C111 | refuted (`threads_set_refuted`, `threads_max_refuted`); `DurProps` for the setters, `ThreadsProps` on the manager's model `Mgr`. |
| C112 | refuted for weak fairness (cyclic witness), proved for strong fairness. `SpinFair`: a strongly fair execution of any object behind a spin lock is matched by a weakly fair execution of the object whose blocks are atomic (with `SpinObjProofs.sim_lbl`); `RecFair`: there every owner lets go and the place in the queue shrinks. |
| C113 | refuted for strong fairness (cyclic witness), with a partial theorem. `SharedFair`, on the basis of `SpinFair`: what each step does to the data, owners let go, the line is served in order while a writer has the mutex, readers are in line only then. |
| C114 | prove. `SchedFair`: infinite executions of `Sched` (`FairSpec`); once the call that made it runnable has returned, the cached minimum and the scan do not miss the coroutine, and the number of coroutines before it in its queue never grows and shrinks with each such decision. |
| C115 | prove. `CvFair`: infinite executions of `Cv` (`FairSpec`); the spin lock and the user lock are free again and again because each holder goes on, so whoever tries for them gets through; a waiter off the line is unmarked by the time the spin lock is free. |
| C116 | prove. `TimerFair`: infinite executions of `Timer` (`FairSpec`). While the timer thread is outside its waits nobody else changes the queue and a due timer keeps it outside, so the number of timers before a due one only falls (measure of C48); after a launch the timer thread itself starts a periodic timer again. |
| C117 | refute by an execution with a timer of period 0 (`FairCycle`); prove for executions in which the timer thread sleeps again and again. |
| C118 | prove. `SleepFair`: infinite executions of `Sleep` (`FairSpec`) with the invariant of C88; a callback holds the mutex only until it has woken the sleeper, so every mutex the timer thread wants becomes free and C116's argument applies to the timers of the execution; the queue shrinks until the timer thread sleeps, so every start returns. |
| C119 | refute on executions of `Switch` (thread asleep, idle thread); prove that a decision since the last tick prevents the signal (the flag as an invariant of the labels since the tick); `Tick`: one tick on all threads of `Mgr`, signals characterised, nothing moved; what the correction of C44 alone would do. |
| C120 | prove. `Mem`: the function on a list of lines with the string functions it uses; the kernel's line given by an independent grammar; induction over lines and digits. |
| C121 | prove. `Config`: the option loop and what creation makes of the result, against the last option of each kind given by a recursion of its own; induction over the list of options. |
| C122 | refute (`<<`), prove the rest. `ChanOp`: any program of operators over the channel model with arbitrary other users; invariant linking what was seen to the history of the channel. |
| C123 | refute (three witnesses). `Errno`: errno per thread, coroutines switched at any point; prove what survives, and the claim with preemption closed. |
| C124 | refute with moves (two witnesses, and that the damage stays), prove without. `Move`: counters per env, any programs of guards, openings and switches; counter minus what it ought to be is constant in every step. For programs that lock and unlock mutexes a coroutine inside a guard is the one that runs, so preemption strikes exactly outside guards. |
| C125 | refute (sendto, interrupted read and write), prove the rest. `WaitIo`: the loop of IoModel.v with the test of each function. |
| C126 | refute (the witness of C32 is a fair execution), prove without the signal in the window. `JoinFair`: on the model of C32; the holder of finish_lock__ can always go on, so the locks are free again and again. |
| C127 | prove. `PipeChan`: replay of the histories of ChanModel.v on the channel record of PipeModel.v, and back; joins C21-C25 to C28-C31. |
| C128 | prove. `PipeFair`: invariant of pipelines of maps that are not closed (PInv), then each channel hands over items without end, by induction over the stages (flows); contents from C28 for lists by cutting the source off. |
| C129 | prove. `PipeEnd`: from C30, the steps made are bounded and as long as the reader has not seen the end a fair execution makes another one. |

Nothing in the list is outside what Rocq can express; what is left out of the
model is listed below.

## 3. Trusted base

* The Coq 8.16.1 kernel (and `coqchk`, which repeats its checks on the compiled files).
* The hand transcription of the C++ into the model; each definition cites its source and says
  where it simplifies.
* The statements: the specification files, read as English.

### What is modelled

| area | source | models |
|------|--------|--------|
| locks and monitors | sync/* | `Mutex`, `RecMutex`, `SharedMutex`, `SpinObj`, `MutexRace`, `Cv`, `Timed`, `Sem`, `Latch`, `Wg`, `Barrier`, `CallOnce`, `Fine` |
| channels, events, pipelines | event/*, pipeline/co_pipeline.h | `Chan`, `ChanIter`, `Event`, `Pipe` |
| values | utils/co_any.h, core/co_local.h, core/co_return_value.h | `Any`, `Local` |
| one scheduler thread | core/co_env.cpp, core/co_ctx.cpp | `Sched`, `Prio`, `State`, `Idle`, `Hold`, `Join`, `Handle` |
| switching | core/co_vos_gcc_x86_64.cpp, shared stacks of co_env.cpp | `Asm`, `Switch`, `Shared`, `Shrink` |
| the manager | core/co_manager.cpp, factories | `Mgr` (with `MgrMove`), `Shut`, `Alloc` |
| timers and sleeping | core/co_timer.cpp, timer thread, co/co_co.h | `Timer`, `TimerFail`, `Sleep` (with `SleepLive`) |
| internal locks | all of core/* | `Lock`, `LockGuard`, `CrashLock`, `Race` |
| input and output | io/* | `Io`, `Fd` |
| fatal signals | exception/co_exception.cpp | `Crash`, `CrashLock` |

### What is not modelled

* The C++ memory model below sequential consistency, except that happens-before and data races are treated for co_mutex
  (C93) and for the library's own data (C94-C100); elsewhere the steps of the threads interleave.
* Failing allocation outside creation of coroutines and environments (`Alloc`) and of timers (`TimerFail`);
  exceptions thrown by copy constructors of user types.
* Signals other than the request to switch (`Lock`, `Switch`, `Asm`) and fatal signals (`Crash`).
* Logging, the text of the info dump functions; of the memory dumps only which bytes are read (C104).
* Fairness of the operating system, except in C92, C106-C109 and C112-C118: liveness is stated as said in section 1.
* Real time: the clock is a number chosen by the labels (64-bit nanoseconds with overflow in C110).

### Assumptions

No axiom, parameter or unproved obligation is declared, no library other than Coq's standard library is imported.
`Print Assumptions` stands below each theorem and prints `Closed under the global context` for every one of the theorems
that MANIFEST.json lists, without exception.  (The checker also shows seven axioms `Coq.ssr.ssrunder.Under_rel...`: they
belong to a file of the standard library that `Lia` loads, and no theorem uses them.)
