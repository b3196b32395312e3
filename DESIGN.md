# Boost.Fiber: machine-checked model

Source: /repo (boostorg/fiber), read as text only. Prover: Coq 8.16.1. Everything is under `rocq/theories`.

## Method

* Every component is an executable labelled transition system
  `step : state -> label -> option state` (`None` = the label is not enabled). A label is one choice of the
  environment: which fiber/thread takes its next atomic step, which call it starts, when the clock advances, when a
  timer fires. `exec init labels = Some s` is one execution, and theorems quantify over all label lists
  (all schedules, all numbers of fibers, all call sequences). Nothing is bounded.
* Histories: the state carries a log of API events (call / return with result). Properties are stated over that
  log and over "runnable / blocked" of the fibers, not over internal fields, wherever the English claim is about what a
  user sees.
* Undefined behaviour and failed assertions are distinct outcomes in the model (error flag or explicit constructor).
* If a property is false of the faithful model, `..._refuted` exhibits the execution (checked by computation), and
  the strongest restriction that holds is proved beside it.

### Layers

1. `Kernel` : what a synchronization object sees of the scheduler: fibers with `waker_epoch_`, running/suspended, queued in
   a ready queue, sleep entry; `create_waker`, `wake`, `suspend`, `yield`, timers, clock; `wait_queue`. The scheduler is here
   an adversary: any queued fiber may be picked next on any idle thread, so a theorem covers every scheduling algorithm,
   every number of threads and migration between them.
2. Synchronization objects on top of the kernel (mutexes, condition variables, barrier, channels, futures).
   A critical section under one detail spinlock is one atomic step (the spinlock itself is verified separately);
   everything outside of it (lock-free accesses, the window between wake-up and resumption, the window between
   releasing the mutex and blocking on a condition variable) is separate steps.
3. `Sched` : the concrete scheduler (ready, remote-ready, sleep, worker, terminated queues, dispatcher loop, shutdown).
4. Ready queues and algorithms (round_robin, shared_work, work_stealing, spinlock queue, Chase-Lev SPMC queue).
5. Leaf components: spinlocks/futex, fss, promise/future/packaged_task ownership, NUMA topology, stack placement.

## Plan per property

| Id | Modelled | Proof |
|---|---|---|
| C01-C04 | Mutex model, one step per critical section, four kinds | invariant over all executions; claims over the call/return log |
| C05, C06 | Mutex model | invariant (wait queue vs. pending wake-ups) |
| C59, C60 | Mutex model (timed acquisition) | refuted by execution; the part that holds (MutexUntilProps.v): deadline not passed on a free mutex, passed deadline, owner always gets false after the deadline |
| C07 | Mutex model | expected false: refutation by execution + restricted theorem |
| C08, C09 | Kernel, wait_queue | invariant; functional specification of notify_one/notify_all |
| C10-C13 | CondVar model: mutex + cv, cv spinlock explicit | invariant over log |
| C14-C16 | Barrier model | invariant over log |
| C17-C20, C22 | Buffered model | refinement to an abstract FIFO; wake-up counting invariant |
| C21 | Buffered model | expected false: refutation + restricted theorem |
| C23-C28, C61 | Unbuffered model, every atomic access a step; slots are named by push call, a read of the slot of a finished call is the outcome `ub` | invariants (SlotFacts, UnbufferedProofs*); C24, C25, C27, C28, C61 refuted, restricted versions proved |
| C29, C30, C62 | SharedState model: one shared state, mutex + cv client, any number of fibers | invariant over the log; C62 refuted |
| C29-C35, C63 | FutureObj model: promise, packaged_task, future, shared_future objects and the intrusive pointers between them, every pointer/counter access a step | invariants over histories (value semantics `refers` as specification); C34, C63 refuted |
| C36-C44, C64, C65 | Sched model: contexts (main, dispatcher, workers) of any number of threads, scheduler queues, dispatcher loop, round_robin, fiber objects, reference counts, clock; every push to another thread, every notification, every round of the dispatcher's loops is a step | invariants SchedFacts*; claims over the record of events (SchedSpec); C64, C65 refuted, restricted versions proved |
| C45 | ring buffer functions | refinement to list |
| C46, C73, C70 | Spmc: Chase-Lev queue, every access to top_, bottom_, array_ and the cells a step, machine-word indices | refinement of an abstract queue, invariant; C73 refuted in three ways, C70 for this queue refuted, restricted versions proved |
| C47, C48, C57, C70 | Algo: any number of threads and objects of round_robin, shared_work, work_stealing, numa work_stealing; awakened, pick_next, each round of the search for a victim, and set_algo step by step | invariant (each ready context in exactly one place); C47, C57, C70 refuted, restricted versions proved |
| C49, C50, C71 | Ttas, FutexLock: every access to the lock word and every futex call a step; memory orders by views (which critical sections happen before) | invariants; C71 refuted for the futex variants |
| C74, C75 | ThreadBarrier: wait() with spurious wake-ups, any number of threads; WsCtor: constructor of work_stealing on top of it | invariant over the log; both refuted for more threads than thread_count, proved otherwise |
| C76, C77 | Drive: schedulers of any number of threads on top of Algo (every algorithm), with creation, switch, block, wake-up, steal, shutdown | invariant: the effect of each algorithm call on the set of ready contexts (DriveAlgo), one place per context (DriveProofs, DriveInv); C77 refuted for shared_work and work_stealing, proved for round_robin and for attached contexts |
| C78, C79 | WaitFor: rendezvous of waitfor_all() with the callbacks of the GPU runtime; iterator into the set and lifetime of the object explicit | invariants; both refuted, results and wake-up proved |
| C80, C81 | Deadline: conversion of durations and time points to deadlines, 64-bit signed arithmetic with overflow as an outcome | arithmetic; both refuted, exact bounds proved |
| C82-C84 | Prio: fiber properties, algorithm_with_properties and the priority_scheduler of examples/priority.cpp, one thread | invariant (queue sorted, order within one priority equal to the order of arrival); C82, C84 refuted, restricted versions proved |
| C85, C86 | Rtm: hardware transactions (read-set, write-set, conflicts, nesting, aborts at any time) and spinlock_rtm on top; several locks, data cells | refinement of a machine with ordinary locks; the invariant says that a transaction replays from every state that agrees with its read-set; C86 refuted |
| C87, C88 | UnbufThrow: the Unbuffered model with one more step, a move out of the slot that throws | the invariants of Unbuffered carry over (WokI has the thrown slots as parameter); a slot that nobody names stays unnamed, so its producer stays blocked (C88 refuted for every such state) |
| C89 | SchedKern: the steps of Sched translated into actions of Kernel | forward simulation: every step of Sched keeps a relation with Kernel (SchedKernFacts2-4), over any number of threads; what synchronization objects are proved to do on Kernel is thereby justified for the concrete scheduler, except that the composed system (object + Sched) is not built: the operations of Sched do nothing between create_waker and suspend |
| C90 | Idle: Drive with suspend_until(), notify() and the flag of each algorithm object, timeouts | invariant on top of the one of Drive (own queue empty while idle; remote queue not empty implies flag or pending notification); refuted in three ways |
| C91 | Mutex, infinite executions (Lasso) | refuted by a block of steps that can be repeated for ever (invariant of the block); partial: direct |
| C92, C93 | Buffered with a label for a throwing copy or move at each transfer | C92: direct and from the invariant; C93 refuted by witnesses, partial: same invariant as C20 |
| C94 | BufLost: Buffered with a throwing return of value_pop | refuted by a witness; partial: simulation by Buffered with another log |
| C95, C96, C97 | FssRe: storage of one fiber, nested calls of cleanup functions as programs, node identities and iterators, outcomes UB / Thrown / Abort | refuted by witnesses (endless recursion: for all fuel); partial: induction on fuel with an account per pointer and object |
| C98 | SpmcWeak: view machine for context_spmc_queue with the memory orders of the code (histories of stores, prefixes of the owner's stores known by happens-before, seq_cst fences) | refuted by witnesses (relaxed store of array_; context read by an overtaken thief); partial: invariant over all executions without access to an array not yet published, in particular all without growth |
| C99 | AsioYield: operations with completion state, counted references, handler copies, async_result on the stack; handlers on any thread | refuted by a witness (handlers destroyed without a call); partial: inductive invariant, log specification, termination measure |
| C100 | AsioRR: one thread with dispatcher, service fiber, workers, ready queue and counter, sleep queue, remote queue, handlers and timer of the io_context, time | refuted by witnesses (late notify(), yielding handler); partial: invariant over all executions, second invariant without other threads and suspending handlers |
| C101 | AsioRR, log of suspend_until() and of the decisions of the service lambda | refuted by an unbounded family of executions; partial: invariant over all executions without handlers that block |
| C102 | FiberMake: creation, execution and release of one fiber, every copy or move may throw; ledger of objects made and destroyed | refuted by a witness; counts of every object as a function of the state, by induction over executions; history invariant for the order |
| C103 | FiberMake | refuted by a witness; partial: history invariant |
| C104 | Handle: any number of handle objects, fibers, contexts with reference counts; join() as two steps | refuted by two witnesses; invariant over all executions; partial: second invariant over executions that do not store into a handle being joined |
| C105 | PropAlgo: algorithms of a thread with or without properties, property objects with types and algo_ pointers | refuted by three witnesses; partial: invariant over executions with one property type |
| C106 | JoinFss: terminate(), join(), cleanup functions, the processor of each thread | refuted by two witnesses; partial: invariants over all executions / executions without suspension in cleanup functions |
| C107 | JoinFss | refuted by a state that no continuation leaves; partial: no waiting fiber after termination, bounded number of steps until the lock is free |
| C108 | CvLife: wait queue of a condition variable with timed and untimed waits, destruction at any time, accesses after it recorded | refuted by a witness that respects the documented precondition; partial: invariant over all executions |
| C109 | PromLife: set_value(), get() and the destructors as single accesses to the shared state, the processor of each thread | refuted by a witness on two threads; partial: invariant |
| C110 | OwnerRace: every access to owner_ a step of its own | refuted by a reachable state with two conflicting accesses; partial: invariant |
| C111 | WhenAny: fibers of n functions, a bounded FIFO and the caller; one or several threads | refuted by a trace with 65 functions; partial: invariant over the order of the ends |
| C112 | WhenAny, counter of nchannel read and written in separate steps | refuted by a stuck state on two threads; partial: invariant, stuckness |
| C113 | WhenAny | refuted by a stuck state; partial: stuckness and a measure |
| C114 | WhenSimple: Done, barrier | refuted by a stuck state without functions; partial: invariant, stuckness, measure |
| C115 | WhenSimple: futures of async() read from left to right | invariant, stuckness, measure |
| C116 | PubSub: sessions, queues and buffers of the server; one step per piece of code between two suspensions | refuted by a trace; partial: invariant relating the log to what is written |
| C117 | PubSub | refuted by a trace; partial: invariant for executions with distinct names |
| C118 | PubSub | refuted by a state that is closed under all steps; partial: invariant |
| C119 | PubText: bytes of the buffers | refuted by computation; partial: induction over the buffer |
| C120 | NonBlock: the device, one step per call of NonblockingAPI::read() | refuted by computation and by an endless execution; partial: invariant, measure |
| C121 | RefCount: use_count_ with views (happens-before) of threads and of the value of the count | invariant: every use is in the view of the count or of a holder |
| C122 | ThChan: one step per access to an atomic variable; the specification is an automaton that reads the events | refuted for capacity 1 by computation; partial: forward simulation with an invariant on tickets and slots |
| C123 | ThChan: mutex and condition variables | refuted by computation (twice); partial: invariants on the mutex and on a pending notification |
| C124 | CloseSync: views (happens-before sets) attached to closed_, to the spinlocks and to wake-ups, memory orders as written | refuted by computation; partial: invariant on what closing and woken threads know; buffered_channel: invariant on the spinlock |
| C125 | CloseSync | invariant: after close() the exchange is in the view of each spinlock, so a test under the spinlock reads true |
| C126 | PtReent: interpreter of scripts (functions) with nested calls | refuted by computation (three ways); partial: induction on the script |
| C127 | Skynet: tree of fibers with bounded channels, a step is given by the path to a fiber | refuted for all div > capacity by invariant; partial: invariant by recursion on the height, progress by induction on the height, decreasing measure |
| C128 | ChanLife: every access to the channel is a step, accesses after the destruction are undefined | refuted by computation, for all numbers of producers by induction; partial: invariant on the spinlock and on the count of stored values |
| C129 | NumaOs: topology() of Windows, Solaris, AIX, FreeBSD as functions of what the system reports | refuted by computation; partial: counting the nodes with a CPU, induction over the tree of locality groups |
| C130 | NumaOs: pin_thread() of Windows on binary numbers | arithmetic of 64*g+b and of single bits |
| C72 | Adaptive: 64-bit unsigned and 32-bit signed arithmetic of retries_ | induction over histories; refuted for ttas_adaptive |
| C51, C52, C69 | Fss: map of each fiber, keyed by the address of the pointer object; the record of events names pointer objects | invariant over the log; C52, C69 refuted, restricted versions proved |
| C53 | StackPlace: pure functions on machine words of any width >= 8 | arithmetic |
| C54, C55, C66, C67 | Numa: parser of the CPU list on characters, collection of nodes, selection of local/remote CPUs; loops with fuel, `OutOfFuel` explicit | induction; C55, C66, C67 refuted, restricted versions proved |
| C56 | Iter: iterator objects, their storage and the objects in it; the result of value_pop() is a choice of the label | C56 refuted in three ways; what a full loop does is proved by induction |
| C131 | MtxLife: n users of a mutex, every access to it a step, accesses after the destruction recorded | refuted by computation for the futex spinlock; partial: invariant (owners, spinlock, count of users) |
| C132 | Buffered, infinite executions (Lasso) | refuted by blocks of steps that can be repeated for ever, for all capacities; partial: direct, with the invariant of C17-C20 |
| C133 | ThChanWeak: try_push_(), try_value_pop_() and the accesses to the slots of performance/thread/buffered_channel.hpp with relaxed, acquire and release accesses; happens-before as sets of actions | invariant: every message of a cycle covers the accesses of the earlier positions of its slot; capacity 1 refuted by a run with a data race |
| C134 | push()/pop() of the open unbuffered channel access by access with the memory orders of slot_: history of messages, views of fibers, spinlocks and wakers; coherence lets a load return an old message unless a newer one happens before it | invariant over all executions: the accesses to a published slot are in the view of the message, then in the view of the consumer that took it, then in the view it passes to the producer; the newest message is in the view of the spinlock of the waiting fibers unless a notify is pending |
| C135 | the four mutex types and wait()/notify of a condition variable as critical sections that pass views through wait_queue_splk_; protected data with its accesses | invariant: the view of the owner, or of the spinlock when there is no owner, contains everything released so far and all accesses |
| C136 | barrier::wait() step by step over such a mutex; resumption at any time | invariant: arrivals = cycle_ * n + (n - current_); the view of the owner contains what all arrivals had done; a fiber that leaves the loop has seen a later cycle_ |
| C137 | shared state step by step over such a mutex, value read after the unlock | invariant: once ready_ is set, the result and all that precedes it is in the view of the owner, and stays in the view of the getter |
| C138 | creation, switch (the functions passed to resume_with), schedule(), schedule_from_remote(), dispatcher loop, sleep queue, wakers with epochs, join()/terminate(), shared_work/work_stealing queues, with views on spinlocks and queues; members of contexts with their accesses | invariant: for every place a context can be in, the view of the thread or lock that hands it over contains everything the context has done; at most one waker that is not outdated; frame lemmas for the other threads |
| C139 | buffered_channel: all operations as critical sections that pass views through splk_; slots with their accesses | invariant: the view of splk_ contains what all fibers that pushed or popped had done; the slots between cidx_ and pidx_ hold the values pushed and not yet popped |
| C140 | FiberId: contexts at addresses chosen by the allocator among the free ones, reference counts, handles, saved ids, the table of names of autoecho.cpp | refuted by a reused address; invariant: a context exists as long as its fiber runs or a handle refers to it, two existing contexts have different addresses |
| C141 | Autoecho: main, server fiber, sessions, clients and their barrier; connections are byte streams that are split arbitrarily | refuted by four executions; invariant on clients, connections and barrier; analysis of the states in which nothing can happen; lexicographic measure |
| C142 | FutThrow: one shared state with its provider and futures; constructions, destructions and reads of storage_ are events, constructors may throw | invariant between state and log |
| C143 | `UnbufFair.v` puts the ready queue of `round_robin` (first in, first out, one thread) around `Unbuffered.v`. | Two infinite executions built with `Lasso.v` (blocks of 42 and 18 steps that preserve a description of the situation, for any value and any history): refuted for push() and for pop(). Partial: single-fiber progress of a resumed waiter. |
| C144 | AsioTimer model: suspend_until() and notify() as sequences of begin and end of timer member functions, any number of threads | refuted by execution; partial: invariant over waits, handlers and the expiry time |
| C145 | WsProg model: the whole program after the barrier, fibers migrating between any number of threads, std::mutex, spinlock and wait queue of cnd_count explicit | invariant; a measure that every step decreases; progress by cases on the lock owners |
| C146 | SchedLife model: dispatcher, end of the thread, wake-ups by other threads in two steps | refuted by execution; partial: invariant over the wake-ups under way, the flag of the algorithm and the destruction |
| C147 | PsClient: std::istream::getline(), the loop of the publisher, arbitrary uninitialised arrays, relay of PubText | refuted for all contents of the arrays; partial: induction over the lines |
| C148 | PsClient: the block with the name | refuted by computation; partial: equations over lists |
| C149 | PsClient: read_some() with an arbitrary number of bytes | refuted by computation; partial: induction over the reads |
| C150 | PtArgs: memory of numbered objects, make_tuple(), run(), get() | refuted by computation; partial: induction over the arguments |
| C151 | AsyncApi: data_, injected_, one promise and one thread per operation | invariant over the log; the specification computes the answer from the log before the operation began |
| C152 | SmallProgs: two fibers, two atomic channels | the phase of the program as a function of the number of steps |
| C153 | SmallProgs: producer, consumer, slot | invariant; a measure that falls by one with each step |
| C154 | IterThrow: iterators and the loop, outcomes of value_pop() | refuted by computation; partial: induction over the outcomes |
| C155 | NumaWs: constructor (call_once, registration, barrier) as an LTS over all threads; the two search loops as functions of the random numbers | invariant by induction on executions (arrivals counted), pigeonhole for the CPUs, induction on the random numbers |
| C156 | SkyAsync: the tree of calls, each node takes its next step at any time; 64-bit arithmetic | invariant on the tree by induction on the exponent, strictly decreasing bound, progress; refuted for other sizes |
| C157 | StackWrap: wrappers and fibers as holders of allocators, every operation one step | ownership invariant by induction on executions; the log against a separate specification |
| C58, C68 | Init: thread-local counter and initializer objects | induction; C68 refuted |

## Findings: properties that are false of the code

Each line: the property, where in /repo, the cause and what is proved instead. `_refuted` theorems exhibit an execution of the model;
`_partial` theorems hold in general under the restriction stated in them. In the manifest these have status "partial": the full
statement is the one in properties.jsonl, and it cannot be proved because it does not hold.

| Id | Property | Code | Cause, and what holds |
|---|---|---|---|
| C07 | No lost wake-up on timed mutexes | src/timed_mutex.cpp: timed_mutex::try_lock_until_, timed_mutex::unlock, src/waker.cpp: wait_queue::suspend_and_wait_until, wait_queue::notify_one | The property is false of the code (C07_refuted); proved for executions in which no timed acquisition has failed. |
| C100 | Asio scheduler: the thread blocks in run_one() only when nothing is due, and deadlines end the wait | examples/asio/round_robin.hpp:70-99, examples/asio/round_robin.hpp:101-128 | notify() replaces the expiry time of the timer, and if it comes after the dispatcher has already taken the fiber from the remote queue, the two cancelled handlers make the service fiber yield and return to run_one() without the dispatcher calling suspend_until(), because the service fiber itself is ready; the thread then blocks without a timer and a sleeping fiber misses its deadline (C100_refuted_notify). The same happens in one thread if a handler wakes a fiber and yields (C100_refuted_yield). Proved for all executions: has_ready_fibers() is exact, the thread never blocks with a ready fiber, a push to the remote queue is followed by a notify() that ends the wait. Proved without other threads and without handlers that suspend the service fiber: the timer is set for the first deadline whenever the thread blocks. |
| C101 | Asio scheduler: an idle thread does not spin | examples/asio/round_robin.hpp:131-158, examples/asio/round_robin.hpp:81-96 | if a handler blocks the service fiber (for example on a channel or mutex), cnd_.notify_one() finds no waiter, suspend_until() returns at once, and the dispatcher calls it again and again, each call adding a cancelled timer handler to the io_context (C101_refuted). Proved if handlers do not block the fiber (yielding and wake-ups by other threads allowed): between two calls of suspend_until() the service fiber has found a ready fiber, so the loop in the comment does not occur. |
| C102 | Creating a fiber succeeds or has no effect, and what it owns is destroyed exactly once | include/boost/fiber/context.hpp:412-422, include/boost/fiber/context.hpp:431-476 | if copying the function object or an argument into the context throws, the stack that make_worker_context_with_properties() has allocated is never freed (nothing owns sctx yet and the placement new frees nothing), and a property object passed to the constructor is not deleted either (C102_refuted). Proved: no object is destroyed twice; after a throw all copies made so far are destroyed; without a throw nothing is left when the last reference has gone, and the order of the destructions is as stated. |
| C103 | After join() no copy of the function object and of the arguments is left | include/boost/fiber/context.hpp:431-456, include/boost/fiber/context.hpp:412-422 | run_() moves fn_ and arg_ into local variables, which are destroyed before the fiber counts as terminated, but the members themselves live until the dispatcher releases the fiber, which may be after join() has returned (C103_refuted); for types that have no move constructor these are full copies. Proved: the local variables are destroyed before join() returns, and after the release by the dispatcher no copy is left. |
| C104 | A fiber has one handle until it is joined or detached | include/boost/fiber/fiber.hpp:161-221, src/fiber.cpp:23-65 | join() resets the handle after its wait, whatever it refers to by then. If two fibers join the same handle and the first one to return stores a new fiber in it, the second one resets the handle of the new fiber, which is thereby detached silently (C104_refuted); if the first one destroys the handle, the second one accesses a destroyed object (C104_refuted_destroyed). Proved for all executions: one handle at most, lifetime, join() waits for the right fiber, std::terminate() exactly for joinable handles. Proved if nobody stores into a handle or destroys it while another fiber waits in join() on it: a fiber keeps its handle until it has terminated or is detached. |
| C105 | Properties are passed to the scheduling algorithm that has the fiber, with the right type | include/boost/fiber/algo/algorithm.hpp:91-154, src/properties.cpp:22-34 | algorithms without properties do not reset the pointer algo_ of the properties, so that a change of a property of a ready fiber calls the old algorithm after it has been destroyed (C105_refuted_freed); fibers keep property objects of another type when the algorithm is replaced, and awakened() casts them statically (C105_refuted_type); with a property object given to the constructor under an algorithm without properties algo_ is nullptr (C105_refuted_unset). Proved if all algorithms and property objects are of the same type: every call is right, and each change of a ready fiber is reported once. |
| C106 | When join() returns, the cleanup functions of fiber-local storage have run | src/context.cpp:228-243, src/context.cpp:264-280 | terminate() wakes the joining fibers before it runs the cleanup functions, and a fiber that is woken does not acquire splk_ again, so that join() on another thread may return before the first cleanup function has run (C106_refuted); on one thread this happens if a cleanup function suspends its fiber (C106_refuted_yield). Proved for all executions: join() returns after the function has returned, each cleanup function runs at most once and all of them have run at the end, and a join() that finds the fiber terminated returns after the last one. Proved if no cleanup function suspends: a joining fiber of the same thread returns after the last one. |
| C107 | join() of a fiber that has terminated does not hang | src/context.cpp:228-243, src/context.cpp:264-280 | the cleanup functions run while terminate() holds splk_; if one of them suspends its fiber and another fiber of the same thread calls join(), that fiber spins on splk_ for ever and the thread never runs anything else (C107_refuted: in all continuations). Proved for all executions: nobody waits for a terminated fiber, a woken fiber returns when resumed, and the fiber that has the processor can go on unless it spins for a lock that is held. Proved if no cleanup function suspends: a spinning join() acquires the lock at once or after a bounded number of steps of the ending fiber, which has the processor of another thread. |
| C108 | A condition variable can be destroyed when all waiting fibers have been notified | include/boost/fiber/condition_variable.hpp:49-133, src/condition_variable.cpp:18-28 | if the deadline of a fiber in wait_until() passes before the notification, suspend_and_wait_until() locks the spinlock of the condition variable again to remove the waker, which may be after the condition variable has been destroyed under the documented precondition (C108_refuted). Proved for all uses under that precondition: the queue is empty at the destruction and only fibers whose deadline has passed access the destroyed object; if nobody is in wait_for() or wait_until() at the destruction, nobody accesses it. |
| C109 | A promise can be destroyed when get() of its future has returned | include/boost/fiber/future/detail/shared_state.hpp:46-61, include/boost/fiber/future/detail/shared_state.hpp:83-86 | set_value() unlocks the mutex of the shared state before it notifies the condition variable in it; a fiber on another thread can see the result in between and drop the last references, so that a freed condition variable is notified (C109_refuted; the comment in examples/adapt_callbacks.cpp:154-155 says that this should not happen). Proved: this notification is the only such access; none if all fibers are on one thread, or if the promise is destroyed by the fiber that calls set_value(). |
| C110 | The owner of a mutex is accessed without data races | src/mutex.cpp:24-75, src/timed_mutex.cpp:23-94 | try_lock() reads owner_ again after it has released the spinlock (mutex.cpp:57-60), while another fiber may be writing it (C110_refuted); owner_ is not atomic. Proved: this read is the only racing access, there is no race without try_lock(), and the value returned by try_lock() is right if the racing read yields a value that was stored. |
| C111 | wait_first_...() delivers the first outcome | examples/wait_stuff.cpp:192-237, examples/wait_stuff.cpp:255-323 | with more functions than the channel has room for (63), a fiber that waits for room is overtaken by one that ends later (C111_refuted: wait_first_success() with 65 functions). Proved: on one thread wait_first_value() and wait_first_outcome() deliver the first outcome for any number of functions, wait_first_success() the first success if the channel has room for all; on any number of threads the value is one of a function that has ended, exceptions are thrown only if all functions throw, each once, and the call always ends. |
| C112 | wait_all_values(), wait_all_until_error() and wait_all_collect_errors() return the values of all functions | examples/wait_stuff.cpp:562-592, examples/wait_stuff.cpp:597-667 | the counter of nchannel is not atomic; if two fibers on two threads decrement it at the same time the channel is never closed and the call waits for ever (C112_refuted). Proved: what the call returns or throws is right for any number of functions and threads (wait_all_until_error(): the first exception on one thread if the channel has room for all outcomes, otherwise some exception), and on one thread the call always ends. |
| C113 | The fibers launched by wait_first_...() and wait_all_...() end | examples/wait_stuff.cpp:192-237, examples/wait_stuff.cpp:562-592 | wait_all_until_error() does not close the channel when it throws; with 65 functions the fiber of the last one waits for room for ever (C113_refuted). Proved: all fibers of wait_first_...() end, on any number of threads; on one thread also those of wait_all_values() and wait_all_collect_errors(), and those of wait_all_until_error() if the channel has room for all outcomes but one; every execution is finite. |
| C114 | wait_first_simple() and wait_all_simple() return when the first function or all functions have ended | examples/wait_stuff.cpp:120-174, examples/wait_stuff.cpp:508-546 | wait_first_simple() without functions waits for ever although the comment promises to return immediately (C114_refuted). Proved: wait_first_simple() returns only after a function has ended and can return without any other function ending, wait_all_simple() returns only after all functions have ended, and with at least one function (wait_all_simple(): with any number) the call always ends. |
| C116 | Publish/subscribe server: every message reaches every subscriber | examples/asio/ps/server.cpp:31-50, examples/asio/ps/server.cpp:132-217 | cond_.wait() is called without a predicate and data_ has room for one message, so a message that is published while the fiber of the subscriber writes the previous one is never written (C116_refuted). Proved: what is written is in all executions a subsequence of the messages published while the session was subscribed, in order; everything is written if publishers do something only when no subscriber is busy; a notified fiber goes on with the stored message. |
| C117 | Publish/subscribe server: a queue exists as long as its publisher is connected | examples/asio/ps/server.cpp:52-129, examples/asio/ps/server.cpp:235-296 | a publisher whose registration is refused because the queue exists unregisters this queue at the end of its session, so that the next publication of the rightful publisher throws (C117_refuted). Proved for publishers with different names that are not empty: the queue exists, only its publisher publishes on it, and no registration or publication fails. |
| C118 | Publish/subscribe server: subscriber sessions end with their queue | examples/asio/ps/server.cpp:69-72, examples/asio/ps/server.cpp:83-88 | the message <fini> that is published when the queue is destroyed is missed by a session whose fiber is writing; the fiber waits for ever (C118_refuted). Proved: the sessions end if publishers do something only when no subscriber is busy; a session that has ended is in no queue in all executions. |
| C119 | Publish/subscribe server: messages are passed on unchanged without reading behind the buffers | examples/asio/ps/server.cpp:23, examples/asio/ps/server.cpp:161 | the arrays are converted to std::string up to the first zero, and 1024 bytes without a zero make the server read behind the array (C119_refuted). Proved: for blocks with a zero exactly the text before it is passed on, and the buffers are overrun only by blocks without a zero. |
| C120 | Adapted nonblocking operation: read() returns the desired data or all there is | examples/adapt_nonblocking.cpp:52-97, examples/adapt_nonblocking.cpp:103-126 | if more bytes are desired than there are and the last chunk is shorter than the others, substr( size) throws std::out_of_range (C120_refuted); with chunks of length 0 read() does not end (C120_loop_refuted). Proved: no byte is lost or read twice, with errors at any time; std::out_of_range is thrown only in the case above; with chunks that are not empty and without errors read() ends after a bounded number of tries and otherwise returns the right bytes. |
| C122 | Thread channel of the benchmarks: a linearizable bounded FIFO queue | performance/thread/buffered_channel.hpp:75-128, performance/thread/buffered_channel.hpp:131-141 | with capacity 1, which the constructor accepts, the cycle of a slot with a value (idx + 1) is the cycle of the free slot for the next producer; the second push() overwrites the value (C122_refuted) and value_pop() spins for ever (C122_loop_refuted). Proved for all other accepted capacities, under sequential consistency. |
| C123 | Thread channel of the benchmarks: nobody is left asleep | performance/thread/buffered_channel.hpp:65-73, performance/thread/buffered_channel.hpp:164-169 | value_pop() notifies without the mutex, so a producer about to wait misses it (C123_refuted); with several producers and consumers a notification wakes a consumer that finds the first slot unpublished and is spent (C123_pop_refuted). Proved: close() releases everybody; the mutex causes no deadlock; a single consumer is not left asleep while there is a value. |
| C124 | What precedes close() happens before an operation that finds the channel closed | include/boost/fiber/unbuffered_channel.hpp:107-126, include/boost/fiber/buffered_channel.hpp:85-104 | unbuffered_channel::close() sets the flag by exchange( true, std::memory_order_acquire), which does not release, so a push() or is_closed() that reads true does not synchronize with close() (C124_refuted). It holds for operations that were waiting when close() woke them (C124_partial) and for buffered_channel (C124_buffered_partial). |
| C126 | A packaged_task may be used by its own function | include/boost/fiber/future/packaged_task.hpp:117-132, include/boost/fiber/future/detail/task_object.hpp:56-94 | operator() does not hold a reference to the shared state and reset() moves the function object of the old state: reset() from the function destroys the executing function object and the outcome is stored into freed memory (C126_refuted); dropping the packaged_task meanwhile delivers broken_promise and lets operator() throw promise_already_satisfied (C126_refuted_broken), as a nested call does (C126_refuted_nested). It holds for functions that do not reset, drop or call the packaged_task (C126_partial); if the future is kept and the task is not called, only dropping it before a reset() breaks it (C126_kept_future_partial). |
| C127 | Skynet benchmarks compute the sum of all numbers and terminate | performance/fiber/skynet_join.cpp:31-53, performance/fiber/skynet_stealing_join.cpp:43-65 | skynet_join.cpp and skynet_shared_join.cpp join the children before taking their values from rc{ 16 }, which holds 15 values: for div > 15 no execution delivers a value (C127_refuted). The value is right whenever there is one (C127_sum_partial), every execution is finite (C127_ends_partial), and there is no deadlock in the variants that take the values first, nor for div <= 15 (C127_no_deadlock_partial). |
| C128 | A channel can be destroyed when the value of every push() has been received | performance/thread/skynet_std.cpp:25-35, performance/thread/buffered_channel.hpp:176-181 | The property is false of the channel for threads: push() publishes the value first and locks mtx_ to notify afterwards; by then the receiver may have destroyed the channel (C128_refuted; for every number of producers C128_refuted_all). It holds for fibers::buffered_channel, whose push() accesses the channel only under the spinlock (C128_partial). |
| C129 | topology() lists every CPU once and gives correct distances on all systems | src/numa/windows/topology.cpp:91-127, src/numa/solaris/topology.cpp:22-74 | on Solaris a locality group with memory of its own lists the CPUs of its descendants, too, so that CPUs are in several nodes; the distances compare the number of the node with the position, so that with gaps in the numbers (Solaris, AIX, Windows) a node is not at distance 10 from itself. Proved: FreeBSD; Windows if no processor is reported for two nodes (distances if the nodes are numbered without gaps); Solaris (CPUs) if memory is at the leaves; AIX (CPUs) if no processor is in two rads. |
| C131 | A mutex can be destroyed by the fiber that uses it last | src/mutex.cpp:24-75, include/boost/fiber/mutex.hpp:44-47 | The property is false of the code with the futex spinlock: unlock() of the spinlock calls futex_wake() with the address of the spinlock after it has been released, which may be after the destruction of the mutex by the last user (C131_refuted). Proved: with the other spinlocks nothing accesses the destroyed mutex (C131_partial); with the futex spinlock only this system call gets its address and the memory is not accessed (C131_futex_partial); the assertions of the destructor hold (C131_destructor_partial). |
| C132 | A fiber waiting in push() or pop() of a buffered channel gets its turn under fair scheduling | include/boost/fiber/buffered_channel.hpp:145-188, include/boost/fiber/buffered_channel.hpp:277-320 | push() and pop() wake the first waiter but do not hand the value or the slot over, so a fiber that repeats { push(); pop(); yield(); } takes its own value each time before the woken fiber runs, for ever, and a fiber that repeats { pop(); push(); yield(); } keeps the channel full; under round robin on one thread and for every capacity (C132_refuted_pop, C132_refuted_push). Proved: a waiting fiber that runs while there is a value (space) or the channel is closed returns within two steps (C132_partial). |
| C133 | The bounded queue of the benchmark channel is free of data races and passes messages | performance/thread/buffered_channel.hpp:75-117, performance/thread/buffered_channel.hpp:131-140 | The property is false of the code for capacity 1, which the constructor accepts: the cycle idx + 1 that publishes a value is also the cycle at which the slot is free for the next producer, so a second push() overwrites the value while a value_pop() reads it. For capacities from 2 on all parts are proved with the memory orders of the code, for indices that do not wrap around. |
| C140 | A fiber::id identifies one fiber | include/boost/fiber/context.hpp:175-227, include/boost/fiber/context.hpp:379-389 | an id is the address of the context, and the memory of an ended fiber's context is reused, so a saved id of an ended fiber can equal the id of a new fiber (C140_refuted), and autoecho.cpp gives the new fiber the old name (C140_names_refuted). Proved: ids of fibers whose contexts exist when they are compared are equal exactly for the same fiber; ids of the same fiber are always equal and never equal not-a-fiber; the self test of join() is exact in all executions; a wrong name is always that of a fiber whose context is gone, a fiber keeps its name, and names made for different fibers are different; operator< is a strict total order that agrees with operator== (addresses are modelled as numbers). |
| C141 | Echo example: every client gets its messages back and the program ends | examples/asio/autoecho.cpp:123-151, examples/asio/autoecho.cpp:156-176 | a client whose connection is closed returns without barrier.wait(), so that the others wait for ever (C141_lost_refuted); sessions that still wait for their connections when the io_context is stopped are never resumed, and the scheduler waits for them when main ends, be it because another program is connected (C141_left_refuted) or because the end of a client's connection has not arrived yet (C141_late_refuted); one read_some() may return a part of the message (C141_short_refuted). Proved: these are the only ways to hang; there is no infinite execution without other programs; every reply is a non-empty initial part of the message; the acceptor is closed at most once, after all replies. |
| C143 | A fiber waiting in push() or pop() of an unbuffered channel gets its turn under round-robin scheduling | include/boost/fiber/unbuffered_channel.hpp:72-95, include/boost/fiber/unbuffered_channel.hpp:128-193 | The property is false of the code, for every value type and even on a single thread with round_robin: a woken producer (consumer) competes for slot_ with fibers that are already in the ready queue and goes to the end of the waiting queue when it loses. With two producers { push(v); yield(); } and one consumer { pop(); yield(); } the push() of a third producer never returns; with one producer { push(v); } and one consumer { pop(); yield(); } the pop() of a second consumer never returns. The _partial theorems: a fiber that was waiting and runs while slot_ is empty offers its value in three steps; one that runs while a value is offered returns it in five steps. Missing: that slot_ is still in that state when the woken fiber is resumed. |
| C144 | Asio scheduler: the timer is used by one thread at a time | examples/asio/round_robin.hpp: suspend_until, notify, src/scheduler.cpp: schedule_from_remote, dispatch | notify() is called by the waking thread after the spinlock was released and uses suspend_timer_ while the dispatcher or another waking thread is inside it. Proved: no overlap without wake-ups by other threads; if the member functions of the timer were atomic, every notify() that has returned has its handler ready, each handler is made ready at most once, and after suspend_until(t) a handler is ready at t at the latest. |
| C146 | A wake-up from another thread does not use a destroyed scheduler | src/scheduler.cpp: schedule_from_remote, dispatch, ~scheduler, src/context.cpp: wake | schedule_from_remote() calls algo_->notify() after it has released remote_ready_splk_; the dispatcher may have fetched the fiber by then, the thread may have ended (for example the threads of examples/work_sharing.cpp, which poll). Proved: the fiber is enqueued before the destruction; only wake-ups under way at the destruction access the scheduler afterwards, each once; no wake-up is lost. |
| C147 | The publisher client sends every typed line and nothing else | examples/asio/ps/publisher.cpp:40-45, examples/asio/ps/server.cpp:273-285 | nobody looks at the state of std::cin, so after the end of the input, and after a line of 1024 bytes or more, the client sends empty messages for ever and the rest of the input is lost. Proved: up to there, each line shorter than the buffer is exactly one message; what is sent afterwards; every block stays inside the array. |
| C148 | The name a publish/subscribe client is started with is the name of its queue | examples/asio/ps/publisher.cpp:35-39, examples/asio/ps/subscriber.cpp:35-39 | memcpy() takes the size of the name, so a longer name is copied behind the buffer, and one of exactly 1024 bytes has no terminating zero. Proved for all shorter names, and exactly which names overflow. |
| C149 | The subscriber client shows one line per message | examples/asio/ps/subscriber.cpp:40-46, examples/asio/ps/server.cpp:182-185 | read_some() returns whatever has arrived and the messages have no separator, so two messages may be shown in one line and one in several. Proved: all bytes are shown once and in order; one line per message if each read returns one message. |
| C150 | The function of a packaged_task gets the arguments of the call | include/boost/fiber/future/detail/task_object.hpp:56-74, include/boost/fiber/future/packaged_task.hpp:117-122 | run() builds the arguments with std::make_tuple(), which copies the objects, so a function that returns a reference to its argument leaves a dangling reference in the future. Proved: the function gets exactly one copy per argument; functions that use values only behave as called directly; where the reference dangles; a throwing copy constructor ends in the future. |
| C154 | A loop over a channel ends regularly only if the channel is closed | include/boost/fiber/buffered_channel.hpp:364-390, include/boost/fiber/unbuffered_channel.hpp:400-426 | the constructor of the iterator is noexcept although it receives the first element, so an exception there calls std::terminate(); and catch ( fiber_error const&) also catches a fiber_error thrown by an element, which ends the loop as if the channel were closed. Proved: in all other cases the loop behaves as wanted; exactly where std::terminate() is called; where the exception is swallowed; the body is only given living elements. |
| C156 | Skynet benchmarks with futures compute the sum and terminate | performance/fiber/skynet_stealing_async.cpp:43-67, performance/thread/skynet_async.cpp:34-56 | it is proved, with a bound on the number of steps, if size is a power of div and div is at least 2. If size is not a power of div numbers are lost (6 numbers with div 4 give 6 instead of 15), with 1 < size < div the call launches further calls for ever, with div 0 it divides by zero. |
| C21 | Buffered channel strands nobody (timed operations mixed in) | include/boost/fiber/buffered_channel.hpp: push_wait_until, pop_wait_until, src/waker.cpp: wait_queue::suspend_and_wait_until | The property is false of the code (C21_refuted, C21_refuted_push); proved for executions in which no timed operation has reported a timeout (and no waiting operation an exception, C93). |
| C24 | Unbuffered channel: a failed push did not transfer its value | include/boost/fiber/unbuffered_channel.hpp: push, push_wait_until, close | The property is false of the code (C24_refuted for close, C24_refuted_timeout for the deadline). Proved: the value is not transferred after the push has returned, and a push called after close() returned never transfers. |
| C25 | Unbuffered channel: consumers never touch a dead producer's stack slot | include/boost/fiber/unbuffered_channel.hpp: push, push_wait_until, close, pop | The property is false of the code (C25_refuted: close() leaves slot_ dangling; C25_refuted_timeout). Proved while close() has not been called and no push has reported a timeout. |
| C27 | Unbuffered channel: rendezvous happens with timed operations | include/boost/fiber/unbuffered_channel.hpp: push_wait_until, pop_wait_until | a push that times out empties the slot without notifying waiting producers. Proved for executions in which no operation has reported a timeout. |
| C28 | Unbuffered channel: close releases everybody | include/boost/fiber/unbuffered_channel.hpp: close, push, pop | close() between is_closed() and try_push_() of a push leaves that push blocked. Proved: pops are never left blocked; only pushes called before close() returned can be; two of them only while a pop is going on. |
| C34 | packaged_task::reset abandons the old state properly | include/boost/fiber/future/packaged_task.hpp: reset, ~packaged_task | reset() drops the old state without broken_promise. Proved: reset() is the only cause, and such a state is never satisfied and its readers never return. |
| C47 | work_stealing::pick_next returns | src/algo/work_stealing.cpp: pick_next, src/numa/algo/work_stealing.cpp: pick_next | with no other CPU in the list of local CPUs (work_stealing with thread_count = 1; numa work_stealing on a node with one CPU, even if other nodes have ready fibers) the inner loop that draws a victim never ends (C47_refuted, C47_refuted_numa, C47_forever). Proved otherwise: every round that draws another scheduler counts towards the bound \|local\| + \|remote\|, under any interference, and such rounds are possible from every state. That the random generator makes such draws is not modelled. |
| C52 | Fiber-local clean-up function is only called on stored objects | include/boost/fiber/fss.hpp: release, reset, ~fiber_specific_ptr, src/context.cpp: set_fss_data, terminate | release() on an empty pointer leaves an entry that is cleaned up with nullptr. Proved: it holds if no fiber releases or destroys a pointer in which it has no value. |
| C55 | NUMA: sysfs CPU lists are parsed to exactly the listed CPUs | src/numa/linux/topology.cpp: ids_from_line | a range that ends at 2^32-1 never ends the loop. Proved for all other lists. |
| C56 | Channel iterators construct and destroy each received value once | include/boost/fiber/buffered_channel.hpp: iterator, include/boost/fiber/unbuffered_channel.hpp: iterator | operator++ destroys the element and increment_() destroys it again (every element that is advanced past is destroyed twice, C56_advance_destroys_twice); an iterator dropped before the end never destroys its element; a copy of an iterator refers to raw memory. Proved: a loop over the whole channel sees the popped values in order, each once and alive, and ends when value_pop() throws (C56_loop_partial). |
| C57 | Installing a scheduling algorithm keeps the ready fibers | src/scheduler.cpp: set_algo | replacing shared_work by shared_work while a worker is ready never ends; if another thread takes the last ready context between has_ready_fibers() and pick_next(), awakened( nullptr) is called. Proved: without interference and not shared_work to shared_work, all ready contexts are moved in order and the call ends (C57_moved_partial); from round_robin it ends under any interference (C57_round_robin), and nothing is lost (C48). |
| C59 | try_lock_until with a passed deadline behaves as try_lock | src/timed_mutex.cpp: try_lock_until_, src/recursive_timed_mutex.cpp: try_lock_until_ | a free mutex is refused when the deadline has passed. Proved: with a deadline that has not passed a free mutex is acquired at once; with a passed one the call returns false at once and changes nothing. |
| C60 | try_lock_until by the owner reports the deadlock | src/timed_mutex.cpp: try_lock_until_, doc/mutexes.qbk | the owner waits for the deadline and gets false. Proved: a call by the owner always ends with false, never before the deadline, and leaves its ownership unchanged. |
| C61 | Timed push does not trip the scheduler's assertion | include/boost/fiber/unbuffered_channel.hpp: push_wait_until, pop, src/scheduler.cpp: wait_until, schedule_from_remote | timed push woken before it suspends. Proved for executions without timed push. |
| C62 | get() never reads a value that was not stored | include/boost/fiber/future/detail/shared_state.hpp: set_exception_, get_, include/boost/fiber/future/promise.hpp: set_exception | after set_exception(nullptr) get() returns the unconstructed storage. Proved: this is the only way. |
| C63 | The function of a packaged_task runs at most once per shared state | include/boost/fiber/future/detail/task_object.hpp: run, include/boost/fiber/future/packaged_task.hpp: operator() | the function runs again and then promise_already_satisfied is thrown. Proved: only one outcome is stored. |
| C64 | A scheduler is not used after it has been deleted | src/scheduler.cpp: schedule_from_remote, ~scheduler, src/context.cpp: context::wake, context::schedule | notify() is called after the lock of the remote-ready queue was released; the scheduler may be deleted by then. Proved: this is the only error of the modelled code, and it occurs only there. |
| C65 | Remote wake-up during shutdown respects the assertion | src/scheduler.cpp: schedule_from_remote, ~scheduler, dispatch | the assertion fails when a fiber is woken by another thread during shutdown. Proved: the wake-up is delivered all the same. |
| C66 | NUMA: topology() lists every online CPU once | src/numa/linux/topology.cpp: topology | a CPU without node entry is dropped if another one has an entry. Proved: it holds if all CPUs or none have an entry. |
| C67 | NUMA: an unreadable CPU list yields an empty topology | src/numa/linux/topology.cpp: topology, ids_from_line | std::stoul throws std::invalid_argument for the empty line. Proved: which lists reach the branch. |
| C68 | active() always returns a live context | src/context.cpp: context_initializer, context::active | after the thread-local object of active() was destroyed, active() returns nullptr. Proved: it holds before. |
| C69 | Objects stored by a main fiber are cleaned up when it ends | src/context.cpp: context::terminate, context_initializer, include/boost/fiber/fss.hpp | nothing cleans up the objects of a main fiber. Proved for worker fibers (C51_exit). |
| C70 | Every ready context gets its turn | src/algo/shared_work.cpp: pick_next, awakened, src/algo/round_robin.cpp: pick_next | with the lock-free queue pop() takes the newest element, so a yielding fiber is picked again at once (C70_refuted_spmc); with shared_work two workers that only yield keep the main and the dispatcher context of the thread from running for ever, although both are ready. Proved for round_robin and work_stealing (C70_turn_partial): the context runs after as many calls of pick_next as there are contexts before it, plus one. |
| C71 | Critical sections are ordered by happens-before | include/boost/fiber/detail/spinlock_ttas.hpp: lock, unlock, include/boost/fiber/detail/spinlock_ttas_adaptive.hpp: lock, unlock | The property is false of the futex based spinlocks: unlock() without waiters is fetch_sub( 1, memory_order_acquire), which does not release. Proved for spinlock_ttas and spinlock_ttas_adaptive (C71_ttas), and for unlock() with waiters (C71_futex_partial). |
| C72 | The adaptive spinlocks estimate the number of retries | include/boost/fiber/detail/spinlock_ttas_adaptive.hpp: lock, include/boost/fiber/detail/spinlock_ttas_adaptive_futex.hpp: lock | The property is false of spinlock_ttas_adaptive: ( retries - prev_retries) / 8 is unsigned and wraps when the new observation is smaller (C72_refuted: 2^61 after two calls). Proved for spinlock_ttas_adaptive_futex (C72_futex). |
| C73 | The lock-free ready queue touches only contexts that are in it | include/boost/fiber/detail/context_spmc_queue.hpp: pop, steal, array::resize | a thief overtaken between its load of top_ and its load of array_ reads a cell of the new array that resize() did not copy (null, C73_refuted_null); a thief accesses a context that pop() has already handed out (C73_refuted_taken); pop() before any push() fails (C73_refuted_fresh). Proved: the owner is safe once something was pushed, a thief is safe as long as top_ is unchanged. |
| C74 | The barrier of threads releases nobody early and strands nobody | include/boost/fiber/detail/thread_barrier.hpp: wait | cycle_ is a bool, so with more than n threads a waiter that misses two rounds finds its old value again and stays in a completed round (C74_refuted), for ever if nobody calls wait() again (C74_refuted_for_ever). Proved for any number of threads: nobody returns early, exactly the last call of a round returns true. Proved for at most n threads: nobody is stranded. |
| C75 | work_stealing objects register themselves without gaps | src/algo/work_stealing.cpp: work_stealing, init_, include/boost/fiber/detail/thread_barrier.hpp: wait | counter_ is never decremented, so for every thread_count n construction number n+1 in the life of the program writes behind the end of schedulers_ (C75_refuted), e.g. when a second pool of threads is started. Proved: when a constructor returns, all entries are set and different; at most n constructions stay within bounds. |
| C77 | Destroying the scheduler of a thread runs its fibers to completion | src/scheduler.cpp:97-137, src/algo/shared_work.cpp:24-37 | awakened() of shared_work and work_stealing detaches the context, so worker_queue_ is empty although a fiber is ready, and the dispatcher leaves its loop. Proved for round_robin, and for every context that is attached (for example blocked) when the dispatcher ends. |
| C78 | waitfor_all() for one stream returns the reported status and leaves no access behind | include/boost/fiber/cuda/waitfor.hpp:42-74, include/boost/fiber/cuda/waitfor.hpp:120-124 | the callback calls notify_one() after unlock(), the caller may have returned and destroyed the condition variable. Result and wake-up are proved for all executions; freedom from the access under the condition that the caller does not return in that window. |
| C79 | waitfor_all() for several streams returns one result per stream | include/boost/fiber/cuda/waitfor.hpp:77-114, include/boost/fiber/cuda/waitfor.hpp:126-131 | The property is false of the code in three ways: a callback or a failed registration erases the node the iterator of the constructor points to, and notify_one() after unlock(). Result and wake-up are proved for all executions that have been free of undefined behaviour so far; freedom from it for executions where registrations succeed and callbacks come after the constructor and before the return. Simplified: a data race on the set that does not hit the node of the iterator is not counted as undefined behaviour. |
| C80 | A wait for a duration does not end before the duration has passed | include/boost/fiber/operations.hpp:45-49, include/boost/fiber/timed_mutex.hpp:66-69 | now() + duration overflows for large durations, and the wrapped deadline is in the past. Proved for all sums that can be represented. |
| C81 | A wait until a time point of another clock does not end before that clock has reached it | include/boost/fiber/detail/convert.hpp:25-35 | the steady clock may be read before the other clock, which makes the deadline early by the time in between; time_point::min() of the system clock overflows to a deadline centuries ahead. Proved: the exact bounds of the error, and the property if the other clock is read first and nothing overflows. |
| C82 | Properties can be used on every fiber of an algorithm with properties | include/boost/fiber/fiber.hpp:215-220, src/properties.cpp:22-34 | The property is false of the code for fibers started with launch::dispatch that have not been ready yet: no properties (assertion in fiber::properties()), or properties without algorithm (assertion in notify()). Proved for every fiber that has been ready once, which includes all started with launch::post. |
| C84 | A fiber whose timer has expired becomes ready although other fibers keep yielding | examples/priority.cpp:97-135, src/scheduler.cpp:122-168 | the dispatcher, which handles timers, has priority 0 and starves. Proved: if nobody ready has a higher priority than the dispatcher, it runs after at most as many yields as there are ready contexts. |
| C86 | try_lock() of the eliding spinlock fails only if the lock is not free | include/boost/fiber/detail/spinlock_rtm.hpp: try_lock | any abort of the transaction makes try_lock() fail, and there is no fall-back to the real lock. Proved: without an abort it returns true on a free lock. |
| C88 | Unbuffered channel: a throwing move does not strand the producer | include/boost/fiber/unbuffered_channel.hpp: pop, value_pop, pop_wait_until, push | the exception leaves pop between try_pop_() and s->w.wake(), so a producer blocked in push stays blocked in every continuation, also if the channel is closed (C88_strands, for every reachable state). Proved: only producers whose own value was concerned are lost; for the others the rendezvous guarantee (C27) holds. |
| C90 | An idle thread does not sleep while there is a ready fiber that it could run | src/algo/shared_work.cpp:21-92, src/algo/work_stealing.cpp:49-115 | awakened() of shared_work and work_stealing does not notify other threads, so with suspend = true any number of fibers can become ready while another thread of the same pool sleeps (C90_refuted_shared, C90_refuted_stealing), and if the thread that made them ready ends, all others sleep for good (C90_refuted_all). Proved: the own queue of a sleeping thread is empty (so the property holds for round_robin), no wake-up from another thread is lost, no thread sleeps without suspend, and as long as no thread has ended one of the threads is awake while a fiber is ready. |
| C91 | A waiter of a mutex gets it under fair scheduling | src/mutex.cpp:24-42, src/mutex.cpp:63-75 | unlock() wakes the first waiter but does not hand the mutex over, so a fiber that repeats { lock(); yield(); unlock(); } takes it again before the woken fiber runs, for ever, under round robin on one thread and for all four classes. Proved: a waiter that runs while the mutex is free gets it within two steps. |
| C93 | Buffered channel strands nobody when element operations throw | include/boost/fiber/buffered_channel.hpp:145-188, include/boost/fiber/buffered_channel.hpp:278-320 | a producer (consumer) that has been woken by notify_one() and whose copy (move) throws leaves push() (pop()) without passing the notification on; another producer stays blocked although the channel is empty, and the consumer waits for it (C93_refuted). Proved: exceptions out of try_push() and try_pop() strand nobody. |
| C94 | value_pop() loses no value when the element type throws | include/boost/fiber/buffered_channel.hpp:298-320 | value_pop() takes the value out of the channel (cidx_ is advanced, a producer notified) before the value is returned; if the move of the return statement is not elided and throws, the value is gone. Proved: what is delivered is a sublist of what was accepted, and a value is lost only if a value_pop() has ended with an exception. |
| C95 | Objects in fiber-local storage are destroyed exactly once, also if cleanup functions use fiber-local storage | src/context.cpp:264-280, src/context.cpp:349-372 | terminate() iterates over the map while cleanup functions change it, and set_fss_data() uses its iterator after the cleanup function. An object stored by a cleanup function in a pointer object at a lower address is never cleaned up (C95_refuted_leak), release() of the own pointer object invalidates the iterator (C95_refuted_undefined), reset( nullptr) of the own one recurses for ever (C95_refuted_recursion). Proved: exactly once, defined and terminating if cleanup functions modify only pointer objects at higher addresses; nothing undefined if they only store objects. |
| C96 | get() returns no pointer to a destroyed object | src/context.cpp:264-280, src/context.cpp:342-372 | terminate() and reset() leave the pointer in the map while (and, in terminate(), after) its object is destroyed, so a cleanup function that calls get() receives a dangling pointer. Proved: get() returns live objects only if cleanup functions use only pointer objects at higher addresses. |
| C97 | An exception out of a cleanup function does not lead to a second cleanup | src/context.cpp:349-372, src/context.cpp:264-280 | the exception leaves reset() before the element is changed, so the same object is handed to the cleanup function again by the next reset() or at the end of the fiber, where terminate() is noexcept and the program ends. Proved: the exception leaves reset() with the storage unchanged. |
| C98 | The lock-free ready queue is correct under the C++ memory model | include/boost/fiber/detail/context_spmc_queue.hpp:121-136, include/boost/fiber/detail/context_spmc_queue.hpp:138-164 | push() stores the pointer to a new array with memory_order_relaxed and no release fence after the construction, so a thief that read bottom_ before can load the new pointer without the construction happening before, and find a null pointer although nobody took anything; and a thief that was overtaken reads (relaxed) a context that was pushed later and asks for its type without happens-before. Proved for all executions without the first kind of access, in particular as long as the first array is not replaced: exactly once, publication, nothing lost, null found only by a thief that was overtaken. |
| C99 | Asio yield: an asynchronous operation resumes its fiber once, with its result | examples/asio/detail/yield.hpp:33-76, examples/asio/detail/yield.hpp:88-132 | when the handler objects are destroyed without a call (the io_context is shut down or destroyed with pending operations) nothing marks the completion, and the suspended fiber is never resumed (C99_refuted). Everything else is proved: results, single wake-up, lifetimes, deletion, and that the call returns once the handler has been called. |

## Trusted base

1. **The Coq 8.16.1 kernel** (including its `vm_compute`, used by the refutations and the examples). No plugin, no native compilation.
2. **Axioms.** `Print Assumptions` answers "Closed under the global context" for each of the 595 theorems named in MANIFEST.json
   (the command stands after the theorems in the Properties files). `coqchk -o` lists in addition axioms of loaded standard library
   modules (`ssrunder`'s `Under_rel`); no theorem depends on them. The development has no axiom, no section-less variable, no admitted
   proof, no functor.
3. **The correspondence of the model with the C++**, definition by definition; each definition of a model file cites the lines it describes.
   It is by reading, nothing has been extracted from the source or run against it.
4. **The specifications** (`*Spec.v` and the statements), which say what the English sentences mean.

### Memory model

All models interleave atomic steps (sequential consistency), with six exceptions. `SpmcWeak` runs the ready queue, `UnbufWeak` the slot and the wait queues of an open unbuffered channel, and `ThChanWeak` the bounded queue of performance/thread/buffered_channel.hpp, with the memory orders of the code (histories of stores and happens-before). `Ttas` and `FutexLock` track which critical
sections happen before which by release/acquire views, and relaxed loads of the lock word may return old values there. This justifies one atomic
step per critical section for spinlock_ttas and spinlock_ttas_adaptive (C49, C71); for the futex variants the code does not justify it (C71
refuted), and the other theorems hold for them on machines where a fetch_sub is a full barrier (x86). `MutexHb`, `BarrierHb`, `FutureHb` and `BufHb` track happens-before through mutexes, condition variables, barriers, shared states and buffered channels, `SwitchHb` through context switches, wakeups, migration and join(). `CloseSync` and `RefCount` do the same for `closed_` and the reference counts.
In the other models lock-free data is accessed step by step, but with sequential consistency.

### Modelled code, file by file

| File (include/boost/fiber or src) | Model | Not in the model |
|---|---|---|
| waker.hpp, waker.cpp | Kernel: `waker::wake`, all of `wait_queue` | memory orders of waker_epoch_ |
| mutex, timed_mutex, recursive_mutex, recursive_timed_mutex (.hpp, .cpp) | Mutex, OwnerRace (single accesses to owner_), MtxLife (destruction by the last user), MutexHb (happens-before) | lock_error is an outcome, not a C++ exception |
| condition_variable.hpp, .cpp | CondVar, Client, PredWait, CvLife (lifetime), MutexHb (happens-before); waits with a deadline included | other lock types than boost::fibers::mutex, `notify_all_at_thread_exit` does not exist |
| barrier.hpp, .cpp | Barrier, BarrierHb (happens-before) | wrap-around of cycle_ (size_t), constructor error |
| buffered_channel.hpp | Buffered, CloseSync (what close() synchronizes with), BufHb (happens-before), BufLost (throwing return of value_pop), Iter (iterators) | copies and moves that throw after having changed source or destination |
| unbuffered_channel.hpp | Unbuffered, UnbufFair (with the ready queue of round_robin), CloseSync (memory orders of closed_), UnbufWeak (memory orders of slot_), UnbufThrow (moves that throw), Iter | - |
| future/*.hpp, future/detail/*.hpp, future.cpp | SharedState (one state, blocking operations), FutureObj (objects, ownership), PromLife (destruction during set_value()), FutThrow (constructors of the value throw), PtReent (functions that use their packaged_task), FutureHb (happens-before) | allocators, throwing moves of the result, async() itself (= packaged_task + fiber), `shared_state<R&>` as a separate type |
| fiber.hpp, fiber.cpp, operations.hpp | Sched, Handle (handle objects), FiberMake (constructor) | ids as text |
| context.hpp, context.cpp | Kernel (epoch), SwitchHb (happens-before), Sched (states, join, terminate, reference count), Init (runtime of a thread), StackPlace (control block), FiberMake (ownership of function, arguments, properties, stack; exceptions of copies), Fss, Deadline | the switch of stacks (Boost.Context), unwinding |
| scheduler.hpp, .cpp | Sched (round_robin), Drive (all algorithms), Idle (their suspension); SchedKern relates Sched to Kernel (C89); SwitchHb (happens-before) | |
| algo/algorithm.hpp, round_robin, shared_work, work_stealing (.hpp, .cpp) | Algo, WsCtor | condition variable of suspend_until() is a flag that wakes the thread (Sched, Idle) |
| numa/algo/work_stealing, numa/topology.hpp, src/numa/linux/topology.cpp | Algo, Numa | node distances, reading of files, pin_thread |
| src/numa/{windows,solaris,aix,freebsd}/topology.cpp, src/numa/windows/pin_thread.cpp | NumaOs | failing system calls, the iterator over the buffer of Windows, 32-bit overflow of CPU numbers; pin_thread() of the other systems; src/numa/hpux (does not compile) |
| fss.hpp, detail/fss.hpp | Fss (several fibers and pointer objects), FssRe (cleanup functions that use fiber-local storage or throw), JoinFss (cleanup functions and join()) | FssRe: destruction of pointer objects |
| properties.hpp, properties.cpp, examples/priority.cpp, algorithm_with_properties (algo/algorithm.hpp) | Prio, PropAlgo (replacing the algorithm) | several threads |
| cuda/waitfor.hpp, hip/waitfor.hpp | WaitFor | the GPU runtime (callbacks come at any time, once per registered stream) |
| detail/convert.hpp | Deadline | |
| detail/context_spinlock_queue.hpp | SpinlockQueue | |
| detail/context_spmc_queue.hpp | Spmc (sequentially consistent, wrap-around of indices), SpmcWeak (memory orders as written) | load buffering; consume treated as acquire |
| detail/spinlock_ttas*.hpp, detail/futex.hpp | Ttas, FutexLock, Adaptive | the Windows back end of futex.hpp, cpu_relax() |
| detail/thread_barrier.hpp | ThreadBarrier | |
| detail/spinlock_rtm.hpp, detail/rtm.hpp | Rtm | back-off delays; splk_.lock() is its successful exchange; memory orders. The behaviour of transactions is an assumption about the processor |
| examples/asio/detail/yield.hpp, examples/asio/yield.hpp | AsioYield | Boost.Asio itself (assumed: a handler is called at most once); the signatures without value or without error code; an initiating function that throws |
| examples/asio/round_robin.hpp | AsioRR, AsioTimer (concurrent access to suspend_timer_ by notify()) | stopping the io_context; the effect of overlapping calls on the timer; a fiber in a timed wait woken by another thread; the service fiber sleeping in a handler |
| examples/wait_stuff.cpp | WhenAny (channels), WhenSimple (Done, barrier, futures) | the channel is a bounded FIFO, condition variable, barrier and futures behave as their own models say; functions that never end; exceptions in functions of wait_..._simple(), wait_first_value() and wait_all_values() (std::terminate()) other than as a dead state; the instrumentation of the example |
| examples/asio/ps/server.cpp | PubSub, PubText | the acceptors, the clients, TCP itself (a write succeeds or fails), output |
| intrusive_ptr_add_ref(), intrusive_ptr_release() of context.hpp, shared_state.hpp, algorithm.hpp, detail/fss.hpp | RefCount (memory orders as written) | overflow of the count; what the destructors do |
| performance/thread/buffered_channel.hpp | ThChan, ThChanWeak (memory orders of try_push_() and value_pop()), ChanLife (destruction while push() is notifying) | memory orders of closed_ and of the waiting, wrap-around of indices, spurious wake-ups, the destructor, destruction of moved-from values |
| performance/fiber/skynet_*.cpp | Skynet (skynet() with channels, joined or detached) | overflow, stack sizes, the worker threads of main() (skynet_stealing_async.cpp: SkyAsync) |
| examples/adapt_nonblocking.cpp | NonBlock | several fibers reading from the same device; the text of the exception |
| stack allocators (fixedsize_stack, pooled, protected, segmented), exceptions.hpp, type.hpp (enumeration), policy.hpp, detail/{data,decay_copy,disable_overload,exchange,is_all_same,cpu_relax,config}.hpp | not modelled | thin wrappers or compile-time code |
| FiberId | context.hpp:175-227, 379-389 (class id, intrusive_ptr_release), src/context.cpp:172-175, src/fiber.cpp:43-65, operations.hpp:28-31, examples/asio/autoecho.cpp:64-91 | addresses are numbers and contexts do not overlap; one handle per fiber (C104); the thread part of the name, and lookup()'s mutex, are not modelled |
| Autoecho | examples/asio/autoecho.cpp:122-260 | asynchronous operations complete in one step (C99, C100); connect() succeeds while the acceptor is open; names, output, the scheduling order and the destruction of main's barrier and acceptor are not modelled |
| WsProg | examples/work_sharing.cpp:31-130 | starts after the barrier (no fiber runs before); the dispatcher fibers are not represented and ready fibers are picked in any order; notify_all() is one step under the spinlock; output and exceptions thrown by it are left out |
| SchedLife | src/scheduler.cpp:100-174, 195-214, src/context.cpp:299-316, src/algo/round_robin.cpp:47-66 | after a fiber has suspended the dispatcher runs next; push and fetch of the remote queue are single steps; one thread with its fibers against any number of waking threads |
| examples/asio/ps/publisher.cpp, examples/asio/ps/subscriber.cpp | PsClient | resolver and connection, failing writes and reads, output; getline() follows the C++ standard |
| future/detail/task_object.hpp, future/packaged_task.hpp (arguments) | PtArgs | parameters by value and by rvalue reference; the target does not write |
| examples/adapt_callbacks.cpp, examples/adapt_method_calls.cpp | AsyncApi | promise and future are one atomic cell (their own model: FutureObj, SharedState, PromLife); all fibers that use the API run on one thread |
| examples/ping_pong.cpp, examples/range_for.cpp | SmallProgs | the channels are atomic (their own models: Buffered, Unbuffered); output order is the order of the print operations |
| buffered_channel.hpp, unbuffered_channel.hpp (iterators of throwing elements) | IterThrow | the channel is the sequence of outcomes of value_pop(); exceptions of the loop body |
| NumaWs | src/numa/algo/work_stealing.cpp:28-158 | a steal() is its answer (found or not); barrier as a counter (its own proof: ThreadBarrier); pin_thread() in NumaOs; distances not modelled |
| SkyAsync | performance/fiber/skynet_stealing_async.cpp:43-67, performance/thread/skynet_async.cpp:34-56 | memory is unlimited; future::get() is one step once the call has returned; main() and the worker threads not modelled |
| StackWrap | include/boost/fiber/stack_allocator_wrapper.hpp:56-90, include/boost/fiber/context.hpp:379-389, 471, 487-511, src/context.cpp:45-68 | allocations succeed and constructors do not throw; the fiber record of Boost.Context (moves the allocator out, deallocates, destroys) is trusted |

Not modelled anywhere: allocation failure (std::bad_alloc), exceptions thrown by user copy/move constructors (except in the channels, in promises and futures, and in the creation of fibers), fairness of the operating
system (liveness is stated as "a step is enabled" or "after at most n steps of the kind …"), time taken by steps (the clock advances
by labels of the environment).
