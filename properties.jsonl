{"id": "C01", "title": "Mutual exclusion of all four mutex types", "statement": "For mutex, timed_mutex, recursive_mutex and recursive_timed_mutex: at any moment at most one fiber is between a successful lock()/try_lock()/try_lock_for()/try_lock_until() and its matching unlock(); for the two non-recursive types the same fiber is never inside twice.", "quantifier": "every sequence of calls by any number of fibers on any number of threads, every schedule, every point of time at which timers fire", "why_tests_cant": "Depends on every interleaving of an unbounded number of fibers and threads; a test only runs the few schedules the box happens to produce.", "anchors": ["src/mutex.cpp: mutex::lock, try_lock, unlock", "src/timed_mutex.cpp: timed_mutex::lock, try_lock, try_lock_until_, unlock", "src/recursive_mutex.cpp: recursive_mutex::lock, try_lock, unlock", "src/recursive_timed_mutex.cpp: recursive_timed_mutex::lock, try_lock, try_lock_until_, unlock"]}
{"id": "C02", "title": "Ownership errors are exact and harmless", "statement": "unlock() by a fiber that does not own the mutex fails with operation_not_permitted and lock()/try_lock() by the owner of a non-recursive mutex fails with resource_deadlock_would_occur; these errors are raised only in those situations, and a failing call neither changes who owns the mutex nor wakes or blocks anybody.", "quantifier": "every reachable situation of the mutex, every caller", "why_tests_cant": "Depends on every interleaving of an unbounded number of fibers and threads; a test only runs the few schedules the box happens to produce. A test checks the error once, not that it is raised exactly when it should be and has no side effect in every reachable state.", "anchors": ["src/mutex.cpp: mutex::lock, try_lock, unlock", "src/timed_mutex.cpp: timed_mutex::lock, try_lock, try_lock_until_, unlock", "src/recursive_mutex.cpp: recursive_mutex::lock, try_lock, unlock", "src/recursive_timed_mutex.cpp: recursive_timed_mutex::lock, try_lock, try_lock_until_, unlock"]}
{"id": "C03", "title": "try_lock tells the truth and never blocks", "statement": "try_lock() returns true exactly when the caller owns the mutex on return, false exactly when it does not; it never puts the caller into the set of waiting fibers (it only yields once, and the yielded fiber stays ready).", "quantifier": "every reachable state, every fiber", "why_tests_cant": "Depends on every interleaving of an unbounded number of fibers and threads; a test only runs the few schedules the box happens to produce.", "anchors": ["src/mutex.cpp: mutex::lock, try_lock, unlock", "src/timed_mutex.cpp: timed_mutex::lock, try_lock, try_lock_until_, unlock", "src/recursive_mutex.cpp: recursive_mutex::lock, try_lock, unlock", "src/recursive_timed_mutex.cpp: recursive_timed_mutex::lock, try_lock, try_lock_until_, unlock"]}
{"id": "C04", "title": "Recursive mutexes need as many unlocks as locks", "statement": "For recursive_mutex and recursive_timed_mutex, the mutex becomes available to other fibers exactly when the owner has performed as many successful unlock() calls as successful lock operations.", "quantifier": "every call history", "why_tests_cant": "The number of nested locks and the interleaving with other fibers are unbounded.", "anchors": ["src/recursive_mutex.cpp: recursive_mutex::lock, try_lock, unlock", "src/recursive_timed_mutex.cpp: recursive_timed_mutex::lock, try_lock, try_lock_until_, unlock"]}
{"id": "C05", "title": "No lost wake-up on mutexes without timed waits", "statement": "If no timed lock operation is used: whenever a fiber is blocked in lock(), then either some fiber owns the mutex or some fiber that is inside an operation on this mutex is runnable (so the blocked fibers are not stranded).", "quantifier": "every schedule, any number of fibers and threads", "why_tests_cant": "Depends on every interleaving of an unbounded number of fibers and threads; a test only runs the few schedules the box happens to produce. A lost wake-up shows up as a hang in one interleaving out of very many.", "anchors": ["src/mutex.cpp: mutex::lock, try_lock, unlock", "src/timed_mutex.cpp: timed_mutex::lock, try_lock, try_lock_until_, unlock", "src/recursive_mutex.cpp: recursive_mutex::lock, try_lock, unlock", "src/recursive_timed_mutex.cpp: recursive_timed_mutex::lock, try_lock, try_lock_until_, unlock", "src/waker.cpp: wait_queue::suspend_and_wait, wait_queue::notify_one"]}
{"id": "C06", "title": "Timed lock never gives up early and never waits in vain forever", "statement": "try_lock_until(t) returns false only when the clock has reached t; a fiber waiting in it is always woken by the timer at t at the latest; and it returns true only as owner.", "quantifier": "every schedule, every deadline, every advance of the clock", "why_tests_cant": "Real clocks in tests cannot be driven to every relation between deadline, notification and resumption.", "anchors": ["src/timed_mutex.cpp: timed_mutex::try_lock_until_", "src/recursive_timed_mutex.cpp: recursive_timed_mutex::try_lock_until_", "src/waker.cpp: wait_queue::suspend_and_wait_until", "src/scheduler.cpp: scheduler::wait_until"]}
{"id": "C07", "title": "No lost wake-up on timed mutexes", "statement": "For timed_mutex and recursive_timed_mutex with timed and untimed waiters mixed: whenever a fiber is blocked in lock(), either some fiber owns the mutex or a fiber inside an operation on this mutex is runnable.", "quantifier": "every schedule including deadlines that expire between notification and resumption", "why_tests_cant": "The failing window is between the wake-up of a fiber and its resumption.", "anchors": ["src/timed_mutex.cpp: timed_mutex::try_lock_until_, timed_mutex::unlock", "src/waker.cpp: wait_queue::suspend_and_wait_until, wait_queue::notify_one"]}
{"id": "C08", "title": "One wake-up per wait", "statement": "Each time a fiber blocks on a synchronization object it is made ready at most once, by exactly one of the competing sources (notification, timer, close); a notification aimed at an earlier wait never wakes a later one, and a fiber is never inserted into a ready queue while it is already there.", "quantifier": "every schedule, every set of competing wakers on any threads", "why_tests_cant": "Depends on every interleaving of an unbounded number of fibers and threads; a test only runs the few schedules the box happens to produce.", "anchors": ["src/context.cpp: context::wake", "include/boost/fiber/context.hpp: context::create_waker", "include/boost/fiber/waker.hpp: waker, wait_queue", "src/waker.cpp"]}
{"id": "C09", "title": "Waiters are notified in FIFO order", "statement": "Among fibers blocked on one wait queue, notify_one() wakes the one that has been blocked longest among those that are still waiting; fibers whose wait already ended by timeout do not consume the notification; notify_all() wakes all of them.", "quantifier": "every queue content, every mix of timed-out and waiting fibers", "why_tests_cant": "Queue length and the position of stale entries are unbounded.", "anchors": ["src/waker.cpp: wait_queue::notify_one, wait_queue::notify_all"]}
{"id": "C10", "title": "Condition variable: no notification is lost between unlock and wait", "statement": "A fiber calling wait(lk) is registered before any other fiber that acquires the mutex afterwards can complete notify_one()/notify_all(); hence a notify issued after changing the state under the mutex always reaches a fiber that found the predicate false under the mutex.", "quantifier": "every interleaving of waiters and notifiers on any threads", "why_tests_cant": "Depends on every interleaving of an unbounded number of fibers and threads; a test only runs the few schedules the box happens to produce.", "anchors": ["include/boost/fiber/condition_variable.hpp: condition_variable_any::wait, wait_until", "src/condition_variable.cpp: notify_one, notify_all"]}
{"id": "C11", "title": "Condition variable: no spurious wake-ups, exact counts", "statement": "Without timeouts the number of wait() calls that were woken never exceeds what the notifications justify: every return from wait() is caused by one notify_one() (one fiber per call) or by a notify_all() issued while the fiber was waiting; notify_one() with a waiting fiber always wakes exactly one.", "quantifier": "every schedule", "why_tests_cant": "Depends on every interleaving of an unbounded number of fibers and threads; a test only runs the few schedules the box happens to produce.", "anchors": ["include/boost/fiber/condition_variable.hpp", "src/condition_variable.cpp"]}
{"id": "C12", "title": "Condition variable: wait returns with the mutex held", "statement": "Every return from wait(), wait_until(), wait_for() (with or without predicate) happens with the mutex owned by the caller; wait(lk,pred) and wait_until(lk,t,pred)==true return only after pred evaluated to true under the mutex since it was last acquired.", "quantifier": "every schedule, arbitrary predicate over shared state", "why_tests_cant": "Depends on every interleaving of an unbounded number of fibers and threads; a test only runs the few schedules the box happens to produce.", "anchors": ["include/boost/fiber/condition_variable.hpp: condition_variable_any::wait, wait_until, wait_for"]}
{"id": "C13", "title": "Condition variable: timeouts are honest", "statement": "wait_until(lk,t) reports timeout only if the clock reached t, and reports no_timeout only if a notification was delivered to this very wait.", "quantifier": "every schedule, every deadline", "why_tests_cant": "Needs all relations between deadline, notification and resumption.", "anchors": ["include/boost/fiber/condition_variable.hpp: condition_variable_any::wait_until"]}
{"id": "C14", "title": "Barrier releases nobody early", "statement": "With a barrier of size n no wait() of a round returns before n wait() calls of that round have been made, for every round (the barrier is reusable even when fast fibers re-enter while slow ones have not left).", "quantifier": "every n>=1, any number of rounds, fibers and schedules", "why_tests_cant": "Depends on every interleaving of an unbounded number of fibers and threads; a test only runs the few schedules the box happens to produce.", "anchors": ["src/barrier.cpp: barrier::barrier, barrier::wait"]}
{"id": "C15", "title": "Barrier: exactly one serial fiber per round", "statement": "In every completed round exactly one wait() returns true.", "quantifier": "every n>=1, all rounds, all schedules", "why_tests_cant": "Depends on every interleaving of an unbounded number of fibers and threads; a test only runs the few schedules the box happens to produce.", "anchors": ["src/barrier.cpp: barrier::wait"]}
{"id": "C16", "title": "Barrier strands nobody", "statement": "When the n-th fiber of a round arrives, every other fiber of that round becomes runnable; no fiber stays blocked in a completed round.", "quantifier": "every n>=1, all rounds, all schedules", "why_tests_cant": "Depends on every interleaving of an unbounded number of fibers and threads; a test only runs the few schedules the box happens to produce.", "anchors": ["src/barrier.cpp: barrier::wait", "src/condition_variable.cpp: notify_all"]}
{"id": "C17", "title": "Buffered channel is a FIFO queue with exactly-once delivery", "statement": "The sequence of values obtained by consumers is, in order, a prefix of the sequence of values accepted from producers: nothing lost, duplicated, reordered or invented; an operation that returns success transferred exactly one value, any other status transferred none.", "quantifier": "any number of producers and consumers, all schedules, any capacity, all mixes of push/try_push/push_wait_until/pop/try_pop/value_pop/pop_wait_until/close", "why_tests_cant": "Depends on every interleaving of an unbounded number of fibers and threads; a test only runs the few schedules the box happens to produce.", "anchors": ["include/boost/fiber/buffered_channel.hpp: push, try_push, push_wait_until, pop, try_pop, value_pop, pop_wait_until"]}
{"id": "C18", "title": "Buffered channel capacity", "statement": "A channel constructed with capacity c exists iff c is a power of two and at least 2, and never holds more than c-1 values; try_push reports full exactly when it holds c-1, try_pop reports empty exactly when it is open and holds none.", "quantifier": "all capacities (machine words), all histories", "why_tests_cant": "Unbounded histories: the ring indices wrap arbitrarily often.", "anchors": ["include/boost/fiber/buffered_channel.hpp: buffered_channel, is_full_, is_empty_, try_push, try_pop"]}
{"id": "C19", "title": "Buffered channel close semantics", "statement": "After close() no push of any kind succeeds; values accepted before can still be popped, in order; a pop reports closed only when the channel is closed and all accepted values have been delivered; every fiber blocked in push or pop is runnable after close().", "quantifier": "all schedules and histories", "why_tests_cant": "Depends on every interleaving of an unbounded number of fibers and threads; a test only runs the few schedules the box happens to produce.", "anchors": ["include/boost/fiber/buffered_channel.hpp: close, push, pop, value_pop"]}
{"id": "C20", "title": "Buffered channel strands nobody (untimed operations)", "statement": "Without timed operations and without exceptions of the element type in waiting operations: while a fiber is blocked in pop, either the channel is empty (and open) or enough runnable fibers are inside pop to take the stored values; while a fiber is blocked in push, either the channel is full or enough runnable producers are inside push.", "quantifier": "all schedules", "why_tests_cant": "Depends on every interleaving of an unbounded number of fibers and threads; a test only runs the few schedules the box happens to produce.", "anchors": ["include/boost/fiber/buffered_channel.hpp: push, pop, value_pop, try_push, try_pop", "src/waker.cpp: wait_queue::notify_one"]}
{"id": "C21", "title": "Buffered channel strands nobody (timed operations mixed in)", "statement": "The same as C20 when push_wait_until/pop_wait_until are also used: a consumer is never left blocked although values are available and no other runnable fiber is going to take them.", "quantifier": "all schedules including deadlines expiring between notification and resumption", "why_tests_cant": "The failing window is between the wake-up of a fiber and its resumption.", "anchors": ["include/boost/fiber/buffered_channel.hpp: push_wait_until, pop_wait_until", "src/waker.cpp: wait_queue::suspend_and_wait_until"]}
{"id": "C22", "title": "Timed channel operations never time out early", "statement": "push_wait_until/pop_wait_until report timeout only when the clock has reached the deadline.", "quantifier": "all schedules and deadlines", "why_tests_cant": "Clock positions cannot be enumerated by tests.", "anchors": ["include/boost/fiber/buffered_channel.hpp: push_wait_until, pop_wait_until", "include/boost/fiber/unbuffered_channel.hpp: push_wait_until, pop_wait_until"]}
{"id": "C23", "title": "Unbuffered channel: every value is delivered at most once and only if offered", "statement": "Each push offers its value once; every value received by a consumer was offered by exactly one push, and no push's value is received twice; a push that returns success had its value received by exactly one consumer.", "quantifier": "any number of producers/consumers on any threads, all interleavings of the atomic accesses", "why_tests_cant": "Depends on every interleaving of an unbounded number of fibers and threads; a test only runs the few schedules the box happens to produce.", "anchors": ["include/boost/fiber/unbuffered_channel.hpp: push, push_wait_until, pop, value_pop, pop_wait_until, try_push_, try_pop_"]}
{"id": "C24", "title": "Unbuffered channel: a failed push did not transfer its value", "statement": "push()/push_wait_until() returning closed or timeout means that no consumer received the value.", "quantifier": "all schedules", "why_tests_cant": "The wrong answer needs close or timeout in the window between consumption and resumption of the producer.", "anchors": ["include/boost/fiber/unbuffered_channel.hpp: push, push_wait_until, close"]}
{"id": "C25", "title": "Unbuffered channel: consumers never touch a dead producer's stack slot", "statement": "A consumer (or close()) never reads the slot of a push call that has already returned.", "quantifier": "all schedules", "why_tests_cant": "Use after return is silent in most runs.", "anchors": ["include/boost/fiber/unbuffered_channel.hpp: push, push_wait_until, close, pop"]}
{"id": "C26", "title": "Unbuffered channel: rendezvous happens (untimed, open channel)", "statement": "On a channel that is not closed and without timed operations, a producer and a consumer are never both blocked with no runnable fiber inside a channel operation.", "quantifier": "all interleavings of the atomic accesses", "why_tests_cant": "Depends on every interleaving of an unbounded number of fibers and threads; a test only runs the few schedules the box happens to produce.", "anchors": ["include/boost/fiber/unbuffered_channel.hpp: push, pop, try_push_, try_pop_"]}
{"id": "C27", "title": "Unbuffered channel: rendezvous happens with timed operations", "statement": "The same as C26 when push_wait_until/pop_wait_until are used too.", "quantifier": "all interleavings", "why_tests_cant": "Hang only in a rare window.", "anchors": ["include/boost/fiber/unbuffered_channel.hpp: push_wait_until, pop_wait_until"]}
{"id": "C28", "title": "Unbuffered channel: close releases everybody", "statement": "After close() has returned no fiber stays blocked in push or pop forever.", "quantifier": "all interleavings of close with push and pop on other threads", "why_tests_cant": "Needs close to run between two atomic accesses of push.", "anchors": ["include/boost/fiber/unbuffered_channel.hpp: close, push, pop"]}
{"id": "C29", "title": "A promise is satisfied at most once", "statement": "Of all set_value/set_exception calls on one promise at most one succeeds; all later ones fail with promise_already_satisfied and change nothing; the stored result never changes afterwards.", "quantifier": "all call histories by any number of fibers, all schedules", "why_tests_cant": "Depends on every interleaving of an unbounded number of fibers and threads; a test only runs the few schedules the box happens to produce.", "anchors": ["include/boost/fiber/future/detail/shared_state.hpp: shared_state, shared_state_base", "include/boost/fiber/future/promise.hpp: promise, promise_base", "include/boost/fiber/future/future.hpp: future, shared_future, future_base"]}
{"id": "C30", "title": "Futures wait for and agree on the result", "statement": "get()/wait() return only after the result was stored; every reader (all shared_future copies) obtains the stored value or exception; wait_for/wait_until report ready iff the result is stored (timeout only when the deadline is reached); every fiber blocked in wait becomes runnable when the result is stored.", "quantifier": "all schedules, any number of readers", "why_tests_cant": "Depends on every interleaving of an unbounded number of fibers and threads; a test only runs the few schedules the box happens to produce.", "anchors": ["include/boost/fiber/future/detail/shared_state.hpp: shared_state, shared_state_base", "include/boost/fiber/future/promise.hpp: promise, promise_base", "include/boost/fiber/future/future.hpp: future, shared_future, future_base"]}
{"id": "C31", "title": "Broken promise", "statement": "If a promise whose future was obtained is destroyed (or overwritten by move assignment) without a stored result, then waiting readers are released and get() throws broken_promise; a result stored earlier is not disturbed.", "quantifier": "all histories", "why_tests_cant": "Depends on every interleaving of an unbounded number of fibers and threads; a test only runs the few schedules the box happens to produce.", "anchors": ["include/boost/fiber/future/detail/shared_state.hpp: shared_state, shared_state_base", "include/boost/fiber/future/promise.hpp: promise, promise_base", "include/boost/fiber/future/future.hpp: future, shared_future, future_base", "include/boost/fiber/future/promise.hpp: ~promise_base"]}
{"id": "C32", "title": "One future per promise, usage errors exact", "statement": "get_future() succeeds at most once per shared state and fails with future_already_retrieved afterwards; operations on a promise/future/task without state fail with no_state/future_uninitialized/packaged_task_uninitialized; future::get() leaves the future invalid, shared_future::get() does not.", "quantifier": "all histories of construction, move, swap, get", "why_tests_cant": "Histories are unbounded.", "anchors": ["include/boost/fiber/future/detail/shared_state.hpp: shared_state, shared_state_base", "include/boost/fiber/future/promise.hpp: promise, promise_base", "include/boost/fiber/future/future.hpp: future, shared_future, future_base", "include/boost/fiber/future/packaged_task.hpp"]}
{"id": "C33", "title": "packaged_task delivers the outcome of its function", "statement": "Invoking a packaged_task stores the returned value or the thrown exception, once; destroying or moving over a task whose future was obtained and that has not run delivers broken_promise.", "quantifier": "all functions, arguments and histories", "why_tests_cant": "Histories are unbounded.", "anchors": ["include/boost/fiber/future/packaged_task.hpp", "include/boost/fiber/future/detail/task_object.hpp"]}
{"id": "C34", "title": "packaged_task::reset abandons the old state properly", "statement": "After reset() the future obtained before either holds the old result or receives broken_promise, i.e. nobody waits forever on it.", "quantifier": "all histories of get_future, invoke, reset, destroy", "why_tests_cant": "Histories are unbounded; the failure is a hang.", "anchors": ["include/boost/fiber/future/packaged_task.hpp: reset, ~packaged_task"]}
{"id": "C35", "title": "Shared states are freed exactly once, when the last reference goes", "statement": "The reference count of a shared state equals the number of live promises/tasks/futures referring to it, it is destroyed exactly when that number drops to zero and is never accessed after.", "quantifier": "all histories of creation, copy, move, swap, reset, destruction", "why_tests_cant": "Histories are unbounded.", "anchors": ["include/boost/fiber/future/detail/shared_state.hpp: shared_state, shared_state_base", "include/boost/fiber/future/promise.hpp: promise, promise_base", "include/boost/fiber/future/future.hpp: future, shared_future, future_base"]}
{"id": "C36", "title": "join() returns only after the fiber has terminated; errors exact", "statement": "join() by another fiber returns only after the joined fiber's function has finished; self-join fails with resource_deadlock_would_occur, joining/detaching a non-joinable handle with invalid_argument; after join/detach the handle is not joinable; all joiners become runnable at termination.", "quantifier": "all schedules, any number of fibers/threads", "why_tests_cant": "Depends on every interleaving of an unbounded number of fibers and threads; a test only runs the few schedules the box happens to produce.", "anchors": ["src/fiber.cpp: fiber::join, detach, start_", "src/context.cpp: context::join, context::terminate"]}
{"id": "C37", "title": "Fiber resources are released exactly once and not too early", "statement": "The memory of a fiber is released exactly once, after it terminated, was switched away from and its handle was joined/detached; never while it runs, is ready or is referenced.", "quantifier": "all histories of create, detach, join, terminate, dispatcher clean-up", "why_tests_cant": "Unbounded histories and schedules.", "anchors": ["include/boost/fiber/context.hpp: intrusive_ptr_add_ref, intrusive_ptr_release", "src/scheduler.cpp: release_terminated_, terminate", "src/fiber.cpp: start_"]}
{"id": "C38", "title": "Launch policies", "statement": "With launch::dispatch the new fiber runs immediately and the launching fiber becomes ready; with launch::post the launching fiber continues and the new one becomes ready at the end of the queue.", "quantifier": "all scheduler states", "why_tests_cant": "All states of the ready queue.", "anchors": ["src/fiber.cpp: fiber::start_", "src/context.cpp: context::resume"]}
{"id": "C39", "title": "A fiber is in one place only", "statement": "At any time each live fiber is in exactly one of: running on one thread, in exactly one ready queue, in one remote-ready queue (or about to be put there), or suspended; no fiber runs on two threads at once, no queue holds a fiber twice. (A fiber that has registered with a synchronization object and is about to suspend may already be in the remote-ready queue.)", "quantifier": "all executions of any number of threads with cross-thread wake-ups, sleeps, yields, termination", "why_tests_cant": "Depends on every interleaving of an unbounded number of fibers and threads; a test only runs the few schedules the box happens to produce.", "anchors": ["src/scheduler.cpp", "src/context.cpp", "src/algo/round_robin.cpp"]}
{"id": "C40", "title": "There is always something to run", "statement": "Whenever a fiber (or main) blocks, yields or terminates, the scheduler finds a next context to resume (no null dereference); the dispatcher runs only when no other fiber is ready ahead of it.", "quantifier": "all executions", "why_tests_cant": "Depends on every interleaving of an unbounded number of fibers and threads; a test only runs the few schedules the box happens to produce.", "anchors": ["src/scheduler.cpp: suspend, yield, wait_until, terminate, dispatch", "src/algo/round_robin.cpp: pick_next"]}
{"id": "C41", "title": "Round-robin is FIFO-fair", "statement": "A ready fiber is resumed after at most the fibers that were ahead of it in the queue have been resumed once; no ready fiber starves, however often other fibers yield.", "quantifier": "all executions, any queue length", "why_tests_cant": "Unbounded executions.", "anchors": ["src/algo/round_robin.cpp: awakened, pick_next"]}
{"id": "C42", "title": "sleep never ends early and sleepers wake in deadline order", "statement": "sleep_until(t)/wait_until resume the fiber by timer only when clock >= t; all fibers whose deadline has passed are made ready by the dispatcher in ascending deadline order; a sleeping fiber is always in the set watched by the dispatcher and the idle thread waits no longer than to the earliest deadline.", "quantifier": "all sets of sleepers and deadlines, all clock readings", "why_tests_cant": "Real time cannot be enumerated.", "anchors": ["src/scheduler.cpp: sleep2ready_, wait_until, dispatch, schedule"]}
{"id": "C43", "title": "Cross-thread wake-ups are never lost", "statement": "When a fiber is woken from another thread, the thread that owns it does not stay asleep: it is awake, or its wake-up flag is set, or the waking thread is about to set it, until the fiber has been moved to the ready queue. Fibers handed over by other threads become ready in the order in which they were handed over.", "quantifier": "all interleavings of the waking threads with the dispatcher's drain/suspend sequence", "why_tests_cant": "Depends on every interleaving of an unbounded number of fibers and threads; a test only runs the few schedules the box happens to produce.", "anchors": ["src/scheduler.cpp: schedule_from_remote, remote_ready2ready_, dispatch", "src/algo/round_robin.cpp: suspend_until, notify"]}
{"id": "C44", "title": "Scheduler shutdown runs every fiber to completion", "statement": "The destructor of a scheduler returns only when every worker fiber that ever ran or was ready on its thread has terminated and has been destroyed (unless a fiber object still refers to it); nothing runs on the thread afterwards.", "quantifier": "all executions", "why_tests_cant": "Depends on every interleaving of an unbounded number of fibers and threads; a test only runs the few schedules the box happens to produce.", "anchors": ["src/scheduler.cpp: ~scheduler, dispatch"]}
{"id": "C45", "title": "The work-stealing ready queue is a FIFO and loses nothing", "statement": "The spinlock queue used by work_stealing returns fibers exactly once, in insertion order, across arbitrarily many resizes; steal never returns a pinned fiber and takes from the same end in order.", "quantifier": "all sequences of push/pop/steal, all initial capacities >= 1 (including wrap-around of the indices)", "why_tests_cant": "Ring buffer wrap and resize positions are unbounded.", "anchors": ["include/boost/fiber/detail/context_spinlock_queue.hpp: push, pop, steal, resize_"]}
{"id": "C46", "title": "The lock-free ready queue (SPMC) neither loses nor duplicates fibers", "statement": "For one owner pushing/popping and any number of thieves, each fiber pushed is obtained by exactly one pop or steal, under all sequentially consistent interleavings of the individual memory accesses, including growth of the array.", "quantifier": "all interleavings, any number of thieves, any history", "why_tests_cant": "Depends on every interleaving of an unbounded number of fibers and threads; a test only runs the few schedules the box happens to produce.", "anchors": ["include/boost/fiber/detail/context_spmc_queue.hpp: push, pop, steal, array"]}
{"id": "C47", "title": "work_stealing::pick_next returns", "statement": "pick_next returns (with a fiber or nullptr) for every permitted construction (thread_count >= 1) and queue state.", "quantifier": "all thread counts, all random draws", "why_tests_cant": "An endless loop for a special configuration is not visible in tests of the others.", "anchors": ["src/algo/work_stealing.cpp: pick_next", "src/numa/algo/work_stealing.cpp: pick_next"]}
{"id": "C48", "title": "Scheduling algorithms keep every ready fiber and respect pinning", "statement": "shared_work and work_stealing hand every awakened fiber to exactly one thread exactly once; main and dispatcher fibers are only ever picked by their own thread.", "quantifier": "any number of threads, all interleavings of awakened/pick_next/steal", "why_tests_cant": "Depends on every interleaving of an unbounded number of fibers and threads; a test only runs the few schedules the box happens to produce.", "anchors": ["src/algo/shared_work.cpp: awakened, pick_next", "src/algo/work_stealing.cpp: awakened, pick_next, steal"]}
{"id": "C49", "title": "Spinlock mutual exclusion", "statement": "At most one thread is between lock()/successful try_lock() and unlock() of a detail spinlock (TTAS and futex based).", "quantifier": "any number of threads, all interleavings of the atomic accesses", "why_tests_cant": "Depends on every interleaving of an unbounded number of fibers and threads; a test only runs the few schedules the box happens to produce.", "anchors": ["include/boost/fiber/detail/spinlock_ttas.hpp", "include/boost/fiber/detail/spinlock_ttas_adaptive.hpp", "include/boost/fiber/detail/spinlock_ttas_futex.hpp", "include/boost/fiber/detail/spinlock_ttas_adaptive_futex.hpp"]}
{"id": "C50", "title": "Futex spinlock loses no wake-up", "statement": "With the futex based spinlock, no thread stays asleep in the kernel while the lock is free and nobody is about to wake it or take the lock.", "quantifier": "any number of threads, all interleavings", "why_tests_cant": "Depends on every interleaving of an unbounded number of fibers and threads; a test only runs the few schedules the box happens to produce.", "anchors": ["include/boost/fiber/detail/spinlock_ttas_futex.hpp: lock, unlock", "include/boost/fiber/detail/futex.hpp"]}
{"id": "C51", "title": "Fiber-local storage is isolated per fiber and cleaned up exactly once", "statement": "fiber_specific_ptr::get() returns the value last stored by the same fiber in the same pointer object; every stored object is cleaned up exactly once (reset, destruction or fiber exit) unless released.", "quantifier": "all histories of reset/release/get/exit over any fibers and pointer objects", "why_tests_cant": "Histories are unbounded.", "anchors": ["include/boost/fiber/fss.hpp", "src/context.cpp: get_fss_data, set_fss_data, terminate"]}
{"id": "C52", "title": "Fiber-local clean-up function is only called on stored objects", "statement": "The clean-up function of a fiber_specific_ptr is never invoked with nullptr (doc: reset invokes it only if get() is not nullptr).", "quantifier": "all histories", "why_tests_cant": "Histories are unbounded.", "anchors": ["include/boost/fiber/fss.hpp: release, reset, ~fiber_specific_ptr", "src/context.cpp: set_fss_data, terminate"]}
{"id": "C53", "title": "Fiber control block fits on its stack and is aligned", "statement": "For any stack (top, size) large enough, the control block of a new fiber is placed inside the stack area, aligned to 256 bytes and does not overlap the space handed to the fiber as its stack; for too small stacks the computed size wraps.", "quantifier": "all addresses and sizes (machine words)", "why_tests_cant": "2^128 inputs.", "anchors": ["include/boost/fiber/context.hpp: make_worker_context_with_properties", "include/boost/fiber/fiber.hpp"]}
{"id": "C54", "title": "NUMA: local and remote CPUs partition the machine", "statement": "For every topology, the CPUs a NUMA worker treats as local and those it treats as remote are disjoint and together are all CPUs of the topology.", "quantifier": "all topologies", "why_tests_cant": "All machine topologies.", "anchors": ["src/numa/algo/work_stealing.cpp: get_local_cpus, get_remote_cpus"]}
{"id": "C55", "title": "NUMA: sysfs CPU lists are parsed to exactly the listed CPUs", "statement": "ids_from_line of a list of ids and ranges yields exactly the ids in the ranges.", "quantifier": "all lists of ranges over 32 bit ids", "why_tests_cant": "All inputs; the boundary id is never met in tests.", "anchors": ["src/numa/linux/topology.cpp: ids_from_line"]}
{"id": "C56", "title": "Channel iterators construct and destroy each received value once", "statement": "Iterating over a channel destroys every received element exactly once.", "quantifier": "all channels, all lengths of iteration", "why_tests_cant": "Double destruction is silent for trivial types.", "anchors": ["include/boost/fiber/buffered_channel.hpp: iterator", "include/boost/fiber/unbuffered_channel.hpp: iterator"]}
{"id": "C57", "title": "Installing a scheduling algorithm keeps the ready fibers", "statement": "use_scheduling_algorithm moves every ready fiber of the thread from the old algorithm to the new one, in order, none lost, and terminates.", "quantifier": "all ready-queue contents and algorithms", "why_tests_cant": "Unbounded queue contents.", "anchors": ["src/scheduler.cpp: set_algo"]}
{"id": "C58", "title": "Per-thread runtime is created and destroyed exactly once", "statement": "However often context::active() and initialize_thread() are called on a thread, in any order, main context and scheduler are created by the first call, before it returns, and destroyed exactly once, at the end of the thread.", "quantifier": "all sequences of calls", "why_tests_cant": "Unbounded sequences of calls.", "anchors": ["src/context.cpp: context_initializer"]}
{"id": "C59", "title": "try_lock_until with a passed deadline behaves as try_lock", "statement": "Documentation: if the specified time has already passed, try_lock_for/try_lock_until behave as try_lock(); so on a free mutex they acquire it and return true.", "quantifier": "all timed mutexes, states and deadlines", "why_tests_cant": "A deadline in the past depends on the clock; it is not hit by ordinary tests.", "anchors": ["src/timed_mutex.cpp: try_lock_until_", "src/recursive_timed_mutex.cpp: try_lock_until_", "doc/mutexes.qbk"]}
{"id": "C60", "title": "try_lock_until by the owner reports the deadlock", "statement": "Documentation: timed_mutex::try_lock_for/try_lock_until called by the fiber already owning the mutex throw lock_error resource_deadlock_would_occur.", "quantifier": "all states, all deadlines", "why_tests_cant": "All states and deadlines.", "anchors": ["src/timed_mutex.cpp: try_lock_until_", "doc/mutexes.qbk"]}
{"id": "C61", "title": "Timed push does not trip the scheduler's assertion", "statement": "The assertion in the scheduler that a fiber about to sleep until a deadline is not already waiting in the remote-ready queue never fails for fibers inside channel operations.", "quantifier": "any number of producers and consumers on any threads, all schedules", "why_tests_cant": "Depends on every interleaving of an unbounded number of fibers and threads; a test only runs the few schedules the box happens to produce.", "anchors": ["include/boost/fiber/unbuffered_channel.hpp: push_wait_until, pop", "src/scheduler.cpp: wait_until, schedule_from_remote"]}
{"id": "C62", "title": "get() never reads a value that was not stored", "statement": "future::get()/shared_future::get() return a value that some set_value() stored, or throw; in particular after set_exception(nullptr) no unconstructed object is read.", "quantifier": "all histories, all exception pointers including the null one", "why_tests_cant": "The null exception pointer is not used in tests; reading raw storage is silent for trivial types.", "anchors": ["include/boost/fiber/future/detail/shared_state.hpp: set_exception_, get_", "include/boost/fiber/future/promise.hpp: set_exception"]}
{"id": "C63", "title": "The function of a packaged_task runs at most once per shared state", "statement": "A second invocation of a packaged_task without reset() fails with promise_already_satisfied without running the function.", "quantifier": "all histories of invocations", "why_tests_cant": "Histories are unbounded; a second run has side effects a result check does not see.", "anchors": ["include/boost/fiber/future/detail/task_object.hpp: run", "include/boost/fiber/future/packaged_task.hpp: operator()"]}
{"id": "C64", "title": "A scheduler is not used after it has been deleted", "statement": "No thread accesses the scheduler object of another thread after that thread has deleted it; in particular waking a fiber of another thread is safe while that thread ends.", "quantifier": "any number of threads, all interleavings of wake-ups with shutdown", "why_tests_cant": "Depends on every interleaving of an unbounded number of fibers and threads; a test only runs the few schedules the box happens to produce.", "anchors": ["src/scheduler.cpp: schedule_from_remote, ~scheduler", "src/context.cpp: context::wake, context::schedule"]}
{"id": "C65", "title": "Remote wake-up during shutdown respects the assertion", "statement": "BOOST_ASSERT( ! shutdown_) in schedule_from_remote never fails; a wake-up during shutdown is delivered.", "quantifier": "any number of threads, all interleavings of wake-ups with shutdown", "why_tests_cant": "Depends on every interleaving of an unbounded number of fibers and threads; a test only runs the few schedules the box happens to produce.", "anchors": ["src/scheduler.cpp: schedule_from_remote, ~scheduler, dispatch"]}
{"id": "C66", "title": "NUMA: topology() lists every online CPU once", "statement": "Every CPU that is online is listed by topology() in exactly one node, the one the kernel reports for it.", "quantifier": "all CPU lists and node assignments", "why_tests_cant": "All machine configurations.", "anchors": ["src/numa/linux/topology.cpp: topology"]}
{"id": "C67", "title": "NUMA: an unreadable CPU list yields an empty topology", "statement": "If the list of online CPUs cannot be read, topology() returns an empty vector (the branch 'parsing cpus failed').", "quantifier": "all contents of the file", "why_tests_cant": "A missing sysfs file is not met in tests.", "anchors": ["src/numa/linux/topology.cpp: topology, ids_from_line"]}
{"id": "C68", "title": "active() always returns a live context", "statement": "context::active() returns a context of a runtime that has been created and not been destroyed, at any point of the life of the thread, including the destructors of thread-local objects.", "quantifier": "all sequences of calls", "why_tests_cant": "Order of destruction of thread-local objects is not varied in tests.", "anchors": ["src/context.cpp: context_initializer, context::active"]}
{"id": "C69", "title": "Objects stored by a main fiber are cleaned up when it ends", "statement": "Documentation of fiber_specific_ptr: when a fiber terminates, the objects it stored are cleaned up; this includes the main fiber of a thread.", "quantifier": "all histories", "why_tests_cant": "A leak at the end of a thread is silent.", "anchors": ["src/context.cpp: context::terminate, context_initializer", "include/boost/fiber/fss.hpp"]}
{"id": "C70", "title": "Every ready context gets its turn", "statement": "With every algorithm of the library, a ready main fiber or dispatcher is resumed after finitely many calls of pick_next by its thread (so sleeping fibers are woken, remote wake-ups are processed and terminated fibers released, however often other fibers yield).", "quantifier": "all executions, all queue contents", "why_tests_cant": "Starvation only shows with fibers that yield for ever.", "anchors": ["src/algo/shared_work.cpp: pick_next, awakened", "src/algo/round_robin.cpp: pick_next", "src/algo/work_stealing.cpp: pick_next"]}
{"id": "C71", "title": "Critical sections are ordered by happens-before", "statement": "Everything done between lock() and unlock() of a detail spinlock happens before (in the sense of the C++ memory model) everything done in later critical sections of the same lock.", "quantifier": "any number of threads, all executions, with the memory orders written in the code", "why_tests_cant": "Missing release ordering shows only on weakly ordered processors, rarely.", "anchors": ["include/boost/fiber/detail/spinlock_ttas.hpp: lock, unlock", "include/boost/fiber/detail/spinlock_ttas_adaptive.hpp: lock, unlock", "include/boost/fiber/detail/spinlock_ttas_futex.hpp: lock, unlock", "include/boost/fiber/detail/spinlock_ttas_adaptive_futex.hpp: lock, unlock"]}
{"id": "C72", "title": "The adaptive spinlocks estimate the number of retries", "statement": "retries_ stays within the number of retries lock() can make, and each update moves it towards the new observation.", "quantifier": "all histories of lock(), all interleavings of the loads and stores of retries_", "why_tests_cant": "Arithmetic wrap-around only shows as bad timing.", "anchors": ["include/boost/fiber/detail/spinlock_ttas_adaptive.hpp: lock", "include/boost/fiber/detail/spinlock_ttas_adaptive_futex.hpp: lock"]}
{"id": "C73", "title": "The lock-free ready queue touches only contexts that are in it", "statement": "pop() and steal() of the SPMC queue never fail an assertion (never dereference a null pointer) and steal() accesses a context only while it is in the queue, i.e. not after another thread has obtained it (and may have run and destroyed it).", "quantifier": "all interleavings of one owner and any number of thieves, all capacities", "why_tests_cant": "The window between loading the cell and the compare-exchange is a few instructions wide.", "anchors": ["include/boost/fiber/detail/context_spmc_queue.hpp: pop, steal, array::resize"]}
{"id": "C74", "title": "The barrier of threads releases nobody early and strands nobody", "statement": "thread_barrier(n): a call of wait() returns only when all n calls of its round (consecutive blocks of n calls) have been made, with true exactly for the last of them, and every call whose round is complete returns.", "quantifier": "any number of threads, all executions, spurious wake-ups", "why_tests_cant": "A stranded thread needs a thread that is overtaken by a whole round.", "anchors": ["include/boost/fiber/detail/thread_barrier.hpp: wait"]}
{"id": "C75", "title": "work_stealing objects register themselves without gaps", "statement": "The constructor of work_stealing writes only to existing entries of schedulers_, and when it returns all thread_count entries are set, to different objects.", "quantifier": "any number of constructions by any number of threads, all interleavings", "why_tests_cant": "Tests start one pool of threads once.", "anchors": ["src/algo/work_stealing.cpp: work_stealing, init_", "include/boost/fiber/detail/thread_barrier.hpp: wait"]}
{"id": "C76", "title": "With every scheduling algorithm there is always a context to run, and every context is in one place", "statement": "Any number of threads run fibers, each with round_robin, shared_work, work_stealing or numa work_stealing. A fiber that yields, blocks or terminates always finds a context to resume, pick_next() never returns null to it; each worker fiber that has been created is in exactly one place (one ready queue, blocked, in the hands of one thread, in one remote ready queue, or terminated); no context is in the hands of two threads; main and dispatcher contexts only run on their own thread; and no thread gets stuck inside its scheduler.", "quantifier": "all numbers of threads, all assignments of algorithms to them, all interleavings of creation, dispatch, yield, block, wake-up (local and remote), termination, stealing and shutdown", "why_tests_cant": "The claim is about all interleavings of any number of threads with mixed algorithms; a lost or duplicated context needs a particular overlap of a steal, a remote wake-up and a switch.", "anchors": ["src/scheduler.cpp:49-309", "src/context.cpp:200-250", "src/context.cpp:319-340", "src/algo/work_stealing.cpp:60-100", "src/algo/shared_work.cpp:20-80", "src/algo/round_robin.cpp:18-45"]}
{"id": "C77", "title": "Destroying the scheduler of a thread runs its fibers to completion", "statement": "When the scheduler of a thread has been destroyed, every fiber created on that thread has terminated, unless another thread that is still running has taken it over.", "quantifier": "all executions of any number of threads with any algorithms", "why_tests_cant": "A program that joins its fibers never sees it; the order of yield and the test for an empty worker queue decides.", "anchors": ["src/scheduler.cpp:97-137", "src/algo/shared_work.cpp:24-37", "src/algo/work_stealing.cpp:60-66"]}
{"id": "C78", "title": "waitfor_all() for one stream returns the reported status and leaves no access behind", "statement": "waitfor_all(st) returns exactly once the runtime has reported the stream (or its registration has failed), with the reported stream and status; a blocked caller will be woken; and nothing touches the rendezvous object after waitfor_all() has returned.", "quantifier": "all interleavings of the caller and the callback thread, all status codes", "why_tests_cant": "The window is between unlock() and notify_one() on a thread of the GPU runtime; tests without a GPU do not run this code at all.", "anchors": ["include/boost/fiber/cuda/waitfor.hpp:42-74", "include/boost/fiber/cuda/waitfor.hpp:120-124", "include/boost/fiber/hip/waitfor.hpp:42-74"]}
{"id": "C79", "title": "waitfor_all() for several streams returns one result per stream", "statement": "waitfor_all(st0, ...) returns once all streams have been reported, with one entry per distinct stream carrying the reported status; no callback, whenever it runs, makes the constructor use an invalid iterator or touches a destroyed object; a blocked caller will be woken.", "quantifier": "all lists of streams, all interleavings of the constructor, the caller and the callbacks, all outcomes of the registrations", "why_tests_cant": "A stream that is already idle calls back while the constructor is still iterating over the set from which the callback erases.", "anchors": ["include/boost/fiber/cuda/waitfor.hpp:77-114", "include/boost/fiber/cuda/waitfor.hpp:126-131", "include/boost/fiber/hip/waitfor.hpp:77-114"]}
{"id": "C80", "title": "A wait for a duration does not end before the duration has passed", "statement": "sleep_for(d), try_lock_for(d), wait_for(d) and the timed channel operations with a positive duration d compute a deadline that is d after the moment of the call, so that a timeout is never reported earlier.", "quantifier": "all readings of the clock, all durations of all integral periods", "why_tests_cant": "Only durations near the end of their range fail, such as hours::max() used as 'for ever'.", "anchors": ["include/boost/fiber/operations.hpp:45-49", "include/boost/fiber/timed_mutex.hpp:66-69", "include/boost/fiber/condition_variable.hpp:127-142", "include/boost/fiber/buffered_channel.hpp:188-203"]}
{"id": "C81", "title": "A wait until a time point of another clock does not end before that clock has reached it", "statement": "sleep_until(tp), try_lock_until(tp), wait_until(tp) with a time point of a clock that runs with the steady clock at some offset compute a deadline at which that clock has reached tp; a time point in the past is a deadline in the past.", "quantifier": "all readings of both clocks in both orders of evaluation, all time points, all integral periods", "why_tests_cant": "The error is the time between two readings of clocks inside one expression whose order of evaluation is unspecified.", "anchors": ["include/boost/fiber/detail/convert.hpp:25-35"]}
{"id": "C82", "title": "Properties can be used on every fiber of an algorithm with properties", "statement": "With an algorithm derived from algorithm_with_properties, fiber::properties() on any fiber object and this_fiber::properties() in any fiber give the properties of that fiber, and a setter that calls notify() works in whatever state the fiber is (ready, running, blocked, terminated).", "quantifier": "all programs of one thread that create, yield, block, sleep, wake, terminate fibers and change priorities", "why_tests_cant": "Whether the properties exist depends on whether the fiber has passed through awakened() before.", "anchors": ["include/boost/fiber/fiber.hpp:215-220", "src/properties.cpp:22-34", "include/boost/fiber/algo/algorithm.hpp:109-129", "include/boost/fiber/operations.hpp:51-70"]}
{"id": "C83", "title": "The priority scheduler runs the ready fiber with the highest priority, in turn", "statement": "Whenever a fiber leaves the processor with priority_scheduler, the next one is among the ready fibers the one with the highest priority, and of those with this priority the one that has been ready with it for the longest time, however often priorities of ready, running or blocked fibers are changed in between.", "quantifier": "all programs of one thread with any number of fibers and any priorities", "why_tests_cant": "A stale position in the queue after a change of priority shows only for particular sequences of changes and wake-ups.", "anchors": ["examples/priority.cpp:77-216", "src/properties.cpp:22-34"]}
{"id": "C84", "title": "A fiber whose timer has expired becomes ready although other fibers keep yielding", "statement": "With priority_scheduler a sleeping fiber is made ready after its deadline, whatever the priorities of the other fibers are.", "quantifier": "all programs of one thread, all priorities", "why_tests_cant": "Needs two fibers above the priority of the dispatcher that never block.", "anchors": ["examples/priority.cpp:97-135", "src/scheduler.cpp:122-168"]}
{"id": "C85", "title": "Lock elision is invisible", "statement": "Programs that use spinlock_rtm (critical sections run as hardware transactions, with a fall-back to the real lock) behave as with an ordinary lock: the committed history, and what a running transaction has seen so far, is a history in which a lock is acquired only while nobody has it, is released by its owner, and every read returns the value written last; critical sections may be nested and overlap in any way. rtm_end() is executed only in a transaction. One call of lock() starts at most BOOST_FIBERS_RETRY_THRESHOLD transactions, and on a free lock it returns.", "quantifier": "any number of threads, locks and data cells, all programs without recursive locking, all interleavings, aborts at any moment with any status", "why_tests_cant": "Needs TSX hardware; aborts and conflicts cannot be forced at every instruction by a test.", "anchors": ["include/boost/fiber/detail/spinlock_rtm.hpp: lock, unlock", "include/boost/fiber/detail/rtm.hpp: rtm_begin, rtm_end"]}
{"id": "C86", "title": "try_lock() of the eliding spinlock fails only if the lock is not free", "statement": "spinlock_rtm::try_lock() returns false only if some thread has the lock.", "quantifier": "all executions", "why_tests_cant": "Depends on aborts of the processor, which a test cannot place.", "anchors": ["include/boost/fiber/detail/spinlock_rtm.hpp: try_lock"]}
{"id": "C87", "title": "Unbuffered channel: a throwing move loses nothing but its own value", "statement": "If moving a value out of the channel throws, that value is received by nobody; every other value is still received at most once and only if it was offered, pops return exactly the values moved to them, and a push that reports success had its value received and no move of it has thrown.", "quantifier": "all fibers, executions, and choices of the moves that throw", "why_tests_cant": "A test has to make the move constructor throw at a chosen element under a chosen interleaving.", "anchors": ["include/boost/fiber/unbuffered_channel.hpp: pop, value_pop, pop_wait_until, push"]}
{"id": "C88", "title": "Unbuffered channel: a throwing move does not strand the producer", "statement": "If moving a value out of the channel throws, the producer that offered the value does not stay blocked in push forever.", "quantifier": "all executions and choices of the moves that throw", "why_tests_cant": "The failure is that a fiber never returns, even after close(): a universal statement about all continuations.", "anchors": ["include/boost/fiber/unbuffered_channel.hpp: pop, value_pop, pop_wait_until, push"]}
{"id": "C89", "title": "The scheduler provides the blocking primitives that the synchronization objects rely on", "statement": "Every execution of the concrete scheduler (round robin, any number of threads, without assertion failures) is an execution of the abstract blocking interface: a fiber runs, is suspended, is queued, sleeps and is woken exactly as create_waker, suspend, yield, wait_until and wake of the interface say; wake() succeeds in one exactly when it does in the other, a timed wait returns the same result, and a fiber is blocked in the interface exactly when it waits for a wake-up or has terminated.", "quantifier": "all executions, all numbers of threads and fibers", "why_tests_cant": "It relates two descriptions of the same mechanism over all interleavings (remote wake-ups, timers, joins, termination, shutdown); no finite number of runs covers them.", "anchors": ["src/scheduler.cpp: suspend, yield, wait_until, schedule, schedule_from_remote, sleep2ready_, remote_ready2ready_, dispatch", "src/context.cpp: wake, join, terminate", "include/boost/fiber/context.hpp: create_waker", "src/waker.cpp"]}
{"id": "C90", "title": "An idle thread does not sleep while there is a ready fiber that it could run", "statement": "A thread whose dispatcher waits in suspend_until() of its algorithm, without having been notified, has no ready fiber that its pick_next() could return: none in its own queue, in the shared queue (shared_work) or in the queues it steals from (work_stealing). No wake-up that another thread hands to it is lost.", "quantifier": "all executions of any number of threads with any mixture of round_robin, shared_work, work_stealing and numa work_stealing, with and without suspend, every interleaving of pick_next(), awakened(), suspend_until(), notify(), timeouts, and shutdown", "why_tests_cant": "the fiber is only delayed until the creating thread gets round to it, so a test sees a slow program at most; whether a thread sleeps at the moment a fiber becomes ready depends on the interleaving", "anchors": ["src/algo/shared_work.cpp:21-92", "src/algo/work_stealing.cpp:49-115", "src/algo/round_robin.cpp:47-66", "src/scheduler.cpp:123-214", "doc/scheduling.qbk:398"]}
{"id": "C91", "title": "A waiter of a mutex gets it under fair scheduling", "statement": "If every fiber that can run is run again and again and the owner of a mutex (any of the four classes) gives it up again and again, then a fiber that waits in lock() acquires the mutex some time. A waiting fiber that gets the processor while the mutex is free acquires it at once.", "quantifier": "all infinite executions in which the fibers involved are run again and again", "why_tests_cant": "Starvation is a property of infinite executions; a test stops after finitely many rounds and usually has other pauses in the loop, which hide the problem.", "anchors": ["src/mutex.cpp:24-42", "src/mutex.cpp:63-75", "src/timed_mutex.cpp:40-58", "src/recursive_mutex.cpp:22-41", "src/recursive_timed_mutex.cpp:46-64"]}
{"id": "C92", "title": "Buffered channel: strong exception guarantee", "statement": "If copying or moving an element throws inside an operation of a buffered channel, the operation has no effect: the channel, its waiting fibers and all other fibers are as before; a push that follows succeeds at once, a pop that follows takes the oldest value not yet delivered.", "quantifier": "all element types whose copy and move operations may throw at any call (without changing source and destination), all histories and schedules", "why_tests_cant": "The exception has to come in a particular state of the ring and of the wait queues.", "anchors": ["include/boost/fiber/buffered_channel.hpp:106-257", "include/boost/fiber/buffered_channel.hpp:259-353"]}
{"id": "C93", "title": "Buffered channel strands nobody when element operations throw", "statement": "Also when copying or moving elements throws, a fiber is not left blocked in push() while the channel has room, or in pop() while it holds a value, unless another runnable fiber inside such an operation is going to use that room or value.", "quantifier": "all schedules, exceptions at any transfer", "why_tests_cant": "Needs an exception in exactly the fiber that has been woken, with another one waiting behind it.", "anchors": ["include/boost/fiber/buffered_channel.hpp:145-188", "include/boost/fiber/buffered_channel.hpp:278-320", "src/waker.cpp:49-58"]}
{"id": "C94", "title": "value_pop() loses no value when the element type throws", "statement": "Every value accepted by a buffered channel is delivered or stays in the channel, also if the move constructor of the element throws while value_pop() returns the value; consumers get accepted values only, in order, each at most once.", "quantifier": "all histories and schedules", "why_tests_cant": "Depends on whether the compiler elides the move of the returned local variable.", "anchors": ["include/boost/fiber/buffered_channel.hpp:298-320"]}
{"id": "C95", "title": "Objects in fiber-local storage are destroyed exactly once, also if cleanup functions use fiber-local storage", "statement": "For every fiber and all cleanup functions that call reset(), release() and get() of fiber_specific_ptr objects themselves: when the fiber has ended, each object has been handed to the cleanup function or released exactly as often as it was stored, and no call has undefined behaviour or recurses without end.", "quantifier": "all sequences of calls of the fiber, all bodies of cleanup functions, all addresses", "why_tests_cant": "the tests use cleanup functions that only delete; the failures depend on the relative addresses of the pointer objects", "anchors": ["src/context.cpp:264-280", "src/context.cpp:349-372", "include/boost/fiber/fss.hpp:85-98"]}
{"id": "C96", "title": "get() returns no pointer to a destroyed object", "statement": "At every call of fiber_specific_ptr::get(), also inside cleanup functions, a pointer that is returned belongs to an object that has been stored more often than it has been cleaned up and released.", "quantifier": "all sequences of calls, all bodies of cleanup functions", "why_tests_cant": "needs a cleanup function that reads another pointer object while the fiber ends, in the right order of addresses", "anchors": ["src/context.cpp:264-280", "src/context.cpp:342-372", "include/boost/fiber/fss.hpp:71-98"]}
{"id": "C97", "title": "An exception out of a cleanup function does not lead to a second cleanup", "statement": "If the cleanup function throws in reset() (documented: reset() throws the exception raised during cleanup), the object is not handed to the cleanup function again.", "quantifier": "all states, all pointer objects", "why_tests_cant": "no test uses a throwing cleanup function", "anchors": ["src/context.cpp:349-372", "src/context.cpp:264-280", "include/boost/fiber/fss.hpp:92-98"]}
{"id": "C98", "title": "The lock-free ready queue is correct under the C++ memory model", "statement": "With the memory orders used in context_spmc_queue.hpp (not assuming sequential consistency), every fiber pushed is obtained by exactly one pop() or steal(), push() happens before the steal() that returns the fiber, pop() returns null only if everything pushed has been obtained, and no thief accesses an array or a context whose construction does not happen before the access.", "quantifier": "for all capacities, all interleavings and all values that loads may return under the memory orders of the code, any number of thieves, including growth", "why_tests_cant": "the outcome depends on weakly ordered memory accesses; on x86 hardware most of the behaviours cannot even occur", "anchors": ["include/boost/fiber/detail/context_spmc_queue.hpp:121-136", "include/boost/fiber/detail/context_spmc_queue.hpp:138-164", "include/boost/fiber/detail/context_spmc_queue.hpp:166-188"]}
{"id": "C99", "title": "Asio yield: an asynchronous operation resumes its fiber once, with its result", "statement": "A fiber that calls an asynchronous function of Boost.Asio with fibers::asio::yield (or yield[ec]) gets exactly the error code and value with which the completion handler was called (an exception for a non-zero error code unless ec is bound), once, whether the handler runs before the fiber waits, while it decides to suspend, or after it has suspended, on any thread. A suspended fiber is scheduled exactly once and a running one never; neither the async_result on the fiber's stack nor the shared yield_completion is touched after it has been destroyed; the completion is deleted when the call has returned and the last handler copy is gone. An operation that ends in any way resumes its fiber.", "quantifier": "all interleavings of any number of fibers, operations, handler copies, handler destructions and handler invocations on any threads", "why_tests_cant": "the race is between the test of state_ under the spinlock, the context switch and a handler on another thread; which order occurs is up to the scheduler, and a dangling write to the stack of a resumed fiber usually goes unnoticed", "anchors": ["examples/asio/detail/yield.hpp:33-76", "examples/asio/detail/yield.hpp:88-132", "examples/asio/detail/yield.hpp:141-171", "examples/asio/detail/yield.hpp:204-236", "examples/asio/detail/yield.hpp:249-272", "examples/asio/yield.hpp:22-47"]}
{"id": "C100", "title": "Asio scheduler: the thread blocks in run_one() only when nothing is due, and deadlines end the wait", "statement": "With the scheduling algorithm that embeds Boost.Asio, has_ready_fibers() is true exactly if a fiber other than the dispatcher is ready; the thread blocks in io_context::run_one() only if no fiber is ready; a wake-up from another thread ends the wait; and if a fiber sleeps until some time, the wait ends by then.", "quantifier": "all executions: any number of fibers, sleeps, timed waits, handlers that wake fibers, yield or block, wake-ups from other threads with any delay between the push and notify(), any passing of time", "why_tests_cant": "the dispatcher sets the timer only when the service fiber is suspended in cnd_.wait(); whether it is depends on the order of the ready queue and on when notify() of another thread takes effect", "anchors": ["examples/asio/round_robin.hpp:70-99", "examples/asio/round_robin.hpp:101-128", "examples/asio/round_robin.hpp:131-158", "examples/asio/round_robin.hpp:162-182", "src/scheduler.cpp:123-174", "src/scheduler.cpp:195-214"]}
{"id": "C101", "title": "Asio scheduler: an idle thread does not spin", "statement": "Each call of suspend_until() by the dispatcher lets the service fiber run the io_context, so that a thread whose fibers are all suspended waits in run_one() instead of calling suspend_until() again and again (the comment in suspend_until() describes such a loop, to be avoided).", "quantifier": "all executions: any number of fibers and handlers, wake-ups from other threads, handlers that wake fibers, yield or block", "why_tests_cant": "a busy loop has no visible effect besides the processor time and a growing queue of cancelled timer handlers", "anchors": ["examples/asio/round_robin.hpp:131-158", "examples/asio/round_robin.hpp:81-96", "src/scheduler.cpp:123-174"]}
{"id": "C102", "title": "Creating a fiber succeeds or has no effect, and what it owns is destroyed exactly once", "statement": "The constructor of class fiber either creates a fiber or throws without lasting effect. Every copy of the function object and of the arguments, every property object and the stack of a fiber is destroyed exactly once: the copies used for the call before the fiber counts as terminated, all other objects when the last reference has been given up, the stack last. The context is destroyed exactly when the handle has been joined or detached and the dispatcher has released the terminated fiber.", "quantifier": "all executions of one fiber with any number of arguments, with or without a property object: any copy, move or the stack allocation may throw, property objects are replaced at any time, the handle is joined or detached at any time", "why_tests_cant": "a leaked stack is only noticed by counting allocations in a test that makes the copy of a particular argument throw; the order of the destructors depends on when the dispatcher runs", "anchors": ["include/boost/fiber/context.hpp:412-422", "include/boost/fiber/context.hpp:431-476", "include/boost/fiber/context.hpp:486-511", "include/boost/fiber/fiber.hpp:161-172", "src/context.cpp:159-170", "src/context.cpp:374-378", "src/scheduler.cpp:25-46"]}
{"id": "C103", "title": "After join() no copy of the function object and of the arguments is left", "statement": "When fiber::join() has returned, all copies that the library has made of the function object and of the arguments of the fiber have been destroyed.", "quantifier": "all executions of one fiber with any number of arguments", "why_tests_cant": "the destructors run when the dispatcher releases the terminated fiber, usually soon after join() but at no defined time; tests with movable types see empty objects only", "anchors": ["include/boost/fiber/context.hpp:431-456", "include/boost/fiber/context.hpp:412-422", "src/fiber.cpp:43-56", "src/scheduler.cpp:25-46"]}
{"id": "C104", "title": "A fiber has one handle until it is joined or detached", "statement": "At most one object of class fiber refers to a fiber, and a fiber keeps its handle until join() has waited for it or detach() is called. join() returns only after the fiber that the handle referred to has terminated and gives up that fiber only. The destructor and the move assignment call std::terminate() exactly if the handle is joinable. The context of a fiber is destroyed when no handle refers to it and the scheduler has released the terminated fiber, and is not accessed afterwards.", "quantifier": "all interleavings of any number of fibers that construct, move, assign, swap, destroy, detach and join any number of handles, also several fibers joining the same handle", "why_tests_cant": "the handle is reset after the wait of join(); what it refers to by then depends on what other fibers have done in the meantime", "anchors": ["include/boost/fiber/fiber.hpp:161-221", "src/fiber.cpp:23-65", "src/context.cpp:228-243", "include/boost/fiber/context.hpp:412-422"]}
{"id": "C105", "title": "Properties are passed to the scheduling algorithm that has the fiber, with the right type", "statement": "Whenever awakened(ctx, props) or property_change(ctx, props) of a scheduling algorithm is called, props is an object of the property type of that algorithm; a change of a property of a ready fiber is reported once, to the algorithm of the thread that has the fiber in its ready queue, also after the algorithm has been replaced by use_scheduling_algorithm(); no destroyed algorithm is called.", "quantifier": "all executions of one thread: any number of fibers with or without their own property objects, any number of replacements of the algorithm by algorithms with and without properties, changes of properties at any time", "why_tests_cant": "the stale pointer is only used if a property of a fiber is changed between the replacement of the algorithm and the next time the fiber is picked; a cast to the wrong type has no immediate effect", "anchors": ["include/boost/fiber/algo/algorithm.hpp:91-154", "src/properties.cpp:22-34", "include/boost/fiber/properties.hpp:36-76", "src/scheduler.cpp:322-329", "include/boost/fiber/context.hpp:462-471"]}
{"id": "C106", "title": "When join() returns, the cleanup functions of fiber-local storage have run", "statement": "fiber::join() returns after the function of the joined fiber and all cleanup functions of its fiber-local storage have returned; every cleanup function runs exactly once, after the function of the fiber has returned and before the fiber gives up the processor for the last time.", "quantifier": "all interleavings of any number of fibers on any number of threads, any number of cleanup functions per fiber, any number of joining fibers, cleanup functions that suspend their fiber", "why_tests_cant": "the joining fiber is woken before the cleanup functions run and has to be resumed by another thread within that time", "anchors": ["src/context.cpp:228-243", "src/context.cpp:264-280", "src/scheduler.cpp:216-240", "src/waker.cpp:16-23", "src/waker.cpp:53-59"]}
{"id": "C107", "title": "join() of a fiber that has terminated does not hang", "statement": "If a fiber has terminated or is running the cleanup functions of its fiber-local storage, every join() for it returns when these functions have returned, and other fibers of the thread can run meanwhile. A fiber that waits in join() is woken when the joined fiber terminates.", "quantifier": "all interleavings of any number of fibers on any number of threads, with cleanup functions that may suspend their fiber", "why_tests_cant": "only a cleanup function that suspends its fiber and a join() by a fiber of the same thread at that time lead to the deadlock", "anchors": ["src/context.cpp:228-243", "src/context.cpp:264-280", "src/scheduler.cpp:216-240", "include/boost/fiber/detail/spinlock.hpp:38-88"]}
{"id": "C108", "title": "A condition variable can be destroyed when all waiting fibers have been notified", "statement": "If every fiber that is waiting on a condition variable has been notified by notify_one() or notify_all(), the condition variable can be destroyed, although the calls of wait(), wait_for() or wait_until() have not returned: nobody accesses it afterwards, and its queue is empty.", "quantifier": "all interleavings of any number of fibers that wait with and without deadlines, notify one or all, and destroy the condition variable under the documented precondition; deadlines pass at any time", "why_tests_cant": "the deadline has to pass before the notification and the fiber has to be resumed after the destruction", "anchors": ["include/boost/fiber/condition_variable.hpp:49-133", "src/condition_variable.cpp:18-28", "src/waker.cpp:16-68", "doc/condition_variables.qbk:215-217"]}
{"id": "C109", "title": "A promise can be destroyed when get() of its future has returned", "statement": "A fiber that has received the result of a promise may destroy the promise and the future; set_value(), which may not have returned yet, does not access them or the shared state afterwards.", "quantifier": "all interleavings of one fiber that calls set_value() and any number of fibers that call get() on copies of the shared_future, destroy their copies and the promise, on any number of threads", "why_tests_cant": "get() has to return and the promise has to be destroyed between two instructions of set_value() on another thread", "anchors": ["include/boost/fiber/future/detail/shared_state.hpp:46-61", "include/boost/fiber/future/detail/shared_state.hpp:83-86", "include/boost/fiber/future/detail/shared_state.hpp:148-173", "include/boost/fiber/future/promise.hpp:55-59", "include/boost/fiber/future/promise.hpp:123-135", "examples/adapt_callbacks.cpp:151-163"]}
{"id": "C110", "title": "The owner of a mutex is accessed without data races", "statement": "No fiber reads or writes the member owner_ of a mutex while another one writes it; try_lock() returns true exactly if it has taken the mutex.", "quantifier": "all interleavings, access by access, of any number of fibers that call lock(), try_lock(), try_lock_until() and unlock() on a mutex or timed_mutex", "why_tests_cant": "a race has no visible effect on most machines and only a race detector on several threads would report it", "anchors": ["src/mutex.cpp:24-75", "src/timed_mutex.cpp:23-94"]}
{"id": "C111", "title": "wait_first_...() delivers the first outcome", "statement": "wait_first_value() returns the value of the function that ends first; wait_first_outcome() returns its value or throws its exception; wait_first_success() returns the value of the first function that ends without an exception and throws all exceptions if there is none. The call always ends.", "quantifier": "all numbers of functions, all orders in which they end, all choices of which throw, one or several threads", "why_tests_cant": "overtaking needs more functions than the channel has room for and a particular order of their ends", "anchors": ["examples/wait_stuff.cpp:192-237", "examples/wait_stuff.cpp:255-323", "examples/wait_stuff.cpp:356-432", "examples/wait_stuff.cpp:467-489", "include/boost/fiber/buffered_channel.hpp:52-54", "include/boost/fiber/buffered_channel.hpp:167-188", "doc/when_any.qbk"]}
{"id": "C112", "title": "wait_all_values(), wait_all_until_error() and wait_all_collect_errors() return the values of all functions", "statement": "If no function throws, the call returns the value of every function, each once. If functions throw, wait_all_until_error() throws the first exception and wait_all_collect_errors() all of them. The call always ends.", "quantifier": "all numbers of functions, all orders in which they end, all choices of which throw, fibers on one or several threads", "why_tests_cant": "the lost decrement of the counter needs two threads in a window of two instructions", "anchors": ["examples/wait_stuff.cpp:562-592", "examples/wait_stuff.cpp:597-667", "examples/wait_stuff.cpp:701-753", "examples/wait_stuff.cpp:820-853"]}
{"id": "C113", "title": "The fibers launched by wait_first_...() and wait_all_...() end", "statement": "After the call has ended, every fiber that it has launched ends as soon as its function has ended.", "quantifier": "all numbers of functions, all orders in which they end, all choices of which throw", "why_tests_cant": "a fiber that stays suspended is only visible as a leak after the test has passed; it needs more functions than the channel has room for", "anchors": ["examples/wait_stuff.cpp:192-237", "examples/wait_stuff.cpp:562-592", "examples/wait_stuff.cpp:701-753", "include/boost/fiber/buffered_channel.hpp:167-188"]}
{"id": "C114", "title": "wait_first_simple() and wait_all_simple() return when the first function or all functions have ended", "statement": "wait_first_simple() returns when a function has ended, not earlier and without waiting for the others; wait_all_simple() returns when all functions have ended. Without functions both return immediately.", "quantifier": "all numbers of functions including none, all interleavings of the fibers and the caller on any number of threads", "why_tests_cant": "the notification has to fall into the window between the test of the flag and the suspension", "anchors": ["examples/wait_stuff.cpp:120-174", "examples/wait_stuff.cpp:508-546", "src/barrier.cpp:26-41"]}
{"id": "C115", "title": "wait_all_members() returns the values in the order of the arguments", "statement": "wait_all_members() returns when all functions have ended with a value, with the values in the order of the arguments whatever the order of the ends; if functions throw, it throws the exception of the leftmost of them. The call always ends.", "quantifier": "all numbers of functions, all orders in which they end, all choices of which throw", "why_tests_cant": "tests run a few orders of a few functions", "anchors": ["examples/wait_stuff.cpp:893-915", "include/boost/fiber/future/async.hpp:36-55"]}
{"id": "C116", "title": "Publish/subscribe server: every message reaches every subscriber", "statement": "Every message that is published on a queue is written to the client of every session that is subscribed to the queue at that time, in the order of the publication, each once.", "quantifier": "all interleavings of any number of publisher and subscriber sessions, queues and messages, with asynchronous writes that take any time or fail", "why_tests_cant": "the message has to be published while the fiber of the subscriber is suspended in async_write()", "anchors": ["examples/asio/ps/server.cpp:31-50", "examples/asio/ps/server.cpp:132-217", "examples/asio/ps/server.cpp:220-231"]}
{"id": "C117", "title": "Publish/subscribe server: a queue exists as long as its publisher is connected", "statement": "The queue that a publisher has registered exists until its session ends, only this publisher publishes on it, and its publications do not fail.", "quantifier": "all interleavings of any number of publisher and subscriber sessions that use any names", "why_tests_cant": "needs a second publisher that uses a name that is in use, or disconnects before it has sent a name", "anchors": ["examples/asio/ps/server.cpp:52-129", "examples/asio/ps/server.cpp:235-296"]}
{"id": "C118", "title": "Publish/subscribe server: subscriber sessions end with their queue", "statement": "When a queue is unregistered, the sessions that are subscribed to it end. Nothing is published to a session that has ended.", "quantifier": "all interleavings of any number of publisher and subscriber sessions", "why_tests_cant": "the queue has to be unregistered while the fiber of the subscriber is suspended in async_write()", "anchors": ["examples/asio/ps/server.cpp:69-72", "examples/asio/ps/server.cpp:83-88", "examples/asio/ps/server.cpp:144-208", "examples/asio/ps/server.cpp:220-224"]}
{"id": "C119", "title": "Publish/subscribe server: messages are passed on unchanged without reading behind the buffers", "statement": "Whatever 1024 bytes a client sends, the server reads only its buffers and passes on the text before the first zero.", "quantifier": "all blocks of bytes of any length of the buffers", "why_tests_cant": "the bytes behind the buffer usually contain a zero soon, so that nothing is noticed", "anchors": ["examples/asio/ps/server.cpp:23", "examples/asio/ps/server.cpp:161", "examples/asio/ps/server.cpp:172", "examples/asio/ps/server.cpp:203-208", "examples/asio/ps/server.cpp:266", "examples/asio/ps/server.cpp:273-284"]}
{"id": "C120", "title": "Adapted nonblocking operation: read() returns the desired data or all there is", "statement": "read() returns the first desired bytes of the data, or all bytes if there are fewer; if an error occurs it throws IncompleteRead with the bytes read before the error and its code. No byte is lost or read twice. The call ends.", "quantifier": "all data, chunk lengths and desired lengths; errors injected by other fibers whenever the fiber has yielded", "why_tests_cant": "only the lengths 26, 5 and 13 are tried; the wrong cases need a last chunk that is shorter than the others or chunks of length 0", "anchors": ["examples/adapt_nonblocking.cpp:52-97", "examples/adapt_nonblocking.cpp:103-126", "examples/adapt_nonblocking.cpp:155-170", "doc/nonblocking.qbk"]}
{"id": "C121", "title": "Reference counts: the object is destroyed once, after every use by every thread", "statement": "An object with an intrusive reference count (context, shared state, algorithm, cleanup function) is destroyed exactly once, by the thread that drops the last reference and not before; under the C++ memory model every use of the object by any thread happens before its destruction.", "quantifier": "any number of threads and references, all interleavings of uses, copies, transfers and releases; fetch_add relaxed, fetch_sub release and the acquire fence as written", "why_tests_cant": "needs a weakly ordered processor and the right interleaving; with the fence missing the tests pass on x86", "anchors": ["include/boost/fiber/context.hpp:374-392", "include/boost/fiber/future/detail/shared_state.hpp:143-154", "include/boost/fiber/algo/algorithm.hpp:52-64", "include/boost/fiber/algo/algorithm.hpp:76-88", "include/boost/fiber/detail/fss.hpp:39-50"]}
{"id": "C122", "title": "Thread channel of the benchmarks: a linearizable bounded FIFO queue", "statement": "push() and value_pop() of the channel for threads behave as operations of a FIFO queue with the given capacity, for every capacity that the constructor accepts: each has its effect once between call and return, values leave in the order in which they have come in, no value is lost, duplicated or overwritten, and a push() called after close() has no effect.", "quantifier": "every accepted capacity, any number of producers and consumers, all interleavings of the single accesses, spurious failures of compare_exchange_weak()", "why_tests_cant": "the benchmarks use one capacity; lost values need a claimed but unpublished slot at the wrong moment", "anchors": ["performance/thread/buffered_channel.hpp:75-128", "performance/thread/buffered_channel.hpp:131-141", "performance/thread/buffered_channel.hpp:171-225"]}
{"id": "C123", "title": "Thread channel of the benchmarks: nobody is left asleep", "statement": "A thread that waits in push() while there is room or in value_pop() while there is a value is not left asleep; close() lets every waiting thread return.", "quantifier": "every accepted capacity, any number of producers and consumers, all interleavings", "why_tests_cant": "a lost notification needs a switch between the test of the predicate and the wait", "anchors": ["performance/thread/buffered_channel.hpp:65-73", "performance/thread/buffered_channel.hpp:164-169", "performance/thread/buffered_channel.hpp:178-191", "performance/thread/buffered_channel.hpp:204-219"]}
{"id": "C124", "title": "What precedes close() happens before an operation that finds the channel closed", "statement": "What a thread has done before its call of close() closed the channel happens (in the sense of the C++ memory model) before the return of every operation that reports that the channel is closed, so the other thread may read it without a data race.", "quantifier": "any number of threads, every execution with the memory orders as written", "why_tests_cant": "A missing release is invisible on x86 and rarely visible elsewhere; only reasoning about happens-before covers all executions.", "anchors": ["include/boost/fiber/unbuffered_channel.hpp:107-126", "include/boost/fiber/buffered_channel.hpp:85-104"]}
{"id": "C125", "title": "Unbuffered channel: close() empties the wait queues although closed_ is relaxed", "statement": "When close() has returned, no fiber waits or will wait in the wait queues of an unbuffered channel, although threads may read the old value of the flag afterwards; an operation woken by close() sees the new value.", "quantifier": "any number of producers, consumers and closing threads, every execution with the memory orders as written", "why_tests_cant": "Stale reads depend on the hardware and on timing.", "anchors": ["include/boost/fiber/unbuffered_channel.hpp:107-160", "include/boost/fiber/unbuffered_channel.hpp:300-324"]}
{"id": "C126", "title": "A packaged_task may be used by its own function", "statement": "While the function of a packaged_task executes, the function object is neither moved nor destroyed whatever is done with the packaged_task meanwhile (reset(), move assignment, another call), and when the function ends its outcome is delivered to the future of the shared state on which it was started, and operator() returns.", "quantifier": "all functions: any finite sequence of operations on the packaged_task, with nested calls, ending with a value or an exception", "why_tests_cant": "The behaviours of functions are unbounded; use of a destroyed state goes unnoticed most of the time.", "anchors": ["include/boost/fiber/future/packaged_task.hpp:117-132", "include/boost/fiber/future/detail/task_object.hpp:56-94"]}
{"id": "C127", "title": "Skynet benchmarks compute the sum of all numbers and terminate", "statement": "For every div and every size that is a power of div, skynet() delivers the sum of the numbers below size, whatever the scheduling; every execution is finite and no execution ends before all fibers have terminated and main() has its value.", "quantifier": "all div >= 1, all sizes div^h, all channel capacities, all interleavings of the fibers, the variants join, stealing_join and detach", "why_tests_cant": "The benchmark runs with div = 10 only; the number of interleavings of a million fibers is beyond any test.", "anchors": ["performance/fiber/skynet_join.cpp:31-53", "performance/fiber/skynet_stealing_join.cpp:43-65", "performance/fiber/skynet_detach.cpp:31-49"]}
{"id": "C128", "title": "A channel can be destroyed when the value of every push() has been received", "statement": "If every push() that is called on a channel has its value received, the receiver may then destroy the channel, as the skynet benchmarks do with detached children: no push() accesses the channel after its value has been received.", "quantifier": "any number of producers, all interleavings", "why_tests_cant": "The window is a few instructions in the push() of a detached fiber or thread; a crash is rare and hard to attribute.", "anchors": ["performance/thread/skynet_std.cpp:25-35", "performance/thread/buffered_channel.hpp:176-181", "performance/fiber/skynet_detach.cpp:35-48", "include/boost/fiber/buffered_channel.hpp:145-165"]}
{"id": "C129", "title": "topology() lists every CPU once and gives correct distances on all systems", "statement": "On Windows, Solaris, AIX and FreeBSD numa::topology() returns nodes such that every logical CPU of the machine is in exactly one node and no other CPU is listed, and the i-th distance of a node is its distance to the i-th node: 10 for the node itself and 20 for the others.", "quantifier": "for all machines as reported by the operating system (any number of nodes, groups and CPUs, any tree of locality groups)", "why_tests_cant": "Needs machines of each system with unusual topologies: memory at inner locality groups, gaps in the numbers of the nodes.", "anchors": ["src/numa/windows/topology.cpp:91-127", "src/numa/solaris/topology.cpp:22-74", "src/numa/aix/topology.cpp:23-77", "src/numa/freebsd/topology.cpp:26-51"]}
{"id": "C130", "title": "On Windows pin_thread() selects the CPU that topology() lists", "statement": "On Windows pin_thread( c) for a CPU c of a node returned by topology() selects exactly one processor, which the system reports for that node; every reported processor is listed in its node under a number that selects it.", "quantifier": "for all processor groups and affinity masks", "why_tests_cant": "Machines with more than 64 processors (several processor groups) are needed, and every processor must be tried.", "anchors": ["src/numa/windows/topology.cpp:91-127", "src/numa/windows/pin_thread.cpp:35-44"]}
{"id": "C131", "title": "A mutex can be destroyed by the fiber that uses it last", "statement": "If every one of n fibers locks a mutex (with lock(), or with try_lock() repeated until it succeeds), counts down a counter that the mutex protects, and unlocks the mutex, then the fiber that has counted down to 0 may destroy the mutex as soon as its unlock() has returned: no fiber and no scheduler accesses the mutex afterwards, and the assertions of the destructor hold.", "quantifier": "for all numbers of fibers, all assignments of the fibers to threads, all interleavings, all choices between lock() and try_lock()", "why_tests_cant": "The windows between releasing the spinlock and returning from unlock() of another fiber are a few instructions wide.", "anchors": ["src/mutex.cpp:24-75", "include/boost/fiber/mutex.hpp:44-47", "include/boost/fiber/detail/spinlock_ttas_futex.hpp:118-123", "src/waker.cpp:18-24"]}
{"id": "C132", "title": "A fiber waiting in push() or pop() of a buffered channel gets its turn under fair scheduling", "statement": "If all fibers run again and again and values keep passing through a buffered channel, then a fiber waiting in pop() eventually receives a value, and a fiber waiting in push() eventually stores its value.", "quantifier": "for all capacities and all infinite fair executions", "why_tests_cant": "Statement about infinite executions; a test only sees that the fiber has not returned so far.", "anchors": ["include/boost/fiber/buffered_channel.hpp:145-188", "include/boost/fiber/buffered_channel.hpp:277-320", "src/waker.cpp:49-58"]}
{"id": "C133", "title": "The bounded queue of the benchmark channel is free of data races and passes messages", "statement": "For every capacity that the constructor of performance/thread/buffered_channel.hpp accepts, under the C++ memory orders written in the code, concurrent push() and value_pop() never access the storage of a slot in a data race; the k-th successful value_pop() returns the value of the k-th successful push(), each once, and everything the pushing thread did before its push() happens before the return of that value_pop().", "quantifier": "for all accepted capacities, all numbers of producers and consumers and all executions, with stale relaxed loads and spurious failures of compare_exchange_weak", "why_tests_cant": "x86 hides missing ordering; data races and stale loads occur on weakly ordered machines and rare schedules only, and happens-before is not observable by a test", "anchors": ["performance/thread/buffered_channel.hpp:75-117", "performance/thread/buffered_channel.hpp:131-140", "performance/thread/buffered_channel.hpp:199-208"]}
{"id": "C134", "title": "push() and pop() of an unbuffered channel synchronize with each other under the C++ memory model", "statement": "On an open unbuffered channel with untimed operations, under the memory orders written in the code: no access to the slot of a producer is part of a data race; every value is received exactly once, between the call and the return of its push(); what the producer did before push() happens before the return of that pop(), and what the consumer did before pop() happens before the return of that push(); and whenever no operation can go on, there are not both a fiber waiting in push() and a fiber waiting in pop().", "quantifier": "for all numbers of producers and consumers, all values and all executions, with every stale value that an acquire load of slot_ may return", "why_tests_cant": "x86 hides missing ordering, stale loads occur on weakly ordered machines only, a lost wakeup needs a rare schedule, and happens-before is not observable by a test", "anchors": ["include/boost/fiber/unbuffered_channel.hpp:68-95", "include/boost/fiber/unbuffered_channel.hpp:128-193", "include/boost/fiber/unbuffered_channel.hpp:300-353"]}
{"id": "C135", "title": "Releasing a mutex synchronizes with every later acquisition", "statement": "For mutex, timed_mutex, recursive_mutex and recursive_timed_mutex: everything a fiber has done before it gives up the mutex (the last unlock(), or wait() on a condition variable) happens before, in the sense of the C++ memory model, the return of every later lock(), try_lock(), try_lock_until() or wait() that makes a fiber the owner. Data that is accessed only by the owner is therefore never part of a data race.", "quantifier": "for all four types, any number of fibers, all operations in any order, errors and timeouts included, all executions", "why_tests_cant": "happens-before is not observable by a test; a missing edge shows up only as a rare wrong value on weakly ordered machines", "anchors": ["src/mutex.cpp:24-74", "src/timed_mutex.cpp:22-84", "src/recursive_mutex.cpp:22-70", "src/recursive_timed_mutex.cpp:22-93", "include/boost/fiber/condition_variable.hpp:69-122"]}
{"id": "C136", "title": "barrier::wait() synchronizes all fibers of a round", "statement": "When a call of wait() on a barrier of size n returns, all n calls of its round have been made, and everything the n fibers had done before these calls happens before, in the sense of the C++ memory model, the return; the members of the barrier are accessed without data races.", "quantifier": "for all n >= 1, all numbers of fibers and rounds, spurious resumptions, all executions", "why_tests_cant": "happens-before is not observable by a test; schedules in which a fiber of the next round overtakes a sleeping one are rare", "anchors": ["src/barrier.cpp:30-44"]}
{"id": "C137", "title": "A result that is set happens before it is got", "statement": "At most one result is stored in a shared state. When get() yields a result, or wait() or wait_until() reports ready, the result has been stored before, and everything the storing fiber had done before its set_value() or set_exception() happens before, in the sense of the C++ memory model, that return; promise_already_satisfied is thrown only after a result has been stored; ready_, the exception and the value are accessed without data races, although the value is read after the mutex has been released.", "quantifier": "for any number of setting and getting fibers, shared futures, timeouts, all executions", "why_tests_cant": "happens-before is not observable by a test; x86 hides missing ordering", "anchors": ["include/boost/fiber/future/detail/shared_state.hpp:47-99", "include/boost/fiber/future/detail/shared_state.hpp:162-217"]}
{"id": "C138", "title": "A fiber's actions stay in order when it moves between threads, and join() synchronizes with the end of the fiber", "statement": "Everything a fiber does, its creation and every wakeup of it are totally ordered by happens-before, in the sense of the C++ memory model, however often the fiber migrates to another thread and whichever thread wakes it: what it did before a yield, sleep or wait is visible to it afterwards, what its creator did before the creation is visible to it, and what a fiber did before it woke another one is visible to the fiber woken. When join() returns, the fiber has ended, and its end and everything it has ever done happen before the return. The members of a context that are used for switching (c_, scheduler_, the hooks, sleep_waker_, tp_) are accessed without data races although no lock protects them, and a fiber that is woken always has a scheduler.", "quantifier": "for any number of threads and fibers, pinned or migrating (shared_work, work_stealing), launch::post and launch::dispatch, waits with and without deadline, wakeups from the same or another thread, outdated wakers, all executions", "why_tests_cant": "a missing happens-before edge cannot be observed on x86, and elsewhere only rarely; the number of ways a fiber is handed over is unbounded", "anchors": ["src/context.cpp:177-316", "src/scheduler.cpp:50-94", "src/scheduler.cpp:177-315", "src/scheduler.cpp:360-393", "src/waker.cpp:17-67", "src/algo/shared_work.cpp:22-66", "src/algo/work_stealing.cpp:50-90"]}
{"id": "C139", "title": "push() and pop() of a buffered channel synchronize with each other", "statement": "The k-th successful pop delivers the value of the k-th successful push, and everything the pushing fiber had done before its push happens before, in the sense of the C++ memory model, the return of that pop. In the other direction the channel is a counting semaphore: at most capacity - 1 values are in it, and everything the fiber that pops the k-th value had done before happens before the return of push number k + capacity - 1, which needs the room. An operation that reports closed, or is_closed() that returns true, happens after everything a closing fiber had done before close(); nothing is pushed after close(). The slots and members are accessed without data races.", "quantifier": "for all capacities >= 2, any number of fibers, all operations in any order with timeouts and close(), all executions", "why_tests_cant": "happens-before is not observable by a test; x86 hides missing ordering; the back-pressure direction is rarely tested at all", "anchors": ["include/boost/fiber/buffered_channel.hpp:36-355", "src/waker.cpp:17-46"]}
{"id": "C140", "title": "A fiber::id identifies one fiber", "statement": "Two fiber::id values compare equal exactly if they were obtained for the same fiber or both represent not-a-fiber; join() reports resource_deadlock_would_occur exactly if the handle refers to the calling fiber; a map keyed by fiber::id, as the table of names in examples/asio/autoecho.cpp, never gives one fiber the entry of another.", "quantifier": "all programs that create, end, move, detach and join fibers, save ids and compare them at any later time, for every choice of addresses by the stack allocator", "why_tests_cant": "Whether an id of an ended fiber equals that of a new one depends on which memory the allocator hands out; a test sees one allocator and few fibers, and the self test of join() would have to be tried against every possible reuse of memory.", "anchors": ["include/boost/fiber/context.hpp:175-227", "include/boost/fiber/context.hpp:379-389", "src/fiber.cpp:43-65", "include/boost/fiber/operations.hpp:28-31", "examples/asio/autoecho.cpp:64-91", "doc/fiber.qbk:514-521"]}
{"id": "C141", "title": "Echo example: every client gets its messages back and the program ends", "statement": "In examples/asio/autoecho.cpp every client receives the message that it has sent, in every iteration; when all clients have finished, the acceptor is closed once, the server stops, and the program ends, whatever happens on the connections.", "quantifier": "all numbers of clients and iterations, all messages, all ways in which the byte streams are split, all interleavings, failing sessions, and other programs that connect, send and close at any time", "why_tests_cant": "A test over the loopback device sees neither partial reads nor failing connections nor late ends of connections, and a hang at the end of main depends on which session is still open at that moment.", "anchors": ["examples/asio/autoecho.cpp:123-151", "examples/asio/autoecho.cpp:156-176", "examples/asio/autoecho.cpp:181-225", "examples/asio/autoecho.cpp:230-260"]}
{"id": "C142", "title": "Promises and futures of values whose constructors throw", "statement": "If the copy or move constructor of the value throws in promise::set_value(), the promise stays unsatisfied and can be set again, or ends in broken_promise; if it throws in a packaged_task, the exception becomes the outcome; if the move out of future::get() throws, the object is still destroyed exactly once. No storage without object is ever read or destroyed, no outcome is set twice, get() yields what was set.", "quantifier": "all sequences of set_value(), set_exception(), calls of the task, get(), share(), copies and destructions in any order, with any of the constructors throwing or not", "why_tests_cant": "Each combination of a throwing constructor with an order of calls and destructions is a separate case, and a missed or doubled destruction is not visible to a test with ordinary values.", "anchors": ["include/boost/fiber/future/detail/shared_state.hpp:54-70", "include/boost/fiber/future/detail/shared_state.hpp:162-198", "include/boost/fiber/future/detail/task_object.hpp:56-76", "include/boost/fiber/future/promise.hpp:55-59", "include/boost/fiber/future/future.hpp:143-150"]}
{"id": "C143", "title": "A fiber waiting in push() or pop() of an unbuffered channel gets its turn under round-robin scheduling", "statement": "If values keep passing through an unbuffered channel and every fiber keeps running, a fiber that waits in push() eventually hands over its value and a fiber that waits in pop() eventually receives one; in particular with the default algorithm round_robin on one thread.", "quantifier": "all unbuffered channels, all infinite executions of fibers on one thread with a first-in first-out ready queue", "why_tests_cant": "Starvation only shows in an infinite execution; every finite test run ends with the call merely not yet returned, and closing the channel at the end of the test hides it.", "anchors": ["include/boost/fiber/unbuffered_channel.hpp:72-95", "include/boost/fiber/unbuffered_channel.hpp:128-193", "include/boost/fiber/unbuffered_channel.hpp:300-353", "src/algo/round_robin.cpp:20-39", "src/waker.cpp:16-67"]}
{"id": "C144", "title": "Asio scheduler: the timer is used by one thread at a time", "statement": "The steady_timer of the scheduling algorithm that embeds Boost.Asio is never inside member functions called from two threads (a timer object is not safe for concurrent use); a wake-up from another thread makes a handler ready, and after suspend_until(t) a handler becomes ready at t at the latest.", "quantifier": "all interleavings of suspend_until() of the dispatcher with notify() of any number of threads, all times", "why_tests_cant": "The overlap needs a remote wake-up in the few instructions in which the dispatcher sets the timer.", "anchors": ["examples/asio/round_robin.hpp: suspend_until, notify", "src/scheduler.cpp: schedule_from_remote, dispatch", "src/context.cpp: wake"]}
{"id": "C145", "title": "Work sharing example: all fibers complete, then the program ends", "statement": "In examples/work_sharing.cpp every worker fiber completes once, every thread's wait on cnd_count returns once and only with fiber_count 0, main() returns after all of them, and no execution goes on forever or stops before: no wake-up is lost between the decrement, the predicate and the wait.", "quantifier": "all numbers of fibers, threads and iterations, all schedules and migrations", "why_tests_cant": "The window between unlocking the mutex and entering the wait queue is a few instructions; tests run one number of threads and few schedules.", "anchors": ["examples/work_sharing.cpp: whatevah, thread, main", "include/boost/fiber/condition_variable.hpp: condition_variable_any::wait", "src/condition_variable.cpp: notify_all", "src/algo/shared_work.cpp: pick_next"]}
{"id": "C146", "title": "A wake-up from another thread does not use a destroyed scheduler", "statement": "A thread that wakes a fiber of another thread (mutex, condition variable, future, channel) does not access the scheduler or the scheduling algorithm of that thread after they have been destroyed because the woken fiber, and with it the thread, has ended meanwhile; and the wake-up is not lost.", "quantifier": "all interleavings of any number of waking threads with the fibers, the dispatcher and the end of the thread", "why_tests_cant": "The woken fiber has to run to the end of its thread between two instructions of the waking thread.", "anchors": ["src/scheduler.cpp: schedule_from_remote, dispatch, ~scheduler", "src/context.cpp: wake", "src/algo/round_robin.cpp: notify, suspend_until"]}
{"id": "C147", "title": "The publisher client sends every typed line and nothing else", "statement": "When lines are typed at the standard input of the publish/subscribe publisher client, the server hands exactly these lines, in this order, to the subscribers, whatever their length, and no message is sent after the input has ended.", "quantifier": "all sequences of lines, all contents of the uninitialised array, any number of rounds of the loop", "why_tests_cant": "the loop never ends, so a test has to stop the client before it can see what is sent after the end of the input; long lines and the contents of uninitialised memory are not chosen by tests", "anchors": ["examples/asio/ps/publisher.cpp:40-45", "examples/asio/ps/server.cpp:273-285"]}
{"id": "C148", "title": "The name a publish/subscribe client is started with is the name of its queue", "statement": "For every name given on the command line, the client copies the name inside its buffer and the server reads exactly this name, so that a publisher and a subscriber meet exactly if their names are equal.", "quantifier": "all names, all buffer lengths", "why_tests_cant": "a write behind an array or a read behind it often has no visible effect in a test", "anchors": ["examples/asio/ps/publisher.cpp:35-39", "examples/asio/ps/subscriber.cpp:35-39", "examples/asio/ps/server.cpp:161"]}
{"id": "C149", "title": "The subscriber client shows one line per message", "statement": "Each message the server writes to a subscriber client is shown as one line of its own, with all its bytes and in the order of the messages.", "quantifier": "all sequences of messages, all ways in which the network splits the bytes into reads", "why_tests_cant": "on one machine, with pauses between the messages, each read returns one message; the network may split the bytes in any way", "anchors": ["examples/asio/ps/subscriber.cpp:40-46", "examples/asio/ps/server.cpp:182-185"]}
{"id": "C150", "title": "The function of a packaged_task gets the arguments of the call", "statement": "A packaged_task invokes its function with the arguments it is called with: a parameter that is a reference to const refers to the object of the caller, and the future yields what a direct call of the function yields.", "quantifier": "all functions, all argument lists, all memories, copy constructors that throw", "why_tests_cant": "the value of the copy is that of the argument, so only functions that keep or return the reference show the difference, and a dangling reference often still reads the old value", "anchors": ["include/boost/fiber/future/detail/task_object.hpp:56-74", "include/boost/fiber/future/packaged_task.hpp:117-122", "include/boost/fiber/future/detail/shared_state.hpp:224-240"]}
{"id": "C151", "title": "The adapters of a callback interface behave like synchronous operations", "statement": "Each call of write_ec(), write(), read_ec() or read() of the adapter examples returns, or throws, what a plain variable would have given at the moment the operation began, whatever the order in which the threads complete the operations of different fibers; an injected error goes to exactly the next operation; a call that has begun can always return.", "quantifier": "all numbers of fibers, all sequences of operations and injected errors, all orders of completion", "why_tests_cant": "the example completes the operations one after the other; the orders of completion of concurrent operations are unbounded", "anchors": ["examples/adapt_callbacks.cpp:89-247", "examples/adapt_method_calls.cpp:61-131"]}
{"id": "C152", "title": "The ping-pong example alternates and ends", "statement": "For any number of rounds, the two fibers of examples/ping_pong.cpp print ping and pong strictly in turn, no channel ever holds more than one string, at any time exactly one fiber can go on, and the program ends with both fibers ended and both channels empty.", "quantifier": "any number of rounds, any capacity, all executions", "why_tests_cant": "the example has three rounds and one schedule", "anchors": ["examples/ping_pong.cpp:14-40"]}
{"id": "C153", "title": "The range-for example shows all values and ends", "statement": "For any list of values that the producer of examples/range_for.cpp pushes before it closes the channel, the consumer shows exactly these values in order and leaves its loop, and both fibers end.", "quantifier": "all lists of values, all interleavings of the two fibers", "why_tests_cant": "the example pushes seven values under one scheduler", "anchors": ["examples/range_for.cpp:16-45", "include/boost/fiber/unbuffered_channel.hpp:400-426"]}
{"id": "C154", "title": "A loop over a channel ends regularly only if the channel is closed", "statement": "A range-based for loop over a channel shows the values received; it ends regularly exactly if the channel is closed, and an exception thrown by an element while it is received leaves the loop as an exception.", "quantifier": "all sequences of outcomes of value_pop()", "why_tests_cant": "elements that throw at the first or a later element, with an exception derived from fiber_error or not, are not exercised by tests", "anchors": ["include/boost/fiber/buffered_channel.hpp:364-390", "include/boost/fiber/unbuffered_channel.hpp:400-426", "examples/range_for.cpp:28"]}
{"id": "C155", "title": "NUMA work stealing: complete registration before any search, and a sound search", "statement": "Let every logical CPU of a valid topology get exactly one thread with that CPU's node. Whatever the order in which the constructors of numa::algo::work_stealing run, no registration is out of range, some constructor can always go on until all have returned, and as soon as one has returned every scheduler is registered under its CPU. A search for work then never meets a nullptr, never leaves an array and never fails an assertion; it asks only other threads' schedulers, those of the own node before those of other nodes, and of each kind at most as many as there are CPUs; it answers 'nothing' only after asking at least one scheduler of the own node and as many remote ones as there are remote CPUs, none of which had anything to steal; otherwise it stops at the first scheduler asked that had.", "quantifier": "for all topologies, assignments of CPUs, interleavings of the constructors, random numbers and answers of the victims", "why_tests_cant": "needs NUMA hardware with the given topology; the order of constructors and the random choices cannot be controlled", "anchors": ["src/numa/algo/work_stealing.cpp:30-89", "src/numa/algo/work_stealing.cpp:99-158"]}
{"id": "C156", "title": "Skynet benchmarks with futures compute the sum and terminate", "statement": "For every size and every div, skynet( num, size, div) with futures (async()) returns the sum of num, ..., num + size - 1 modulo 2^64 after finitely many steps, on any number of threads and with any launch policy.", "quantifier": "for all num, size, div and all interleavings of the launched calls", "why_tests_cant": "the benchmark runs with one size and one div; the number of interleavings is astronomical", "anchors": ["performance/fiber/skynet_stealing_async.cpp:43-67", "performance/thread/skynet_async.cpp:34-56"]}
{"id": "C157", "title": "Every stack goes back to the allocator it came from, and wrapped allocators live long enough", "statement": "Whatever sequence of make_stack_allocator_wrapper(), moves, move assignments and destructions of stack_allocator_wrapper objects and of creations of fibers from moved wrappers takes place: every stack is allocated once, and deallocated at most once, by the allocator that allocated it; an allocator is destroyed at most once, after all of its stacks are back, and never used afterwards; when all wrappers are destroyed and all fibers have ended, all stacks are back and all allocators destroyed. A null pointer is dereferenced only if a fiber is created from a wrapper that has been moved from.", "quantifier": "for all sequences of operations on any number of wrappers and fibers", "why_tests_cant": "tests use one wrapper for one thread; leaks and wrong deallocations of stacks show no effect in them", "anchors": ["include/boost/fiber/stack_allocator_wrapper.hpp:56-90", "include/boost/fiber/context.hpp:487-511", "src/context.cpp:55-68"]}
