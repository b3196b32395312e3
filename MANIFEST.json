{
 "claims": [
  {
   "property": "C01",
   "status": "proved",
   "theorems": [
    "C01_mutual_exclusion",
    "C01_nonrecursive_entered_once"
   ],
   "note": "All four mutex classes, any number of fibers and threads, every schedule."
  },
  {
   "property": "C02",
   "status": "proved",
   "theorems": [
    "C02_unlock_result",
    "C02_lock_result",
    "C02_try_lock_result",
    "C02_errors_harmless"
   ],
   "note": ""
  },
  {
   "property": "C03",
   "status": "proved",
   "theorems": [
    "C03_try_lock_never_blocks",
    "C03_try_lock_truthful",
    "C03_try_lock_succeeds_when_free"
   ],
   "note": ""
  },
  {
   "property": "C04",
   "status": "proved",
   "theorems": [
    "C04_unavailable_while_owned",
    "C04_available_when_all_undone",
    "C04_owner_relocks"
   ],
   "note": ""
  },
  {
   "property": "C05",
   "status": "proved",
   "theorems": [
    "C05_no_lost_wakeup"
   ],
   "note": "mutex and recursive_mutex."
  },
  {
   "property": "C06",
   "status": "proved",
   "theorems": [
    "C06_timeout_not_early",
    "C06_timer_releases_waiter"
   ],
   "note": ""
  },
  {
   "property": "C07",
   "status": "partial",
   "theorems": [
    "C07_no_lost_wakeup_partial",
    "C07_refuted"
   ],
   "note": "The property is false of the code (C07_refuted); proved for executions in which no timed acquisition has failed."
  },
  {
   "property": "C08",
   "status": "proved",
   "theorems": [
    "C08_one_wakeup_per_wait",
    "C08_no_double_insertion",
    "C08_blocked_iff_logged",
    "C08_mutex_no_double_wakeup",
    "C08_buffered_no_double_wakeup"
   ],
   "note": "Wait queues in arbitrary use; the mutex, condition variable and channel models inherit the kernel invariant."
  },
  {
   "property": "C09",
   "status": "proved",
   "theorems": [
    "C09_notify_one_fifo",
    "C09_notify_all",
    "C09_waiting_exact"
   ],
   "note": ""
  },
  {
   "property": "C10",
   "status": "proved",
   "theorems": [
    "C10_notify_all_reaches",
    "C10_notify_one_reaches",
    "C10_registered_before_notify"
   ],
   "note": "condition_variable_any with one mutex; timed waits whose deadline passed are excepted."
  },
  {
   "property": "C100",
   "status": "partial",
   "theorems": [
    "C100_counter_partial",
    "C100_ready_partial",
    "C100_remote_partial",
    "C100_deadline_partial",
    "C100_refuted_notify",
    "C100_refuted_yield"
   ],
   "note": "The property is false of the code: notify() replaces the expiry time of the timer, and if it comes after the dispatcher has already taken the fiber from the remote queue, the two cancelled handlers make the service fiber yield and return to run_one() without the dispatcher calling suspend_until(), because the service fiber itself is ready; the thread then blocks without a timer and a sleeping fiber misses its deadline (C100_refuted_notify). The same happens in one thread if a handler wakes a fiber and yields (C100_refuted_yield). Proved for all executions: has_ready_fibers() is exact, the thread never blocks with a ready fiber, a push to the remote queue is followed by a notify() that ends the wait. Proved without other threads and without handlers that suspend the service fiber: the timer is set for the first deadline whenever the thread blocks."
  },
  {
   "property": "C101",
   "status": "partial",
   "theorems": [
    "C101_no_spin_partial",
    "C101_refuted"
   ],
   "note": "The property is false of the code: if a handler blocks the service fiber (for example on a channel or mutex), cnd_.notify_one() finds no waiter, suspend_until() returns at once, and the dispatcher calls it again and again, each call adding a cancelled timer handler to the io_context (C101_refuted). Proved if handlers do not block the fiber (yielding and wake-ups by other threads allowed): between two calls of suspend_until() the service fiber has found a ready fiber, so the loop in the comment does not occur."
  },
  {
   "property": "C102",
   "status": "partial",
   "theorems": [
    "C102_once",
    "C102_released_partial",
    "C102_when_released",
    "C102_order",
    "C102_throw_partial",
    "C102_refuted"
   ],
   "note": "The property is false of the code: if copying the function object or an argument into the context throws, the stack that make_worker_context_with_properties() has allocated is never freed (nothing owns sctx yet and the placement new frees nothing), and a property object passed to the constructor is not deleted either (C102_refuted). Proved: no object is destroyed twice; after a throw all copies made so far are destroyed; without a throw nothing is left when the last reference has gone, and the order of the destructions is as stated."
  },
  {
   "property": "C103",
   "status": "partial",
   "theorems": [
    "C103_locals_partial",
    "C103_reaped_partial",
    "C103_refuted"
   ],
   "note": "The property is false of the code: run_() moves fn_ and arg_ into local variables, which are destroyed before the fiber counts as terminated, but the members themselves live until the dispatcher releases the fiber, which may be after join() has returned (C103_refuted); for types that have no move constructor these are full copies. Proved: the local variables are destroyed before join() returns, and after the release by the dispatcher no copy is left."
  },
  {
   "property": "C104",
   "status": "partial",
   "theorems": [
    "C104_unique",
    "C104_lifetime",
    "C104_join",
    "C104_abort",
    "C104_errors",
    "C104_kept_partial",
    "C104_refuted",
    "C104_refuted_destroyed"
   ],
   "note": "The property is false of the code: join() resets the handle after its wait, whatever it refers to by then. If two fibers join the same handle and the first one to return stores a new fiber in it, the second one resets the handle of the new fiber, which is thereby detached silently (C104_refuted); if the first one destroys the handle, the second one accesses a destroyed object (C104_refuted_destroyed). Proved for all executions: one handle at most, lifetime, join() waits for the right fiber, std::terminate() exactly for joinable handles. Proved if nobody stores into a handle or destroys it while another fiber waits in join() on it: a fiber keeps its handle until it has terminated or is detached."
  },
  {
   "property": "C105",
   "status": "partial",
   "theorems": [
    "C105_legal_partial",
    "C105_reported_partial",
    "C105_refuted_freed",
    "C105_refuted_type",
    "C105_refuted_unset"
   ],
   "note": "The property is false of the code: algorithms without properties do not reset the pointer algo_ of the properties, so that a change of a property of a ready fiber calls the old algorithm after it has been destroyed (C105_refuted_freed); fibers keep property objects of another type when the algorithm is replaced, and awakened() casts them statically (C105_refuted_type); with a property object given to the constructor under an algorithm without properties algo_ is nullptr (C105_refuted_unset). Proved if all algorithms and property objects are of the same type: every call is right, and each change of a ready fiber is reported once."
  },
  {
   "property": "C106",
   "status": "partial",
   "theorems": [
    "C106_refuted",
    "C106_refuted_yield",
    "C106_now_partial",
    "C106_same_thread_partial",
    "C106_all"
   ],
   "note": "The property is false of the code: terminate() wakes the joining fibers before it runs the cleanup functions, and a fiber that is woken does not acquire splk_ again, so that join() on another thread may return before the first cleanup function has run (C106_refuted); on one thread this happens if a cleanup function suspends its fiber (C106_refuted_yield). Proved for all executions: join() returns after the function has returned, each cleanup function runs at most once and all of them have run at the end, and a join() that finds the fiber terminated returns after the last one. Proved if no cleanup function suspends: a joining fiber of the same thread returns after the last one."
  },
  {
   "property": "C107",
   "status": "partial",
   "theorems": [
    "C107_refuted",
    "C107_woken_partial",
    "C107_processor_partial",
    "C107_spin_partial"
   ],
   "note": "The property is false of the code: the cleanup functions run while terminate() holds splk_; if one of them suspends its fiber and another fiber of the same thread calls join(), that fiber spins on splk_ for ever and the thread never runs anything else (C107_refuted: in all continuations). Proved for all executions: nobody waits for a terminated fiber, a woken fiber returns when resumed, and the fiber that has the processor can go on unless it spins for a lock that is held. Proved if no cleanup function suspends: a spinning join() acquires the lock at once or after a bounded number of steps of the ending fiber, which has the processor of another thread."
  },
  {
   "property": "C108",
   "status": "partial",
   "theorems": [
    "C108_refuted",
    "C108_expired_partial",
    "C108_untimed_partial"
   ],
   "note": "The property is false of the code: if the deadline of a fiber in wait_until() passes before the notification, suspend_and_wait_until() locks the spinlock of the condition variable again to remove the waker, which may be after the condition variable has been destroyed under the documented precondition (C108_refuted). Proved for all uses under that precondition: the queue is empty at the destruction and only fibers whose deadline has passed access the destroyed object; if nobody is in wait_for() or wait_until() at the destruction, nobody accesses it."
  },
  {
   "property": "C109",
   "status": "partial",
   "theorems": [
    "C109_refuted",
    "C109_only_partial",
    "C109_one_thread_partial",
    "C109_setter_partial"
   ],
   "note": "The property is false of the code: set_value() unlocks the mutex of the shared state before it notifies the condition variable in it; a fiber on another thread can see the result in between and drop the last references, so that a freed condition variable is notified (C109_refuted; the comment in examples/adapt_callbacks.cpp:154-155 says that this should not happen). Proved: this notification is the only such access; none if all fibers are on one thread, or if the promise is destroyed by the fiber that calls set_value()."
  },
  {
   "property": "C11",
   "status": "proved",
   "theorems": [
    "C11_wake_justified",
    "C11_wait_return_justified",
    "C11_returns_bounded_by_wakes",
    "C11_notify_one_wakes_exactly_one",
    "C11_notify_all_wakes_all"
   ],
   "note": ""
  },
  {
   "property": "C110",
   "status": "partial",
   "theorems": [
    "C110_refuted",
    "C110_where_partial",
    "C110_no_try_partial",
    "C110_result"
   ],
   "note": "The property is false of the code: try_lock() reads owner_ again after it has released the spinlock (mutex.cpp:57-60), while another fiber may be writing it (C110_refuted); owner_ is not atomic. Proved: this read is the only racing access, there is no race without try_lock(), and the value returned by try_lock() is right if the racing read yields a value that was stored."
  },
  {
   "property": "C111",
   "status": "partial",
   "theorems": [
    "C111_refuted",
    "C111_first_partial",
    "C111_success_partial",
    "C111_some",
    "C111_all_failed",
    "C111_returns"
   ],
   "note": "The property is false of the code: with more functions than the channel has room for (63), a fiber that waits for room is overtaken by one that ends later (C111_refuted: wait_first_success() with 65 functions). Proved: on one thread wait_first_value() and wait_first_outcome() deliver the first outcome for any number of functions, wait_first_success() the first success if the channel has room for all; on any number of threads the value is one of a function that has ended, exceptions are thrown only if all functions throw, each once, and the call always ends."
  },
  {
   "property": "C112",
   "status": "partial",
   "theorems": [
    "C112_refuted",
    "C112_values_partial",
    "C112_collect_partial",
    "C112_error_partial",
    "C112_returns_partial"
   ],
   "note": "The property is false of the code: the counter of nchannel is not atomic; if two fibers on two threads decrement it at the same time the channel is never closed and the call waits for ever (C112_refuted). Proved: what the call returns or throws is right for any number of functions and threads (wait_all_until_error(): the first exception on one thread if the channel has room for all outcomes, otherwise some exception), and on one thread the call always ends."
  },
  {
   "property": "C113",
   "status": "partial",
   "theorems": [
    "C113_refuted",
    "C113_fibers_partial",
    "C113_ends"
   ],
   "note": "The property is false of the code: wait_all_until_error() does not close the channel when it throws; with 65 functions the fiber of the last one waits for room for ever (C113_refuted). Proved: all fibers of wait_first_...() end, on any number of threads; on one thread also those of wait_all_values() and wait_all_collect_errors(), and those of wait_all_until_error() if the channel has room for all outcomes but one; every execution is finite."
  },
  {
   "property": "C114",
   "status": "partial",
   "theorems": [
    "C114_refuted",
    "C114_first_partial",
    "C114_all_partial",
    "C114_returns_partial",
    "C114_prompt_partial"
   ],
   "note": "The property is false of the code: wait_first_simple() without functions waits for ever although the comment promises to return immediately (C114_refuted). Proved: wait_first_simple() returns only after a function has ended and can return without any other function ending, wait_all_simple() returns only after all functions have ended, and with at least one function (wait_all_simple(): with any number) the call always ends."
  },
  {
   "property": "C115",
   "status": "proved",
   "theorems": [
    "C115_values",
    "C115_throws",
    "C115_ends"
   ],
   "note": ""
  },
  {
   "property": "C116",
   "status": "partial",
   "theorems": [
    "C116_refuted",
    "C116_order_partial",
    "C116_all_partial",
    "C116_goes_on"
   ],
   "note": "The property is false of the code: cond_.wait() is called without a predicate and data_ has room for one message, so a message that is published while the fiber of the subscriber writes the previous one is never written (C116_refuted). Proved: what is written is in all executions a subsequence of the messages published while the session was subscribed, in order; everything is written if publishers do something only when no subscriber is busy; a notified fiber goes on with the stored message."
  },
  {
   "property": "C117",
   "status": "partial",
   "theorems": [
    "C117_refuted",
    "C117_names_partial"
   ],
   "note": "The property is false of the code: a publisher whose registration is refused because the queue exists unregisters this queue at the end of its session, so that the next publication of the rightful publisher throws (C117_refuted). Proved for publishers with different names that are not empty: the queue exists, only its publisher publishes on it, and no registration or publication fails."
  },
  {
   "property": "C118",
   "status": "partial",
   "theorems": [
    "C118_refuted",
    "C118_ends_partial",
    "C118_gone"
   ],
   "note": "The property is false of the code: the message <fini> that is published when the queue is destroyed is missed by a session whose fiber is writing; the fiber waits for ever (C118_refuted). Proved: the sessions end if publishers do something only when no subscriber is busy; a session that has ended is in no queue in all executions."
  },
  {
   "property": "C119",
   "status": "partial",
   "theorems": [
    "C119_refuted",
    "C119_exact_partial",
    "C119_where_partial"
   ],
   "note": "The property is false of the code: the arrays are converted to std::string up to the first zero, and 1024 bytes without a zero make the server read behind the array (C119_refuted). Proved: for blocks with a zero exactly the text before it is passed on, and the buffers are overrun only by blocks without a zero."
  },
  {
   "property": "C12",
   "status": "proved",
   "theorems": [
    "C12_mutual_exclusion",
    "C12_wait_returns_owning",
    "C12_no_internal_error",
    "C12_wait_error_only_unowned",
    "C12_relock_progress",
    "C12_wait_pred",
    "C12_wait_until_pred",
    "C12_data_protected"
   ],
   "note": ""
  },
  {
   "property": "C120",
   "status": "partial",
   "theorems": [
    "C120_refuted",
    "C120_loop_refuted",
    "C120_data_partial",
    "C120_range_partial",
    "C120_ends_partial",
    "C120_result_partial"
   ],
   "note": "The property is false of the code: if more bytes are desired than there are and the last chunk is shorter than the others, substr( size) throws std::out_of_range (C120_refuted); with chunks of length 0 read() does not end (C120_loop_refuted). Proved: no byte is lost or read twice, with errors at any time; std::out_of_range is thrown only in the case above; with chunks that are not empty and without errors read() ends after a bounded number of tries and otherwise returns the right bytes."
  },
  {
   "property": "C121",
   "status": "proved",
   "theorems": [
    "C121_ordered",
    "C121_alive",
    "C121_destroyed"
   ],
   "note": "A thread gets a reference from another one with a synchronization (the duty of the user)."
  },
  {
   "property": "C122",
   "status": "partial",
   "theorems": [
    "C122_capacity",
    "C122_refuted",
    "C122_loop_refuted",
    "C122_fifo_partial"
   ],
   "note": "The property is false of the code: with capacity 1, which the constructor accepts, the cycle of a slot with a value (idx + 1) is the cycle of the free slot for the next producer; the second push() overwrites the value (C122_refuted) and value_pop() spins for ever (C122_loop_refuted). Proved for all other accepted capacities, under sequential consistency."
  },
  {
   "property": "C123",
   "status": "partial",
   "theorems": [
    "C123_refuted",
    "C123_pop_refuted",
    "C123_closed_partial",
    "C123_stuck_partial",
    "C123_consumer_partial"
   ],
   "note": "The property is false of the code: value_pop() notifies without the mutex, so a producer about to wait misses it (C123_refuted); with several producers and consumers a notification wakes a consumer that finds the first slot unpublished and is spent (C123_pop_refuted). Proved: close() releases everybody; the mutex causes no deadlock; a single consumer is not left asleep while there is a value."
  },
  {
   "property": "C124",
   "status": "partial",
   "theorems": [
    "C124_refuted",
    "C124_partial",
    "C124_buffered_partial"
   ],
   "note": "The property is false of the code: unbuffered_channel::close() sets the flag by exchange( true, std::memory_order_acquire), which does not release, so a push() or is_closed() that reads true does not synchronize with close() (C124_refuted). It holds for operations that were waiting when close() woke them (C124_partial) and for buffered_channel (C124_buffered_partial)."
  },
  {
   "property": "C125",
   "status": "proved",
   "theorems": [
    "C125_nobody_queued",
    "C125_woken_reads_true"
   ],
   "note": "For the two wait queues; a producer whose value lies in the slot may remain (C28)."
  },
  {
   "property": "C126",
   "status": "partial",
   "theorems": [
    "C126_refuted",
    "C126_refuted_broken",
    "C126_refuted_nested",
    "C126_partial",
    "C126_kept_future_partial"
   ],
   "note": "The property is false of the code: operator() does not hold a reference to the shared state and reset() moves the function object of the old state: reset() from the function destroys the executing function object and the outcome is stored into freed memory (C126_refuted); dropping the packaged_task meanwhile delivers broken_promise and lets operator() throw promise_already_satisfied (C126_refuted_broken), as a nested call does (C126_refuted_nested). It holds for functions that do not reset, drop or call the packaged_task (C126_partial); if the future is kept and the task is not called, only dropping it before a reset() breaks it (C126_kept_future_partial)."
  },
  {
   "property": "C127",
   "status": "partial",
   "theorems": [
    "C127_refuted",
    "C127_sum_partial",
    "C127_ends_partial",
    "C127_no_deadlock_partial"
   ],
   "note": "The property is false of the code: skynet_join.cpp and skynet_shared_join.cpp join the children before taking their values from rc{ 16 }, which holds 15 values: for div > 15 no execution delivers a value (C127_refuted). The value is right whenever there is one (C127_sum_partial), every execution is finite (C127_ends_partial), and there is no deadlock in the variants that take the values first, nor for div <= 15 (C127_no_deadlock_partial)."
  },
  {
   "property": "C128",
   "status": "partial",
   "theorems": [
    "C128_refuted",
    "C128_refuted_all",
    "C128_partial"
   ],
   "note": "The property is false of the channel for threads: push() publishes the value first and locks mtx_ to notify afterwards; by then the receiver may have destroyed the channel (C128_refuted; for every number of producers C128_refuted_all). It holds for fibers::buffered_channel, whose push() accesses the channel only under the spinlock (C128_partial)."
  },
  {
   "property": "C129",
   "status": "partial",
   "theorems": [
    "C129_refuted",
    "C129_distance_refuted",
    "C129_aix_distance_refuted",
    "C129_freebsd_partial",
    "C129_windows_partial",
    "C129_solaris_partial",
    "C129_aix_partial"
   ],
   "note": "The property is false of the code: on Solaris a locality group with memory of its own lists the CPUs of its descendants, too, so that CPUs are in several nodes; the distances compare the number of the node with the position, so that with gaps in the numbers (Solaris, AIX, Windows) a node is not at distance 10 from itself. Proved: FreeBSD; Windows if no processor is reported for two nodes (distances if the nodes are numbered without gaps); Solaris (CPUs) if memory is at the leaves; AIX (CPUs) if no processor is in two rads."
  },
  {
   "property": "C13",
   "status": "proved",
   "theorems": [
    "C13_timeouts_honest",
    "C13_stamp_is_clock"
   ],
   "note": ""
  },
  {
   "property": "C130",
   "status": "proved",
   "theorems": [
    "C130_pin"
   ],
   "note": ""
  },
  {
   "property": "C131",
   "status": "partial",
   "theorems": [
    "C131_refuted",
    "C131_partial",
    "C131_futex_partial",
    "C131_destructor_partial"
   ],
   "note": "The property is false of the code with the futex spinlock: unlock() of the spinlock calls futex_wake() with the address of the spinlock after it has been released, which may be after the destruction of the mutex by the last user (C131_refuted). Proved: with the other spinlocks nothing accesses the destroyed mutex (C131_partial); with the futex spinlock only this system call gets its address and the memory is not accessed (C131_futex_partial); the assertions of the destructor hold (C131_destructor_partial)."
  },
  {
   "property": "C132",
   "status": "partial",
   "theorems": [
    "C132_refuted_pop",
    "C132_refuted_push",
    "C132_partial"
   ],
   "note": "The property is false of the code: push() and pop() wake the first waiter but do not hand the value or the slot over, so a fiber that repeats { push(); pop(); yield(); } takes its own value each time before the woken fiber runs, for ever, and a fiber that repeats { pop(); push(); yield(); } keeps the channel full; under round robin on one thread and for every capacity (C132_refuted_pop, C132_refuted_push). Proved: a waiting fiber that runs while there is a value (space) or the channel is closed returns within two steps (C132_partial)."
  },
  {
   "property": "C133",
   "status": "partial",
   "theorems": [
    "C133_partial",
    "C133_refuted"
   ],
   "note": "The property is false of the code for capacity 1, which the constructor accepts: the cycle idx + 1 that publishes a value is also the cycle at which the slot is free for the next producer, so a second push() overwrites the value while a value_pop() reads it. For capacities from 2 on all parts are proved with the memory orders of the code, for indices that do not wrap around."
  },
  {
   "property": "C134",
   "status": "proved",
   "theorems": [
    "C134_no_race",
    "C134_sync",
    "C134_no_lost_wakeup"
   ],
   "note": "Open channel without timeouts. slot_ has a history of messages with views, both spinlocks carry views; the invariant keeps the newest message of slot_ in the view of the lock that protects the queue of its readers."
  },
  {
   "property": "C135",
   "status": "proved",
   "theorems": [
    "C135_synchronizes",
    "C135_race_free"
   ],
   "note": "On top of C71 (spinlocks); resumption of suspended fibers is unrestricted in the model, so the result does not depend on who wakes whom. The racy last line of try_lock() is C110."
  },
  {
   "property": "C136",
   "status": "proved",
   "theorems": [
    "C136_all_before",
    "C136_race_free"
   ],
   "note": "cycle_ is unbounded."
  },
  {
   "property": "C137",
   "status": "proved",
   "theorems": [
    "C137_passed",
    "C137_race_free"
   ],
   "note": "The destruction of the shared state is C121."
  },
  {
   "property": "C138",
   "status": "proved",
   "theorems": [
    "C138_in_order",
    "C138_join",
    "C138_clean"
   ],
   "note": "On top of C71 (spinlocks) and, for the shared queues, of rqueue_mtx_ or C98. algo_->notify() and the views waker_epoch_ could carry are left out, so nothing depends on them. Shutdown is C44 and C77, reference counts and the destruction of contexts are C37 and C121."
  },
  {
   "property": "C139",
   "status": "proved",
   "theorems": [
    "C139_delivered",
    "C139_bounded",
    "C139_closed",
    "C139_race_free"
   ],
   "note": "On top of C71 (spinlocks). Resumption of suspended fibers is unrestricted in the model, so the result does not depend on who wakes whom. Capacities that the constructor rejects (not a power of two) are covered as well. Element operations do not throw (C92, C93)."
  },
  {
   "property": "C14",
   "status": "proved",
   "theorems": [
    "C14_zero_rejected",
    "C14_no_underflow",
    "C14_nobody_early",
    "C14_arrival_once",
    "C14_returns_bounded"
   ],
   "note": "cycle_ is modelled without wrap-around."
  },
  {
   "property": "C140",
   "status": "partial",
   "theorems": [
    "C140_refuted",
    "C140_names_refuted",
    "C140_existing_partial",
    "C140_safe",
    "C140_join",
    "C140_join_self",
    "C140_names_partial",
    "C140_names_kept",
    "C140_order"
   ],
   "note": "The property is false of the code: an id is the address of the context, and the memory of an ended fiber's context is reused, so a saved id of an ended fiber can equal the id of a new fiber (C140_refuted), and autoecho.cpp gives the new fiber the old name (C140_names_refuted). Proved: ids of fibers whose contexts exist when they are compared are equal exactly for the same fiber; ids of the same fiber are always equal and never equal not-a-fiber; the self test of join() is exact in all executions; a wrong name is always that of a fiber whose context is gone, a fiber keeps its name, and names made for different fibers are different; operator< is a strict total order that agrees with operator== (addresses are modelled as numbers)."
  },
  {
   "property": "C141",
   "status": "partial",
   "theorems": [
    "C141_lost_refuted",
    "C141_left_refuted",
    "C141_late_refuted",
    "C141_short_refuted",
    "C141_hang_partial",
    "C141_finite",
    "C141_echo_partial",
    "C141_close"
   ],
   "note": "The property is false of the code: a client whose connection is closed returns without barrier.wait(), so that the others wait for ever (C141_lost_refuted); sessions that still wait for their connections when the io_context is stopped are never resumed, and the scheduler waits for them when main ends, be it because another program is connected (C141_left_refuted) or because the end of a client's connection has not arrived yet (C141_late_refuted); one read_some() may return a part of the message (C141_short_refuted). Proved: these are the only ways to hang; there is no infinite execution without other programs; every reply is a non-empty initial part of the message; the acceptor is closed at most once, after all replies."
  },
  {
   "property": "C142",
   "status": "proved",
   "theorems": [
    "C142_once",
    "C142_faithful",
    "C142_clean",
    "C142_broken_only",
    "C142_retry",
    "C142_broken",
    "C142_task",
    "C142_one_future"
   ],
   "note": "exception_ptr arguments are not null (C62)."
  },
  {
   "property": "C143",
   "status": "partial",
   "theorems": [
    "C143_refuted_push",
    "C143_refuted_pop",
    "C143_push_partial",
    "C143_pop_partial"
   ],
   "note": "The property is false of the code, for every value type and even on a single thread with round_robin: a woken producer (consumer) competes for slot_ with fibers that are already in the ready queue and goes to the end of the waiting queue when it loses. With two producers { push(v); yield(); } and one consumer { pop(); yield(); } the push() of a third producer never returns; with one producer { push(v); } and one consumer { pop(); yield(); } the pop() of a second consumer never returns. The _partial theorems: a fiber that was waiting and runs while slot_ is empty offers its value in three steps; one that runs while a value is offered returns it in five steps. Missing: that slot_ is still in that state when the woken fiber is resumed."
  },
  {
   "property": "C144",
   "status": "partial",
   "theorems": [
    "C144_refuted",
    "C144_local_partial",
    "C144_notify_partial",
    "C144_once_partial",
    "C144_deadline_partial"
   ],
   "note": "The property is false of the code: notify() is called by the waking thread after the spinlock was released and uses suspend_timer_ while the dispatcher or another waking thread is inside it. Proved: no overlap without wake-ups by other threads; if the member functions of the timer were atomic, every notify() that has returned has its handler ready, each handler is made ready at most once, and after suspend_until(t) a handler is ready at t at the latest."
  },
  {
   "property": "C145",
   "status": "proved",
   "theorems": [
    "C145_finite",
    "C145_ends",
    "C145_order",
    "C145_assert"
   ],
   "note": "A thread that finds nothing to do polls; such steps are not counted. The lifetime of the schedulers is not part of this model (see C146)."
  },
  {
   "property": "C146",
   "status": "partial",
   "theorems": [
    "C146_refuted",
    "C146_push_partial",
    "C146_notify_partial",
    "C146_wake_partial"
   ],
   "note": "The property is false of the code: schedule_from_remote() calls algo_->notify() after it has released remote_ready_splk_; the dispatcher may have fetched the fiber by then, the thread may have ended (for example the threads of examples/work_sharing.cpp, which poll). Proved: the fiber is enqueued before the destruction; only wake-ups under way at the destruction access the scheduler afterwards, each once; no wake-up is lost."
  },
  {
   "property": "C147",
   "status": "partial",
   "theorems": [
    "C147_refuted",
    "C147_lines_partial",
    "C147_end_partial",
    "C147_long_partial",
    "C147_block_partial"
   ],
   "note": "The property is false of the code: nobody looks at the state of std::cin, so after the end of the input, and after a line of 1024 bytes or more, the client sends empty messages for ever and the rest of the input is lost. Proved: up to there, each line shorter than the buffer is exactly one message; what is sent afterwards; every block stays inside the array."
  },
  {
   "property": "C148",
   "status": "partial",
   "theorems": [
    "C148_refuted",
    "C148_partial",
    "C148_meet_partial",
    "C148_where_partial"
   ],
   "note": "The property is false of the code: memcpy() takes the size of the name, so a longer name is copied behind the buffer, and one of exactly 1024 bytes has no terminating zero. Proved for all shorter names, and exactly which names overflow."
  },
  {
   "property": "C149",
   "status": "partial",
   "theorems": [
    "C149_refuted",
    "C149_partial",
    "C149_split_partial"
   ],
   "note": "The property is false of the code: read_some() returns whatever has arrived and the messages have no separator, so two messages may be shown in one line and one in several. Proved: all bytes are shown once and in order; one line per message if each read returns one message."
  },
  {
   "property": "C15",
   "status": "proved",
   "theorems": [
    "C15_serial_is_last",
    "C15_one_serial_per_round"
   ],
   "note": ""
  },
  {
   "property": "C150",
   "status": "partial",
   "theorems": [
    "C150_refuted",
    "C150_copies_partial",
    "C150_value_partial",
    "C150_dangling_partial",
    "C150_copy_throws_partial"
   ],
   "note": "The property is false of the code: run() builds the arguments with std::make_tuple(), which copies the objects, so a function that returns a reference to its argument leaves a dangling reference in the future. Proved: the function gets exactly one copy per argument; functions that use values only behave as called directly; where the reference dangles; a throwing copy constructor ends in the future."
  },
  {
   "property": "C151",
   "status": "proved",
   "theorems": [
    "C151_linear",
    "C151_progress",
    "C151_read_back"
   ],
   "note": ""
  },
  {
   "property": "C152",
   "status": "proved",
   "theorems": [
    "C152_alternates",
    "C152_ends"
   ],
   "note": ""
  },
  {
   "property": "C153",
   "status": "proved",
   "theorems": [
    "C153_all_shown",
    "C153_ends"
   ],
   "note": ""
  },
  {
   "property": "C154",
   "status": "partial",
   "theorems": [
    "C154_refuted",
    "C154_partial",
    "C154_terminate_partial",
    "C154_swallowed_partial",
    "C154_live_partial"
   ],
   "note": "The property is false of the code: the constructor of the iterator is noexcept although it receives the first element, so an exception there calls std::terminate(); and catch ( fiber_error const&) also catches a fiber_error thrown by an element, which ends the loop as if the channel were closed. Proved: in all other cases the loop behaves as wanted; exactly where std::terminate() is called; where the exception is swallowed; the body is only given living elements."
  },
  {
   "property": "C155",
   "status": "proved",
   "theorems": [
    "C155_registered",
    "C155_progress",
    "C155_steal",
    "C155_thorough",
    "C155_answer"
   ],
   "note": "The endless inner loop on a node with a single CPU is the subject of C47: the search is modelled up to the random numbers drawn. C155_needs shows why one thread per CPU is needed."
  },
  {
   "property": "C156",
   "status": "partial",
   "theorems": [
    "C156_sum_partial",
    "C156_ends_partial",
    "C156_endless_refuted",
    "C156_refuted"
   ],
   "note": "The property is false of the code: it is proved, with a bound on the number of steps, if size is a power of div and div is at least 2. If size is not a power of div numbers are lost (6 numbers with div 4 give 6 instead of 15), with 1 < size < div the call launches further calls for ever, with div 0 it divides by zero."
  },
  {
   "property": "C157",
   "status": "proved",
   "theorems": [
    "C157_fine",
    "C157_fiber",
    "C157_quiescent",
    "C157_null"
   ],
   "note": "Exceptions during the creation of a fiber are the subject of C102. C157_null_case shows that a moved wrapper is dereferenced without a test."
  },
  {
   "property": "C16",
   "status": "proved",
   "theorems": [
    "C16_nobody_stranded"
   ],
   "note": ""
  },
  {
   "property": "C17",
   "status": "proved",
   "theorems": [
    "C17_fifo_exactly_once",
    "C17_pop_takes_oldest"
   ],
   "note": "Copying and moving elements may throw (without effect on source and destination); the return of value_pop() is C94."
  },
  {
   "property": "C18",
   "status": "proved",
   "theorems": [
    "C18_constructor",
    "C18_never_more_than_capacity",
    "C18_try_push_full",
    "C18_try_pop_empty"
   ],
   "note": ""
  },
  {
   "property": "C19",
   "status": "proved",
   "theorems": [
    "C19_no_push_after_close",
    "C19_closed_means_drained",
    "C19_nobody_blocked_after_close",
    "C17_pop_takes_oldest"
   ],
   "note": ""
  },
  {
   "property": "C20",
   "status": "proved",
   "theorems": [
    "C20_nobody_stranded"
   ],
   "note": ""
  },
  {
   "property": "C21",
   "status": "partial",
   "theorems": [
    "C21_nobody_stranded_partial",
    "C21_refuted",
    "C21_refuted_push"
   ],
   "note": "The property is false of the code (C21_refuted, C21_refuted_push); proved for executions in which no timed operation has reported a timeout (and no waiting operation an exception, C93)."
  },
  {
   "property": "C22",
   "status": "proved",
   "theorems": [
    "C22_buffered_not_early",
    "C22_unbuffered_not_early"
   ],
   "note": ""
  },
  {
   "property": "C23",
   "status": "proved",
   "theorems": [
    "C23_received_was_offered",
    "C23_at_most_once",
    "C23_pops_return_what_was_moved",
    "C23_one_value_per_push",
    "C23_success_means_received"
   ],
   "note": "Copying and moving values assumed not to throw; an execution ends at the first access to a dead slot (see C25)."
  },
  {
   "property": "C24",
   "status": "partial",
   "theorems": [
    "C24_refuted",
    "C24_refuted_timeout",
    "C24_not_after_return_partial",
    "C24_not_after_close_partial"
   ],
   "note": "The property is false of the code (C24_refuted for close, C24_refuted_timeout for the deadline). Proved: the value is not transferred after the push has returned, and a push called after close() returned never transfers."
  },
  {
   "property": "C25",
   "status": "partial",
   "theorems": [
    "C25_refuted",
    "C25_refuted_timeout",
    "C25_no_dead_slot_partial"
   ],
   "note": "The property is false of the code (C25_refuted: close() leaves slot_ dangling; C25_refuted_timeout). Proved while close() has not been called and no push has reported a timeout."
  },
  {
   "property": "C26",
   "status": "proved",
   "theorems": [
    "C26_rendezvous"
   ],
   "note": ""
  },
  {
   "property": "C27",
   "status": "partial",
   "theorems": [
    "C27_refuted",
    "C27_rendezvous_partial"
   ],
   "note": "The property is false of the code: a push that times out empties the slot without notifying waiting producers. Proved for executions in which no operation has reported a timeout."
  },
  {
   "property": "C28",
   "status": "partial",
   "theorems": [
    "C28_refuted",
    "C28_only_earlier_pushes_partial",
    "C28_at_most_one_partial"
   ],
   "note": "The property is false of the code: close() between is_closed() and try_push_() of a push leaves that push blocked. Proved: pops are never left blocked; only pushes called before close() returned can be; two of them only while a pop is going on."
  },
  {
   "property": "C29",
   "status": "proved",
   "theorems": [
    "C29_one_success",
    "C29_others_fail",
    "C29_stored_once",
    "C29_memory",
    "C29_objects",
    "C29_set"
   ],
   "note": ""
  },
  {
   "property": "C30",
   "status": "proved",
   "theorems": [
    "C30_get",
    "C30_readers_agree",
    "C30_wait_until",
    "C30_nobody_stranded",
    "C30_objects",
    "C30_read"
   ],
   "note": "An owner object is assumed to outlive its running operations (precondition of the user, see DESIGN.md)."
  },
  {
   "property": "C31",
   "status": "proved",
   "theorems": [
    "C31_owner_destroyed",
    "C31_gone",
    "C31_owned",
    "C31_broken"
   ],
   "note": ""
  },
  {
   "property": "C32",
   "status": "proved",
   "theorems": [
    "C32_once",
    "C32_get_future",
    "C32_uninit",
    "C32_subject",
    "C32_refers",
    "C32_get"
   ],
   "note": ""
  },
  {
   "property": "C33",
   "status": "proved",
   "theorems": [
    "C33_invoke",
    "C33_exec",
    "C33_run",
    "C31_gone"
   ],
   "note": ""
  },
  {
   "property": "C34",
   "status": "partial",
   "theorems": [
    "C34_refuted",
    "C34_partial",
    "C34_forever",
    "C34_stuck"
   ],
   "note": "The property is false of the code: reset() drops the old state without broken_promise. Proved: reset() is the only cause, and such a state is never satisfied and its readers never return."
  },
  {
   "property": "C35",
   "status": "proved",
   "theorems": [
    "C35_count",
    "C35_once",
    "C35_freed",
    "C35_quiescent",
    "C35_no_use_after_free"
   ],
   "note": ""
  },
  {
   "property": "C36",
   "status": "proved",
   "theorems": [
    "C36_join_result",
    "C36_object",
    "C36_not_joinable_after",
    "C36_detach_result",
    "C36_errors_at_once",
    "C36_joiners_released",
    "C36_joiner_on_its_way"
   ],
   "note": ""
  },
  {
   "property": "C37",
   "status": "proved",
   "theorems": [
    "C37_free_once_not_early",
    "C37_freed_is_nowhere",
    "C37_no_use_after_free",
    "C37_freed_if_unreferenced"
   ],
   "note": ""
  },
  {
   "property": "C38",
   "status": "proved",
   "theorems": [
    "C38_launch",
    "C38_life_order"
   ],
   "note": ""
  },
  {
   "property": "C39",
   "status": "proved",
   "theorems": [
    "C39_one_place",
    "C39_somewhere"
   ],
   "note": ""
  },
  {
   "property": "C40",
   "status": "proved",
   "theorems": [
    "C40_never_null",
    "C40_thread_goes_on",
    "C40_dispatcher_last"
   ],
   "note": ""
  },
  {
   "property": "C41",
   "status": "proved",
   "theorems": [
    "C41_fifo",
    "C41_no_starvation"
   ],
   "note": ""
  },
  {
   "property": "C42",
   "status": "proved",
   "theorems": [
    "C42_never_early",
    "C42_deadline_order",
    "C42_pass_complete",
    "C42_idle_bound",
    "C42_due_is_woken"
   ],
   "note": ""
  },
  {
   "property": "C43",
   "status": "proved",
   "theorems": [
    "C43_not_lost",
    "C43_delivered",
    "C43_drained",
    "C43_in_order"
   ],
   "note": ""
  },
  {
   "property": "C44",
   "status": "proved",
   "theorems": [
    "C44_all_done",
    "C44_nothing_after"
   ],
   "note": "With the round_robin algorithm."
  },
  {
   "property": "C45",
   "status": "proved",
   "theorems": [
    "C45_fifo",
    "C45_exactly_once",
    "C45_steal_pinned"
   ],
   "note": ""
  },
  {
   "property": "C46",
   "status": "proved",
   "theorems": [
    "C46_exactly_once",
    "C46_no_loss",
    "C46_pinned",
    "C46_steal_oldest",
    "C46_pop_newest",
    "C46_pop_empty"
   ],
   "note": "Sequentially consistent interleavings of all shared accesses, any initial capacity > 0, growth included, fewer than 2^64 (W) calls of push in total."
  },
  {
   "property": "C47",
   "status": "partial",
   "theorems": [
    "C47_refuted",
    "C47_refuted_numa",
    "C47_forever",
    "C47_returns_partial",
    "C47_can_return_partial"
   ],
   "note": "The property is false of the code: with no other CPU in the list of local CPUs (work_stealing with thread_count = 1; numa work_stealing on a node with one CPU, even if other nodes have ready fibers) the inner loop that draws a victim never ends (C47_refuted, C47_refuted_numa, C47_forever). Proved otherwise: every round that draws another scheduler counts towards the bound |local| + |remote|, under any interference, and such rounds are possible from every state. That the random generator makes such draws is not modelled."
  },
  {
   "property": "C48",
   "status": "proved",
   "theorems": [
    "C48_exactly_once",
    "C48_no_duplicates",
    "C48_not_stranded",
    "C48_pinned",
    "C48_belongs",
    "C48_no_error",
    "C48_shared_work"
   ],
   "note": "Any number of threads and algorithm objects (round_robin, shared_work, work_stealing, numa work_stealing) in any mixture, including set_algo at any time. C48_not_stranded needs that set_algo has not run into awakened(nullptr), see C57. C48_shared_work: order in which shared_work hands out."
  },
  {
   "property": "C49",
   "status": "proved",
   "theorems": [
    "C49_ttas_exclusion",
    "C49_ttas_exact",
    "C49_ttas_free",
    "C49_futex_exclusion",
    "C49_futex_inside",
    "C49_futex_exact",
    "C49_futex_values"
   ],
   "note": "Every access to the lock word is a step; relaxed loads may return any earlier value; any retry threshold."
  },
  {
   "property": "C50",
   "status": "proved",
   "theorems": [
    "C50_no_lost_wakeup",
    "C50_wakes",
    "C50_progress"
   ],
   "note": "futex_wait compares and sleeps in one step (kernel), futex_wake wakes an arbitrary sleeper; spurious wake-ups allowed."
  },
  {
   "property": "C51",
   "status": "proved",
   "theorems": [
    "C51_isolation",
    "C51_exactly_once",
    "C51_exit"
   ],
   "note": "For programs that destroy a fiber_specific_ptr only when no other fiber has a value in it, as the documentation demands; worker fibers (for main fibers see C69)."
  },
  {
   "property": "C52",
   "status": "partial",
   "theorems": [
    "C52_refuted",
    "C52_refuted_reset",
    "C52_not_null_partial"
   ],
   "note": "The property is false of the code: release() on an empty pointer leaves an entry that is cleaned up with nullptr. Proved: it holds if no fiber releases or destroys a pointer in which it has no value."
  },
  {
   "property": "C53",
   "status": "proved",
   "theorems": [
    "C53_placement",
    "C53_too_small"
   ],
   "note": ""
  },
  {
   "property": "C54",
   "status": "proved",
   "theorems": [
    "C54_partition",
    "C54_topology"
   ],
   "note": ""
  },
  {
   "property": "C55",
   "status": "partial",
   "theorems": [
    "C55_refuted",
    "C55_boundary",
    "C55_ids_partial"
   ],
   "note": "The property is false of the code: a range that ends at 2^32-1 never ends the loop. Proved for all other lists."
  },
  {
   "property": "C56",
   "status": "partial",
   "theorems": [
    "C56_refuted_twice",
    "C56_refuted_leak",
    "C56_refuted_copy",
    "C56_advance_destroys_twice",
    "C56_loop_partial"
   ],
   "note": "The property is false of the code: operator++ destroys the element and increment_() destroys it again (every element that is advanced past is destroyed twice, C56_advance_destroys_twice); an iterator dropped before the end never destroys its element; a copy of an iterator refers to raw memory. Proved: a loop over the whole channel sees the popped values in order, each once and alive, and ends when value_pop() throws (C56_loop_partial)."
  },
  {
   "property": "C57",
   "status": "partial",
   "theorems": [
    "C57_moved_partial",
    "C57_round_robin",
    "C57_forever",
    "C57_refuted_forever",
    "C57_refuted_null_stealing",
    "C57_refuted_null_shared"
   ],
   "note": "The property is false of the code: replacing shared_work by shared_work while a worker is ready never ends; if another thread takes the last ready context between has_ready_fibers() and pick_next(), awakened( nullptr) is called. Proved: without interference and not shared_work to shared_work, all ready contexts are moved in order and the call ends (C57_moved_partial); from round_robin it ends under any interference (C57_round_robin), and nothing is lost (C48)."
  },
  {
   "property": "C58",
   "status": "proved",
   "theorems": [
    "C58_once"
   ],
   "note": ""
  },
  {
   "property": "C59",
   "status": "partial",
   "theorems": [
    "C59_refuted",
    "C59_partial",
    "C59_expired_partial"
   ],
   "note": "The property is false of the code: a free mutex is refused when the deadline has passed. Proved: with a deadline that has not passed a free mutex is acquired at once; with a passed one the call returns false at once and changes nothing."
  },
  {
   "property": "C60",
   "status": "partial",
   "theorems": [
    "C60_refuted",
    "C60_partial"
   ],
   "note": "The property is false of the code: the owner waits for the deadline and gets false. Proved: a call by the owner always ends with false, never before the deadline, and leaves its ownership unchanged."
  },
  {
   "property": "C61",
   "status": "partial",
   "theorems": [
    "C61_refuted",
    "C61_no_timed_push_partial"
   ],
   "note": "The property is false of the code: timed push woken before it suspends. Proved for executions without timed push."
  },
  {
   "property": "C62",
   "status": "partial",
   "theorems": [
    "C62_refuted",
    "C62_partial"
   ],
   "note": "The property is false of the code: after set_exception(nullptr) get() returns the unconstructed storage. Proved: this is the only way."
  },
  {
   "property": "C63",
   "status": "partial",
   "theorems": [
    "C63_refuted",
    "C63_partial"
   ],
   "note": "The property is false of the code: the function runs again and then promise_already_satisfied is thrown. Proved: only one outcome is stored."
  },
  {
   "property": "C64",
   "status": "partial",
   "theorems": [
    "C64_refuted",
    "C64_partial"
   ],
   "note": "The property is false of the code: notify() is called after the lock of the remote-ready queue was released; the scheduler may be deleted by then. Proved: this is the only error of the modelled code, and it occurs only there."
  },
  {
   "property": "C65",
   "status": "partial",
   "theorems": [
    "C65_refuted",
    "C65_partial",
    "C43_delivered"
   ],
   "note": "The property is false of the code: the assertion fails when a fiber is woken by another thread during shutdown. Proved: the wake-up is delivered all the same."
  },
  {
   "property": "C66",
   "status": "partial",
   "theorems": [
    "C66_refuted",
    "C66_all_listed_partial"
   ],
   "note": "The property is false of the code: a CPU without node entry is dropped if another one has an entry. Proved: it holds if all CPUs or none have an entry."
  },
  {
   "property": "C67",
   "status": "partial",
   "theorems": [
    "C67_refuted",
    "C67_empty_partial"
   ],
   "note": "The property is false of the code: std::stoul throws std::invalid_argument for the empty line. Proved: which lists reach the branch."
  },
  {
   "property": "C68",
   "status": "partial",
   "theorems": [
    "C68_refuted",
    "C68_refuted_init",
    "C68_alive_partial"
   ],
   "note": "The property is false of the code: after the thread-local object of active() was destroyed, active() returns nullptr. Proved: it holds before."
  },
  {
   "property": "C69",
   "status": "partial",
   "theorems": [
    "C69_refuted",
    "C69_main_never_cleaned_up",
    "C51_exit"
   ],
   "note": "The property is false of the code: nothing cleans up the objects of a main fiber. Proved for worker fibers (C51_exit)."
  },
  {
   "property": "C70",
   "status": "partial",
   "theorems": [
    "C70_refuted",
    "C70_refuted_spmc",
    "C70_turn_partial"
   ],
   "note": "The property is false of the code: with the lock-free queue pop() takes the newest element, so a yielding fiber is picked again at once (C70_refuted_spmc); with shared_work two workers that only yield keep the main and the dispatcher context of the thread from running for ever, although both are ready. Proved for round_robin and work_stealing (C70_turn_partial): the context runs after as many calls of pick_next as there are contexts before it, plus one."
  },
  {
   "property": "C71",
   "status": "partial",
   "theorems": [
    "C71_ttas",
    "C71_refuted_futex",
    "C71_futex_partial"
   ],
   "note": "The property is false of the futex based spinlocks: unlock() without waiters is fetch_sub( 1, memory_order_acquire), which does not release. Proved for spinlock_ttas and spinlock_ttas_adaptive (C71_ttas), and for unlock() with waiters (C71_futex_partial)."
  },
  {
   "property": "C72",
   "status": "partial",
   "theorems": [
    "C72_futex",
    "C72_refuted",
    "C72_ttas_partial"
   ],
   "note": "The property is false of spinlock_ttas_adaptive: ( retries - prev_retries) / 8 is unsigned and wraps when the new observation is smaller (C72_refuted: 2^61 after two calls). Proved for spinlock_ttas_adaptive_futex (C72_futex)."
  },
  {
   "property": "C73",
   "status": "partial",
   "theorems": [
    "C73_refuted_null",
    "C73_refuted_taken",
    "C73_refuted_fresh",
    "C73_owner_partial",
    "C73_thief_partial"
   ],
   "note": "The property is false of the code: a thief overtaken between its load of top_ and its load of array_ reads a cell of the new array that resize() did not copy (null, C73_refuted_null); a thief accesses a context that pop() has already handed out (C73_refuted_taken); pop() before any push() fails (C73_refuted_fresh). Proved: the owner is safe once something was pushed, a thief is safe as long as top_ is unchanged."
  },
  {
   "property": "C74",
   "status": "partial",
   "theorems": [
    "C74_nobody_early",
    "C74_no_underflow",
    "C74_zero_rejected",
    "C74_released_partial",
    "C74_refuted",
    "C74_refuted_for_ever"
   ],
   "note": "The property is false of the code: cycle_ is a bool, so with more than n threads a waiter that misses two rounds finds its old value again and stays in a completed round (C74_refuted), for ever if nobody calls wait() again (C74_refuted_for_ever). Proved for any number of threads: nobody returns early, exactly the last call of a round returns true. Proved for at most n threads: nobody is stranded."
  },
  {
   "property": "C75",
   "status": "partial",
   "theorems": [
    "C75_registered",
    "C75_in_bounds_partial",
    "C75_refuted"
   ],
   "note": "The property is false of the code: counter_ is never decremented, so for every thread_count n construction number n+1 in the life of the program writes behind the end of schedulers_ (C75_refuted), e.g. when a second pool of threads is started. Proved: when a constructor returns, all entries are set and different; at most n constructions stay within bounds."
  },
  {
   "property": "C76",
   "status": "proved",
   "theorems": [
    "C76_never_null",
    "C76_one_place",
    "C76_one_thread",
    "C76_pinned",
    "C76_not_stuck"
   ],
   "note": "Schedulers of any number of threads on top of the algorithm model; two_ok shows that a configuration meets the hypothesis."
  },
  {
   "property": "C77",
   "status": "partial",
   "theorems": [
    "C77_refuted_shared",
    "C77_refuted_stealing",
    "C77_attached_partial",
    "C77_round_robin_partial"
   ],
   "note": "The property is false of the code: awakened() of shared_work and work_stealing detaches the context, so worker_queue_ is empty although a fiber is ready, and the dispatcher leaves its loop. Proved for round_robin, and for every context that is attached (for example blocked) when the dispatcher ends."
  },
  {
   "property": "C78",
   "status": "partial",
   "theorems": [
    "C78_refuted",
    "C78_result_partial",
    "C78_no_hang_partial",
    "C78_safe_partial"
   ],
   "note": "The property is false of the code: the callback calls notify_one() after unlock(), the caller may have returned and destroyed the condition variable. Result and wake-up are proved for all executions; freedom from the access under the condition that the caller does not return in that window."
  },
  {
   "property": "C79",
   "status": "partial",
   "theorems": [
    "C79_refuted_iterator",
    "C79_refuted_error",
    "C79_refuted_notify",
    "C79_result_partial",
    "C79_no_hang_partial",
    "C79_safe_partial"
   ],
   "note": "The property is false of the code in three ways: a callback or a failed registration erases the node the iterator of the constructor points to, and notify_one() after unlock(). Result and wake-up are proved for all executions that have been free of undefined behaviour so far; freedom from it for executions where registrations succeed and callbacks come after the constructor and before the return. Simplified: a data race on the set that does not hit the node of the iterator is not counted as undefined behaviour."
  },
  {
   "property": "C80",
   "status": "partial",
   "theorems": [
    "C80_refuted",
    "C80_not_early_partial",
    "C80_exact_partial"
   ],
   "note": "The property is false of the code: now() + duration overflows for large durations, and the wrapped deadline is in the past. Proved for all sums that can be represented."
  },
  {
   "property": "C81",
   "status": "partial",
   "theorems": [
    "C81_refuted_order",
    "C81_refuted_range",
    "C81_bound_partial",
    "C81_not_early_partial"
   ],
   "note": "The property is false of the code: the steady clock may be read before the other clock, which makes the deadline early by the time in between; time_point::min() of the system clock overflows to a deadline centuries ahead. Proved: the exact bounds of the error, and the property if the other clock is read first and nothing overflows."
  },
  {
   "property": "C82",
   "status": "partial",
   "theorems": [
    "C82_refuted_not_set",
    "C82_refuted_no_algo",
    "C82_awakened_partial",
    "C82_mine_partial",
    "C82_post_partial",
    "C82_other_partial"
   ],
   "note": "The property is false of the code for fibers started with launch::dispatch that have not been ready yet: no properties (assertion in fiber::properties()), or properties without algorithm (assertion in notify()). Proved for every fiber that has been ready once, which includes all started with launch::post."
  },
  {
   "property": "C83",
   "status": "proved",
   "theorems": [
    "C83_order",
    "C83_holds",
    "C83_set",
    "C83_mine",
    "C83_keep"
   ],
   "note": "The specification computes the order of arrival from the record of events."
  },
  {
   "property": "C84",
   "status": "partial",
   "theorems": [
    "C84_refuted",
    "C84_partial"
   ],
   "note": "The property is false of the code: the dispatcher, which handles timers, has priority 0 and starves. Proved: if nobody ready has a higher priority than the dispatcher, it runs after at most as many yields as there are ready contexts."
  },
  {
   "property": "C85",
   "status": "proved",
   "theorems": [
    "C85_serial",
    "C85_opaque",
    "C85_owner",
    "C85_no_fault",
    "C85_tries",
    "C85_progress"
   ],
   "note": "The behaviour of transactions (isolation, abort on conflict, atomic commit) is an assumption about the processor, written down in Rtm.v."
  },
  {
   "property": "C86",
   "status": "partial",
   "theorems": [
    "C86_refuted",
    "C86_free_partial"
   ],
   "note": "The property is false of the code: any abort of the transaction makes try_lock() fail, and there is no fall-back to the real lock. Proved: without an abort it returns true on a free lock."
  },
  {
   "property": "C87",
   "status": "proved",
   "theorems": [
    "C87_received_was_offered",
    "C87_at_most_once",
    "C87_pops_return_what_was_moved",
    "C87_success_means_received"
   ],
   "note": "Model UnbufThrow: Unbuffered with an additional step for a throwing move."
  },
  {
   "property": "C88",
   "status": "partial",
   "theorems": [
    "C88_refuted",
    "C88_strands",
    "C88_rendezvous_partial"
   ],
   "note": "The property is false of the code: the exception leaves pop between try_pop_() and s->w.wake(), so a producer blocked in push stays blocked in every continuation, also if the channel is closed (C88_strands, for every reachable state). Proved: only producers whose own value was concerned are lost; for the others the rendezvous guarantee (C27) holds."
  },
  {
   "property": "C89",
   "status": "proved",
   "theorems": [
    "C89_refines",
    "C89_blocked",
    "C89_wake",
    "C89_timed",
    "C89_transfer"
   ],
   "note": "Simulation of Kernel.v by Sched.v. The dispatcher is not a fiber of the interface. Executions up to the first failed assertion of the scheduler."
  },
  {
   "property": "C90",
   "status": "partial",
   "theorems": [
    "C90_own_partial",
    "C90_round_robin_partial",
    "C90_remote_partial",
    "C90_notified",
    "C90_notify",
    "C90_nosuspend_partial",
    "C90_shared_partial",
    "C90_stealing_partial",
    "C90_refuted_shared",
    "C90_refuted_stealing",
    "C90_refuted_all"
   ],
   "note": "The property is false of the code: awakened() of shared_work and work_stealing does not notify other threads, so with suspend = true any number of fibers can become ready while another thread of the same pool sleeps (C90_refuted_shared, C90_refuted_stealing), and if the thread that made them ready ends, all others sleep for good (C90_refuted_all). Proved: the own queue of a sleeping thread is empty (so the property holds for round_robin), no wake-up from another thread is lost, no thread sleeps without suspend, and as long as no thread has ended one of the threads is awake while a fiber is ready."
  },
  {
   "property": "C91",
   "status": "partial",
   "theorems": [
    "C91_refuted",
    "C91_partial"
   ],
   "note": "The property is false of the code: unlock() wakes the first waiter but does not hand the mutex over, so a fiber that repeats { lock(); yield(); unlock(); } takes it again before the woken fiber runs, for ever, under round robin on one thread and for all four classes. Proved: a waiter that runs while the mutex is free gets it within two steps."
  },
  {
   "property": "C92",
   "status": "proved",
   "theorems": [
    "C92_no_effect",
    "C92_retry_push",
    "C92_retry_pop"
   ],
   "note": "A throwing copy or move is assumed to leave source and destination unchanged."
  },
  {
   "property": "C93",
   "status": "partial",
   "theorems": [
    "C93_refuted",
    "C93_refuted_pop",
    "C93_partial"
   ],
   "note": "The property is false of the code: a producer (consumer) that has been woken by notify_one() and whose copy (move) throws leaves push() (pop()) without passing the notification on; another producer stays blocked although the channel is empty, and the consumer waits for it (C93_refuted). Proved: exceptions out of try_push() and try_pop() strand nobody."
  },
  {
   "property": "C94",
   "status": "partial",
   "theorems": [
    "C94_refuted",
    "C94_partial",
    "C94_loss_is_reported_partial"
   ],
   "note": "The property is false of the code: value_pop() takes the value out of the channel (cidx_ is advanced, a producer notified) before the value is returned; if the move of the return statement is not elided and throws, the value is gone. Proved: what is delivered is a sublist of what was accepted, and a value is lost only if a value_pop() has ended with an exception."
  },
  {
   "property": "C95",
   "status": "partial",
   "theorems": [
    "C95_exactly_once_partial",
    "C95_defined_partial",
    "C95_refuted_leak",
    "C95_refuted_undefined",
    "C95_refuted_recursion"
   ],
   "note": "The property is false of the code: terminate() iterates over the map while cleanup functions change it, and set_fss_data() uses its iterator after the cleanup function. An object stored by a cleanup function in a pointer object at a lower address is never cleaned up (C95_refuted_leak), release() of the own pointer object invalidates the iterator (C95_refuted_undefined), reset( nullptr) of the own one recurses for ever (C95_refuted_recursion). Proved: exactly once, defined and terminating if cleanup functions modify only pointer objects at higher addresses; nothing undefined if they only store objects."
  },
  {
   "property": "C96",
   "status": "partial",
   "theorems": [
    "C96_live_partial",
    "C96_refuted",
    "C96_refuted_reset"
   ],
   "note": "The property is false of the code: terminate() and reset() leave the pointer in the map while (and, in terminate(), after) its object is destroyed, so a cleanup function that calls get() receives a dangling pointer. Proved: get() returns live objects only if cleanup functions use only pointer objects at higher addresses."
  },
  {
   "property": "C97",
   "status": "partial",
   "theorems": [
    "C97_reset_partial",
    "C97_refuted"
   ],
   "note": "The property is false of the code: the exception leaves reset() before the element is changed, so the same object is handed to the cleanup function again by the next reset() or at the end of the fiber, where terminate() is noexcept and the program ends. Proved: the exception leaves reset() with the storage unchanged."
  },
  {
   "property": "C98",
   "status": "partial",
   "theorems": [
    "C98_exactly_once_partial",
    "C98_published_partial",
    "C98_pop_empty_partial",
    "C98_null_partial",
    "C98_fixed_array_partial",
    "C98_refuted_array",
    "C98_refuted_null",
    "C98_refuted_access"
   ],
   "note": "The property is false of the code: push() stores the pointer to a new array with memory_order_relaxed and no release fence after the construction, so a thief that read bottom_ before can load the new pointer without the construction happening before, and find a null pointer although nobody took anything; and a thief that was overtaken reads (relaxed) a context that was pushed later and asks for its type without happens-before. Proved for all executions without the first kind of access, in particular as long as the first array is not replaced: exactly once, publication, nothing lost, null found only by a thief that was overtaken."
  },
  {
   "property": "C99",
   "status": "partial",
   "theorems": [
    "C99_legal_partial",
    "C99_completes_partial",
    "C99_deleted_partial",
    "C99_refuted"
   ],
   "note": "The property is false of the code: when the handler objects are destroyed without a call (the io_context is shut down or destroyed with pending operations) nothing marks the completion, and the suspended fiber is never resumed (C99_refuted). Everything else is proved: results, single wake-up, lifetimes, deletion, and that the call returns once the handler has been called."
  }
 ]
}