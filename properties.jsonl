{"id": "C01", "title": "Hardware-atomic read-modify-write is lossless", "statement": "With the `atomics` feature, any number of contexts updating the same word through the load/compare-exchange-weak loops behaves as if each completed update had been applied exactly once, one at a time, to the then-current value; each call returns the value its own update was applied to; a declined conditional update changes nothing and reports a value on which the condition really declined; spurious compare-exchange failures have no effect.", "quantifier": "every finite interleaving of any number of threads, every initial value, every choice of pure update functions, every pattern of spurious failures", "why_tests_cant": "loom tests bound the number of threads/preemptions and use fixed closures", "anchors": ["src/atomic_macros.rs: load_modify_atomic, modify_atomic, load_try_modify_atomic, try_modify_atomic"]}
{"id": "C02", "title": "Software atomics are atomic under interrupt preemption", "statement": "Without the `atomics` feature, a read-modify-write (modify/try_modify/swap) executed by a context that may be preempted at any instruction by interrupt handlers, which themselves may run the same operations on the same word, is never torn: the final value is the composition of all completed updates, and each returns the value it replaced.", "quantifier": "every nesting and placement of interrupt arrivals, any handler programs, any update functions", "why_tests_cant": "tests run single threaded; interrupt arrival points are unbounded", "anchors": ["src/sync/soft_atomic.rs: Atomic::modify, Atomic::try_modify, Atomic::swap", "src/platform/interrputs.rs: Interrupts::paused"]}
{"id": "C03", "title": "Critical sections nest and restore the interrupt state", "statement": "Interrupts stay disabled during the whole body of `Interrupts::paused`, including after nested critical sections inside it have ended, and on exit the interrupt enable state is exactly what it was on entry.", "quantifier": "every tree of nested critical sections and every initial interrupt-enable state", "why_tests_cant": "nesting depth and shape are unbounded; the platform hooks cannot be observed in unit tests", "anchors": ["src/platform/interrputs.rs: Interrupts::pause, Interrupts::paused, Drop for Interrupts"]}
{"id": "C04", "title": "Multi-bit fields read back what was written and disturb nothing else", "statement": "After writing `v` to a field of a bitfield integer, reading that field yields `v` truncated to the field width, and every bit outside of the field is unchanged, including for the field that spans the whole integer.", "quantifier": "every integer width, every in-range offset/width, every old and new value", "why_tests_cant": "the value space is 2^(2n) per field geometry; tests sample a few", "anchors": ["src/bitfield/mod.rs: Bitfield::read_bits, Bitfield::write_bits, bit_mask"]}
{"id": "C05", "title": "Single-bit operations affect exactly one bit", "statement": "Setting, clearing, toggling and writing the bit at an in-range offset makes that bit respectively one, zero, inverted, equal to the argument, and leaves all other bits unchanged; reading returns that bit.", "quantifier": "every integer width, every in-range offset, every value", "why_tests_cant": "unbounded value space", "anchors": ["src/bitfield/mod.rs: Bitfield::read_bit, set_bit, clear_bit, toggle_bit, write_bit"]}
{"id": "C06", "title": "Concurrent register field updates never lose each other's bits", "statement": "When several contexts concurrently update fields of one read-write register through synchronized tokens (set/clear/toggle/write bit, write bits, modify), no completed update is lost: the final register value is the result of applying all completed updates in some order, so every bit belonging to a field that only one context writes has the value that context last wrote.", "quantifier": "every interleaving, any number of contexts, both register back-ends, every initial register value", "why_tests_cant": "lost updates show up only in specific interleavings", "anchors": ["src/reg/atomic.rs: RwRegAtomic::modify, WRwRegFieldAtomic::modify", "src/reg/soft_atomic.rs: RwRegAtomic::modify, WRwRegFieldAtomic::modify", "src/reg/field.rs: WWRegFieldBit, WWRegFieldBits"]}
{"id": "C07", "title": "Write-only stores start from the reset value", "statement": "Writing a single field of a write-only register, or storing through a closure, puts into the register exactly the documented reset value with only the addressed field bits replaced.", "quantifier": "every reset value, field geometry and written value", "why_tests_cant": "unbounded value space", "anchors": ["src/reg/field.rs: WoWoRegField::store, WoWoRegFieldBit, WoWoRegFieldBits", "src/reg/mod.rs: WRegUnsync::store, WRegAtomic::store, reset"]}
{"id": "C08", "title": "Live allocations never overlap", "statement": "Two blocks that are both currently allocated from a heap never share a byte, and every block lies entirely inside the memory of the pool it came from.", "quantifier": "every history of allocate/allocate_zeroed/deallocate/grow/grow_zeroed/shrink calls with correct usage, any pool configuration, with or without failed calls in between", "why_tests_cant": "histories are unbounded; overlap needs a particular sequence of frees and reuses", "anchors": ["src/heap/mod.rs: allocate, deallocate, grow, shrink", "src/heap/pool.rs: Pool::allocate, Pool::deallocate"]}
{"id": "C09", "title": "Allocation is best-fit-first and fails only on exhaustion", "statement": "A non-zero-size allocation returns a block from the smallest-block pool that is able to satisfy it and is not exhausted; the usable length reported equals the block size of that pool and is at least the requested size; it fails exactly when all blocks of all pools with sufficient block size are in use (or there is no such pool).", "quantifier": "every heap state reachable by correct usage and every requested size", "why_tests_cant": "depends on the complete allocation history", "anchors": ["src/heap/mod.rs: allocate", "src/heap/pool.rs: pool_range_by_layout, binary_search"]}
{"id": "C10", "title": "No block is ever leaked by the allocator", "statement": "At every moment the number of blocks in use plus the number of blocks still obtainable from each pool equals the configured block count; after everything is deallocated the full capacity of every pool is available again.", "quantifier": "every history of correct use, any pool configuration", "why_tests_cant": "leaks accumulate over unbounded histories", "anchors": ["src/heap/pool.rs: Pool::allocate, Pool::deallocate, allocate_free, allocate_uninit"]}
{"id": "C11", "title": "Deallocation returns a block to the pool that issued it", "statement": "For each pointer obtained from the heap, the address-based pool lookup used by deallocation selects exactly the pool that issued it, and pointers below or above the heap are rejected.", "quantifier": "every pool configuration laid out contiguously in ascending order (including empty pools) and every address", "why_tests_cant": "configuration space unbounded", "anchors": ["src/heap/pool.rs: pool_by_ptr, binary_search", "src/heap/mod.rs: deallocate"]}
{"id": "C12", "title": "The pool search returns the partition point", "statement": "The binary search over pools returns the first index for which the monotone predicate holds, or the number of pools when it holds nowhere, never reads out of bounds, and terminates.", "quantifier": "every number of pools and every monotone predicate", "why_tests_cant": "unbounded sizes", "anchors": ["src/heap/pool.rs: binary_search"]}
{"id": "C13", "title": "Reallocation preserves contents", "statement": "After a successful grow, grow_zeroed or shrink, the first min(old size, new size) bytes of the new block equal the old contents, for grow_zeroed the remaining usable bytes are zero, and all other live allocations keep their contents; after a failed one, the old block is still allocated with contents untouched.", "quantifier": "every heap history, sizes and contents", "why_tests_cant": "needs arbitrary memory contents and histories", "anchors": ["src/heap/mod.rs: grow, grow_zeroed, shrink, allocate_zeroed"]}
{"id": "C14", "title": "The allocator never modifies live user memory", "statement": "Bytes of a live allocation change only by the owner's writes: allocator bookkeeping (free-list links, zeroing, copying for other blocks) never touches a block in use, provided every pool block can hold a pointer.", "quantifier": "every heap history and memory contents", "why_tests_cant": "corruption only appears for specific reuse patterns", "anchors": ["src/heap/pool.rs: Pool::deallocate, allocate_free", "src/heap/mod.rs"]}
{"id": "C15", "title": "Zeroed allocation is fully zeroed", "statement": "allocate_zeroed returns a block all of whose usable bytes (the reported length) read as zero, even if the block was used and dirtied before.", "quantifier": "every heap history and memory contents", "why_tests_cant": "depends on arbitrary earlier contents", "anchors": ["src/heap/mod.rs: allocate_zeroed"]}
{"id": "C16", "title": "Allocations honour the requested alignment", "statement": "The address returned by a successful non-zero-size allocation is a multiple of the requested alignment.", "quantifier": "every layout (size, alignment) and heap history", "why_tests_cant": "depends on configuration and history", "anchors": ["src/heap/mod.rs: allocate", "src/heap/pool.rs: pool_range_by_layout"]}
{"id": "C17", "title": "Concurrent pool use in the critical-section build never double-allocates", "statement": "Without the `atomics` feature, contexts that allocate from and deallocate to the same pool with arbitrary preemption never obtain the same block while it is in use, and no block is lost.", "quantifier": "every interleaving of any number of contexts", "why_tests_cant": "interleavings unbounded", "anchors": ["src/heap/pool.rs: Pool::allocate, Pool::deallocate", "src/sync/soft_atomic.rs"]}
{"id": "C18", "title": "Concurrent pool use in the hardware-atomics build never double-allocates", "statement": "With the `atomics` feature, contexts that concurrently allocate from and deallocate to the same pool never obtain the same block while it is in use.", "quantifier": "every interleaving of any number of contexts", "why_tests_cant": "requires an ABA interleaving which the bounded loom tests of two operations do not reach", "anchors": ["src/heap/pool.rs: allocate_free, Pool::deallocate", "src/atomic_macros.rs: try_modify_atomic"]}
{"id": "C19", "title": "Linked list is LIFO and loses nothing", "statement": "Elements pushed are popped (or iterated) in reverse order of insertion, each exactly once; pop returns None only on an empty list; extend/collect followed by iteration gives the reverse sequence; dropping the list drops every remaining element exactly once.", "quantifier": "every sequence of operations and every element type", "why_tests_cant": "unbounded histories", "anchors": ["src/sync/linked_list.rs: push, pop, iter_mut, Extend, FromIterator, IntoIter, Drop"]}
{"id": "C20", "title": "Concurrent push/pop in the critical-section build", "statement": "Without the `atomics` feature, contexts pushing and popping with arbitrary preemption see one LIFO order: every pushed node is popped at most once, and those not popped are still in the list.", "quantifier": "every interleaving of any number of contexts", "why_tests_cant": "unbounded interleavings", "anchors": ["src/sync/linked_list.rs: push_raw, pop_raw"]}
{"id": "C21", "title": "Concurrent push/pop in the hardware-atomics build", "statement": "With the `atomics` feature, concurrent pops and pushes never hand the same node to two callers and never drop nodes from the list.", "quantifier": "every interleaving of any number of contexts", "why_tests_cant": "requires an ABA interleaving not reachable with the two-operation loom tests", "anchors": ["src/sync/linked_list.rs: push_raw, pop_raw", "src/atomic_macros.rs: try_modify_atomic"]}
{"id": "C22", "title": "drain_filter splits the list exactly", "statement": "Running drain_filter yields exactly the elements for which the closure returned true, in list order, and the list afterwards holds exactly the others in their original order; the closure is called exactly once per element present at the start; dropping the iterator early finishes the job.", "quantifier": "every list and every stateful filter", "why_tests_cant": "unbounded lists/filters", "anchors": ["src/sync/linked_list.rs: drain_filter, DrainFilterRaw::next, cut_out, Drop for DrainFilter"]}
{"id": "C23", "title": "drain_filter tolerates concurrent pushes at any point", "statement": "While a drain is in progress, elements pushed concurrently (from interrupts or other threads, at any instruction boundary of the drain) are never lost, never visited by that drain, and end up in front of the kept elements; the drain result is as without them.", "quantifier": "every interleaving of one drain with any number of pushes by any number of contexts, both builds", "why_tests_cant": "loom test covers two elements and one push", "anchors": ["src/sync/linked_list.rs: DrainFilterRaw::next, cut_out, push_raw"]}
{"id": "C24", "title": "Each thread run resumes every fiber once and removes exactly the finished ones", "statement": "Running a thread resumes each fiber that was in its chain at the start exactly once, most recently added first; fibers which complete are removed and destroyed exactly once and never resumed again; fibers added during the run (by the fibers themselves or by preempting contexts) are kept and first resumed by the next run.", "quantifier": "every set of fibers with arbitrary behaviour, every sequence of thread runs, additions at any point", "why_tests_cant": "unbounded fiber behaviour and histories", "anchors": ["src/fib/chain.rs: Chain::add, Chain::drain, Drop for Chain", "src/thr/mod.rs: Thread::resume"]}
{"id": "C25", "title": "Mutual exclusion", "statement": "At most one guard of a mutex exists at any time, whichever mixture of try_lock, polled lock futures, dropped futures and guard drops runs concurrently.", "quantifier": "every interleaving at the granularity of individual atomic accesses, any number of contexts and futures", "why_tests_cant": "loom tests use two threads", "anchors": ["src/sync/mutex.rs: try_lock, MutexLockFuture::poll, Drop for MutexGuard, unlock"]}
{"id": "C26", "title": "Protected data is only changed by the guard holder and survives hand-over", "statement": "The value seen on acquiring the lock is the value left by the previous holder (initially the constructor argument), and into_inner returns the value left by the last holder.", "quantifier": "every interleaving and history", "why_tests_cant": "unbounded histories", "anchors": ["src/sync/mutex.rs: Deref/DerefMut for MutexGuard, into_inner, try_lock, unlock"]}
{"id": "C27", "title": "No lost wakeup in the mutex", "statement": "If a lock future returned Pending and is not dropped, then once the mutex is released by the holder, some waiting future has been woken.", "quantifier": "every interleaving", "why_tests_cant": "needs a specific interleaving between the release and a new waiter", "anchors": ["src/sync/mutex.rs: unlock, MutexLockFuture::poll"]}
{"id": "C28", "title": "Mutex waiters are never used after being freed", "statement": "No operation of the mutex or of its lock futures accesses a waiter record that has been freed.", "quantifier": "every history of lock/poll/drop/unlock, even without concurrency", "why_tests_cant": "memory errors are silent; needs a history with a slow woken waiter", "anchors": ["src/sync/mutex.rs: unlock, MutexLockFuture::poll, Drop for MutexLockFuture"]}
{"id": "C29", "title": "Oneshot delivers at most once, and exactly the sent value", "statement": "The receiver obtains a value at most once and only the value passed to send; send returns the value back exactly when it was not and never will be delivered; when both halves are gone, a sent value has been exactly once either delivered, returned to the sender or destroyed.", "quantifier": "every interleaving of all sender and receiver operations at the granularity of individual shared-memory accesses, both builds, all values, as long as no memory is used after being freed (C32)", "why_tests_cant": "loom tests exercise single pairs of operations", "anchors": ["src/sync/spsc/oneshot/sender.rs", "src/sync/spsc/oneshot/receiver.rs"]}
{"id": "C30", "title": "Oneshot receiver is woken", "statement": "If polling the receiver returned Pending and the sender has since completed send or been dropped, then the waker registered by the receiver (that of the first Pending poll) has been woken, and polling again does not return Pending.", "quantifier": "every interleaving, both builds, as long as no memory is used after being freed (C32)", "why_tests_cant": "lost wakeups depend on interleavings", "anchors": ["src/sync/spsc/oneshot/receiver.rs: Receiver::poll", "src/sync/spsc/oneshot/sender.rs: send, Drop"]}
{"id": "C31", "title": "Oneshot sender learns about cancellation", "statement": "If poll_canceled returned Pending and the receiver has since been closed or dropped, the sender's registered waker has been woken and poll_canceled/is_canceled report cancellation; once closed, every later send fails and returns the value.", "quantifier": "every interleaving, both builds, as long as no memory is used after being freed (C32)", "why_tests_cant": "lost wakeups depend on interleavings", "anchors": ["src/sync/spsc/oneshot/sender.rs: poll_canceled, is_canceled, send", "src/sync/spsc/oneshot/receiver.rs: close, Drop"]}
{"id": "C32", "title": "Oneshot shared state is freed exactly once and never used afterwards", "statement": "The shared allocation and the stored wakers are released exactly once after both halves are gone and never accessed afterwards.", "quantifier": "every interleaving of all operations, both builds", "why_tests_cant": "use after free needs a preemption inside the consuming operation", "anchors": ["src/sync/spsc/oneshot/sender.rs: send, Drop", "src/sync/spsc/oneshot/receiver.rs: Drop"]}
{"id": "C33", "title": "Polling with a new waker re-registers it", "statement": "If a channel future/stream is polled again with a different waker and returns Pending, the later event wakes the most recent waker.", "quantifier": "every sequence of polls with different wakers, for oneshot, pulse and ring channels", "why_tests_cant": "requires migrating a task between executors mid-flight", "anchors": ["src/sync/spsc/oneshot/receiver.rs: poll", "src/sync/spsc/pulse/receiver.rs: poll_next", "src/sync/spsc/ring/receiver.rs: poll_next"]}
{"id": "C34", "title": "Pulse counter conservation", "statement": "The total number of pulses received never exceeds the number sent, and as long as the receiver is not closed the sum of pulses reported as accepted by send equals pulses received plus pulses still pending; nothing is lost or duplicated; a send that reports overflow adds nothing; a saturating send adds exactly the amount that fits.", "quantifier": "every interleaving and every pulse count, any word size, as long as no memory is used after being freed (C66)", "why_tests_cant": "counter overflow needs 2^27 or 2^59 pulses", "anchors": ["src/sync/spsc/pulse/sender.rs: send, saturating_send", "src/sync/spsc/pulse/receiver.rs: try_next, poll_next"]}
{"id": "C35", "title": "Pulse send on a closed channel has no effect", "statement": "When send reports that the receiver is closed, the receiver will not observe those pulses.", "quantifier": "every history with close before send", "why_tests_cant": "requires draining after close", "anchors": ["src/sync/spsc/pulse/sender.rs: send", "src/sync/spsc/pulse/receiver.rs: close, try_next"]}
{"id": "C36", "title": "Pulse receiver wakeup and termination", "statement": "If poll_next returned Pending and the sender has since completed a successful send, send_err or been dropped, then the registered waker has been woken; the final error is delivered at most once and only after all pulses; the stream terminates afterwards.", "quantifier": "every interleaving, any word size, as long as no memory is used after being freed (C66)", "why_tests_cant": "depends on interleavings", "anchors": ["src/sync/spsc/pulse/receiver.rs: poll_next, is_terminated", "src/sync/spsc/pulse/sender.rs: send, send_err, Drop"]}
{"id": "C37", "title": "Ring channel is a bounded FIFO", "statement": "Values come out in the order they were accepted, each exactly once; at most `capacity` values are pending; try_send fails with Full only when `capacity` values are pending and returns the value; the receiver reports Empty only when nothing is pending.", "quantifier": "every history of operations, every capacity accepted by the constructor, both word sizes", "why_tests_cant": "unbounded histories; the largest capacities cannot be allocated in a test", "anchors": ["src/sync/spsc/ring/mod.rs", "src/sync/spsc/ring/sender.rs: try_send", "src/sync/spsc/ring/receiver.rs: try_next, poll_next"]}
{"id": "C38", "title": "Ring FIFO survives arbitrary preemption", "statement": "The FIFO property also holds when sender and receiver operations preempt each other at any shared-memory access.", "quantifier": "every interleaving at access granularity", "why_tests_cant": "needs a preemption between claiming and reading a slot of a full buffer", "anchors": ["src/sync/spsc/ring/receiver.rs: take_value", "src/sync/spsc/ring/sender.rs: try_send, send_overwrite"]}
{"id": "C39", "title": "Overwriting send replaces exactly the oldest value", "statement": "send_overwrite on a non-full channel appends; on a full channel it removes and returns exactly the oldest pending value and appends the new one; on a closed channel it returns the value.", "quantifier": "every reachable channel state and capacity", "why_tests_cant": "unbounded histories", "anchors": ["src/sync/spsc/ring/sender.rs: send_overwrite", "src/sync/spsc/ring/mod.rs: claim_next_if_full"]}
{"id": "C40", "title": "Ring error is delivered once, after all values", "statement": "The error passed to send_err is delivered exactly once, after every value accepted before it, and then the stream ends; if the receiver is already closed the error is returned to the caller.", "quantifier": "every history", "why_tests_cant": "unbounded histories", "anchors": ["src/sync/spsc/ring/sender.rs: send_err", "src/sync/spsc/ring/receiver.rs: take_value, poll_next"]}
{"id": "C41", "title": "Ring wakeups", "statement": "A receiver whose poll returned Pending is woken by the next accepted value, error or sender drop; a sender waiting for space, for flush or for close is woken when a slot is freed, the buffer drains, or the receiver closes.", "quantifier": "every interleaving", "why_tests_cant": "lost wakeups depend on interleavings", "anchors": ["src/sync/spsc/ring/sender.rs: poll_ready, poll_flush, poll_close", "src/sync/spsc/ring/receiver.rs: take_value, close, Drop"]}
{"id": "C42", "title": "Ring channel never uses a consumed waker", "statement": "No operation uses the sender's waker after it has been consumed, including draining a closed channel.", "quantifier": "every history of operations, even without concurrency", "why_tests_cant": "memory errors are silent for trivially-cloned wakers used in tests", "anchors": ["src/sync/spsc/ring/receiver.rs: close, take_value"]}
{"id": "C43", "title": "A soft thread preempts only strictly lower priorities", "statement": "A software thread starts running only if its priority is strictly higher than that of every thread of the pool which is currently preempted or running.", "quantifier": "every program of wakeups by threads and interrupts, any priorities", "why_tests_cant": "unbounded schedules", "anchors": ["src/thr/soft/mod.rs: will_preempt, preempt, row_start, row_next"]}
{"id": "C44", "title": "The highest-priority pending soft thread runs first", "statement": "Whenever the soft-thread scheduler selects the next priority level, no strictly higher level has a pending thread, and when it returns to the preempted level, no pending level above it remains.", "quantifier": "every program of wakeups by threads and interrupts, any priorities", "why_tests_cant": "unbounded schedules", "anchors": ["src/thr/soft/mod.rs: row_start, row_next, cursor_find_priority"]}
{"id": "C45", "title": "Every wakeup of a soft thread leads to a run", "statement": "A thread that is set pending is resumed at least once after that, before the scheduler becomes idle; in particular a thread which is woken while it (or another thread of the same priority) is running is run again.", "quantifier": "every program of wakeups by threads and interrupts, any priorities and number of threads", "why_tests_cant": "depends on timing of wakeups relative to scheduler steps", "anchors": ["src/thr/soft/mod.rs: set_pending, row_run, row_next"]}
{"id": "C46", "title": "Soft threads run only when woken", "statement": "A soft thread is resumed at most once per wakeup and never without a wakeup, and the pending state is cleared before the thread body starts.", "quantifier": "every program of wakeups, any number of threads", "why_tests_cant": "depends on number of threads exceeding one bitmap word and on schedules", "anchors": ["src/thr/soft/mod.rs: row_run, row_next, cell_idx, pending_bit"]}
{"id": "C47", "title": "Thread-local access follows preemption", "statement": "Thread::local inside a thread body refers to the storage of that very thread, also after arbitrarily nested preempting threads have run and returned; outside of the pool there is no local.", "quantifier": "every nesting of thread calls", "why_tests_cant": "nesting unbounded", "anchors": ["src/thr/mod.rs: Thread::call, Thread::local_checked"]}
{"id": "C48", "title": "Debug stream frames are intact and ordered", "statement": "The sequence of frames decoded by a reader following the documented framing equals the sequence of transactions written, in order, without loss, duplication, corruption, or overwriting of unread bytes.", "quantifier": "every sequence of writes interleaved with arbitrary reader progress, every buffer size", "why_tests_cant": "wrap-around positions and reader progress are unbounded", "anchors": ["src/stream/runtime.rs: Transaction::write"]}
{"id": "C49", "title": "A stream write completes once the reader catches up", "statement": "A write whose frame is shorter than the buffer succeeds after at most one retry once the reader has consumed everything; frames that are not shorter never succeed and never change anything readable.", "quantifier": "every reachable buffer state", "why_tests_cant": "depends on cursor positions", "anchors": ["src/stream/runtime.rs: write_transaction, Transaction::write"]}
{"id": "C50", "title": "write_bytes splits without loss", "statement": "The payloads of the transactions emitted for a byte sequence concatenate to that sequence, each has between 1 and 64 bytes, all but the last have exactly 64; an empty sequence emits nothing.", "quantifier": "every byte sequence", "why_tests_cant": "unbounded length", "anchors": ["src/stream/runtime.rs: write_bytes"]}
{"id": "C51", "title": "Future fiber resolves with the fiber's result", "statement": "The future returned by add_future resolves exactly with the value the fiber completed with, after exactly as many thread runs as needed; closing the future removes the fiber on the next run without resuming it.", "quantifier": "every fiber behaviour and interleaving of thread runs and polls", "why_tests_cant": "unbounded behaviours", "anchors": ["src/fib/future.rs: add_rx, FiberFuture::poll, FiberFuture::close"]}
{"id": "C52", "title": "Polling a fiber future is always defined", "statement": "Polling a FiberFuture never reaches the unreachable branch.", "quantifier": "every history of poll/close/fiber removal", "why_tests_cant": "requires polling after close", "anchors": ["src/fib/future.rs: FiberFuture::poll"]}
{"id": "C53", "title": "Stream fiber delivers yielded values in order", "statement": "The stream returned by add_stream and friends yields exactly the values yielded by the fiber in order (except those handed to the overflow handler, or overwritten in the overwriting variants), then the completion value, then the error if any, and ends.", "quantifier": "every fiber behaviour, overflow handler, capacity and consumer progress", "why_tests_cant": "unbounded behaviours", "anchors": ["src/fib/stream_ring.rs: add_rx, add_rx_overwrite"]}
{"id": "C54", "title": "Saturating pulse stream saturates", "statement": "With add_saturating_pulse_stream, when the fiber yields more pulses than the counter can hold, the consumer observes the saturated counter rather than losing the pack.", "quantifier": "every sequence of yielded pulse counts", "why_tests_cant": "requires counter overflow", "anchors": ["src/fib/stream_pulse.rs: add_saturating_pulse_stream, add_rx"]}
{"id": "C55", "title": "Inventory teardown happens only when all tokens are back", "statement": "A resource wrapped in an inventory can be freed/torn down only when no token shared from it is outstanding; sharing then merging n tokens restores the inventory; dropping a guard tears the resource down exactly once.", "quantifier": "every well-typed sequence of share/merge/guard operations", "why_tests_cant": "requires all token histories", "anchors": ["src/inventory.rs: Inventory, Guard, share*, merge*"]}
{"id": "C56", "title": "Command loop protocol", "statement": "Running a command resumes the loop fiber first with the command, then with exactly one request result per request it emitted, in order, and returns the command result the fiber emits next; if handling a request fails, the error is returned and the fiber is not resumed.", "quantifier": "every fiber behaviour and request handler", "why_tests_cant": "unbounded behaviours", "anchors": ["src/proc_loop.rs: Sess::cmd, In, Out"]}
{"id": "C57", "title": "Conditional-compilation transposition is faithful", "statement": "For each build configuration, the item list selected by the generated cfg attributes contains exactly the items whose own conditions hold in that configuration, and exactly one generated alternative is active.", "quantifier": "every list of conditioned items and every configuration", "why_tests_cant": "configuration space is exponential", "anchors": ["macros-core/src/cfg_cond.rs: CfgCond::attrs, to_dnf, transpose"]}
{"id": "C58", "title": "Allocation trace events describe the operation", "statement": "When heap tracing is enabled, each traced allocate/deallocate/grow/shrink emits exactly one frame from which the kind of operation and the sizes involved can be recovered; when the stream is disabled nothing is emitted.", "quantifier": "every size", "why_tests_cant": "unbounded sizes", "anchors": ["src/heap/trace.rs"]}
{"id": "C59", "title": "Stream runtime initialisation", "statement": "Initialisation adopts the probe-provided runtime exactly when the buffer starts with the complete bootstrap sequence, and invalidates it so that a later initialisation does not adopt it again; otherwise cursors and the enable mask are reset.", "quantifier": "every memory content", "why_tests_cant": "unbounded memory contents", "anchors": ["src/stream/mod.rs: init"]}
{"id": "C60", "title": "Interrupts stay disabled while any handle is alive", "statement": "As long as at least one handle returned by `Interrupts::pause` is alive, interrupts are disabled; when the last one is dropped, the state is as before the first one was created.", "quantifier": "every order of creating and dropping handles", "why_tests_cant": "requires particular drop orders and access to the interrupt state", "anchors": ["src/platform/interrputs.rs: Interrupts::pause, Drop for Interrupts"]}
{"id": "C61", "title": "The heap keeps live memory intact for every block size", "statement": "Bytes of a live allocation change only by the owner's writes whatever block sizes the pools are configured with, including blocks smaller than a pointer.", "quantifier": "every pool configuration with positive block sizes, every heap history", "why_tests_cant": "configurations are unbounded; the default test configurations never use blocks below the pointer size", "anchors": ["src/heap/pool.rs: Pool::deallocate, Pool::new"]}
{"id": "C62", "title": "A pool allocation fails only when the pool is full", "statement": "If an allocation from a pool fails then at some instant during the call no block was free (neither in the free list nor never issued).", "quantifier": "every interleaving of any number of contexts, both builds", "why_tests_cant": "needs three contexts interleaved inside one call", "anchors": ["src/heap/pool.rs: Pool::allocate, allocate_free, allocate_uninit"]}
{"id": "C63", "title": "Every heap operation leaves a trace", "statement": "With heap tracing enabled, every call that allocates, frees or resizes a block emits a frame, so that a probe can account for all live memory.", "quantifier": "every Allocator/GlobalAlloc call and every size", "why_tests_cant": "tests do not run with a probe; the zeroed entry points are separate generated methods", "anchors": ["macros/src/heap.rs: def_core_alloc, def_global_alloc", "src/heap/trace.rs"]}
{"id": "C64", "title": "A transaction may carry up to the documented number of bytes", "statement": "Stream::write_transaction panics only if the length is more than 256, as documented.", "quantifier": "every byte slice", "why_tests_cant": "requires the boundary length; the runtime is unimplemented on the host", "anchors": ["src/stream/mod.rs: Stream::write_transaction"]}
{"id": "C65", "title": "Pulse sender learns about cancellation", "statement": "If poll_canceled returned Pending and the receiver has since been closed or dropped, the sender's registered waker has been woken; poll_canceled, is_canceled, send and send_err called after that report cancellation (send may report a full counter instead) and none of them does so earlier.", "quantifier": "every interleaving, both builds, any word size, as long as no memory is used after being freed (C66)", "why_tests_cant": "close/drop racing with waker registration at every point", "anchors": ["src/sync/spsc/pulse/sender.rs: poll_canceled, is_canceled, send, send_err", "src/sync/spsc/pulse/receiver.rs: close, Drop"]}
{"id": "C66", "title": "Pulse shared state is freed exactly once and never used afterwards", "statement": "The shared allocation, the final error and the stored wakers are released exactly once after both halves are gone and never accessed afterwards.", "quantifier": "every interleaving of all operations, both builds, any word size", "why_tests_cant": "use after free requires a specific schedule and is silent in safe tests", "anchors": ["src/sync/spsc/pulse/sender.rs: Drop, send_err", "src/sync/spsc/pulse/receiver.rs: Drop"]}
{"id": "C67", "title": "Ring channel frees its memory exactly once and leaks nothing", "statement": "The shared block of a ring channel is freed exactly once, after both halves are finished with it; nothing is read or written after that; and by then every value, the error and both wakers have been handed out or destroyed.", "quantifier": "every interleaving of the two halves, any capacity and word size, both builds", "why_tests_cant": "interleavings and histories are unbounded; the windows are single instructions", "anchors": ["src/sync/spsc/ring/mod.rs: Shared, Drop", "src/sync/spsc/ring/sender.rs: Drop", "src/sync/spsc/ring/receiver.rs: Drop"]}
{"id": "C68", "title": "A free lock is granted", "statement": "When every call has returned and every guard has been dropped, try_lock succeeds, and polling any pending lock future returns Ready with a guard.", "quantifier": "every history of any number of contexts that ends with no call in progress and no guard alive, both builds, as long as no freed waiter was touched", "why_tests_cant": "depends on the state left behind by every possible interleaving", "anchors": ["src/sync/mutex.rs: Mutex::try_lock, MutexLockFuture::poll, MutexGuard::drop"]}
{"id": "C69", "title": "A release wakes the task that polled the future last", "statement": "When a pending lock future is notified, the waker invoked is the one given to its most recent poll, as the Future contract requires.", "quantifier": "every history of polls with arbitrary wakers", "why_tests_cant": "requires a task migrating between executors between two polls", "anchors": ["src/sync/mutex.rs: MutexLockFuture::poll, Waiter::register, Waiter::wake"]}
{"id": "C70", "title": "A soft thread is never re-entered", "statement": "While the body of a software thread is running or preempted, the scheduler does not start that thread again (Thread::resume and Thread::call are documented as not reentrant).", "quantifier": "every program of wakeups, priority changes and interrupts", "why_tests_cant": "needs a preemption of the thread by its own later wakeup at another priority", "anchors": ["src/thr/soft/mod.rs: preempt, set_priority", "src/thr/mod.rs: Thread::resume, Thread::call"]}
{"id": "C71", "title": "clear_pending cancels the wakeup", "statement": "After clear_pending of a soft thread has returned, the thread is not started until it is set pending again.", "quantifier": "every program of wakeups, clears and interrupts", "why_tests_cant": "depends on where the scheduler is in its row when the flag is cleared", "anchors": ["src/thr/soft/mod.rs: clear_pending, row_run"]}
{"id": "C72", "title": "The soft-thread scheduler stays within its state array", "statement": "Every access of the scheduler to SoftThread::pending is within its pending_size elements.", "quantifier": "every program of wakeups, any number of threads up to the maximum", "why_tests_cant": "an out-of-bounds read of a static array has no visible effect in a test and depends on the mix of priorities", "anchors": ["src/thr/soft/mod.rs: pending_size, cell_idx, row_run, row_next"]}
{"id": "C73", "title": "The fiber of a command loop reads its input as what it is", "statement": "Sess::Fiber input is an untagged union: whenever Sess::cmd resumes the fiber with a command, the fiber is waiting for a command, and whenever it resumes it with a request result, the fiber is waiting for one.", "quantifier": "every sequence of commands, fiber behaviour, request outcomes and dropped futures", "why_tests_cant": "needs a failed or abandoned command followed by another one; the misread union is undefined behaviour", "anchors": ["src/proc_loop.rs: Sess::cmd, In, In::into_cmd, In::into_req_res"]}
{"id": "C74", "title": "Generated cfg attributes of an item hold exactly when the written ones do", "statement": "The attributes generated for an item from the conditions of the item and of what contains it hold in exactly the configurations in which all of those conditions hold.", "quantifier": "every list of accepted attributes and every configuration", "why_tests_cant": "configuration space is exponential", "anchors": ["macros-core/src/cfg_cond.rs: CfgCond::parse, add_clause, attrs"]}
{"id": "C75", "title": "A token stands for an active item", "statement": "While a token, or a reference to one, exists, the item of the inventory is in its active state, as documented for Token.", "quantifier": "every well-typed program of inventory operations", "why_tests_cant": "requires all token histories", "anchors": ["src/inventory.rs: Token, Inventory::inventory_token, share*, Guard, Inventory::teardown"]}
{"id": "C76", "title": "A fiber future never uses freed memory", "statement": "For every fiber behaviour and every interleaving of runs of its thread with polling, closing and dropping the future, the shared state of add_future is not used after it is freed, and is freed once.", "quantifier": "every fiber behaviour and interleaving", "why_tests_cant": "the window is a few instructions wide and a use after free is not observable in a test", "anchors": ["src/fib/future.rs: add_rx", "src/sync/spsc/oneshot/mod.rs: Shared", "src/sync/spsc/mod.rs"]}
{"id": "C77", "title": "Pulse stream conserves pulses and reports errors and the end", "statement": "The stream returned by the pulse stream methods delivers exactly the pulses the fiber yields and completes with, except packs that do not fit the counter; the overflow handler is called once for each such pack; an error of the fiber or of the handler is delivered after all pulses, then the stream ends; the consumer is woken; the fiber is resumed once per run and removed once it completes, the handler fails or the stream is closed.", "quantifier": "every word width, fiber behaviour, overflow handler and interleaving of the thread with the consumer", "why_tests_cant": "unbounded behaviours and preemption between single memory accesses", "anchors": ["src/fib/stream_pulse.rs: add_rx, FiberStreamPulse, TryFiberStreamPulse"]}
{"id": "C78", "title": "Thread-local contents stay in their thread", "statement": "A fiber running in a thread only holds references to that thread's local storage: the contents do not leave their thread, as documented for LocalOpaque, also for fibers that are not Send and are made by a factory.", "quantifier": "every nesting of threads and handlers, every sequence of added and resumed fibers", "why_tests_cant": "the types are not checked by tests, and the effect is a data race between threads", "anchors": ["src/thr/mod.rs: ThrToken::add_fib_factory, LocalOpaque, Thread::local_checked, Thread::call"]}
{"id": "C79", "title": "Heap initialisation restores exactly the metadata", "statement": "init replaces the metadata of the heap by its load image, all of it, and changes no other memory.", "quantifier": "every number of pools, every placement of the metadata and its image, every memory contents and word size", "why_tests_cant": "host tests do not run with a linker script or another word size", "anchors": ["macros/src/heap.rs: proc_macro (init)", "src/heap/pool.rs: Pool"]}
{"id": "C80", "title": "Generated names are usable and distinct", "statement": "A name produced by unkeywordize is never a reserved word; a name that is not reserved is kept; distinct names stay distinct.", "quantifier": "every name", "why_tests_cant": "infinitely many names, and the list of reserved words changes with the edition", "anchors": ["macros-core/src/unkeywordize.rs: unkeywordize, KEYWORDS"]}
{"id": "C81", "title": "No data races in a oneshot between cores", "statement": "When the halves of a oneshot are used on different cores, the orderings given in the source order all accesses that could conflict: those to the value and the wakers, and those before the freeing of the shared block.", "quantifier": "every sequence of calls on the two halves and every execution of them that the memory model allows, including reads of old values of the state word", "why_tests_cant": "needs hardware that reorders, and then a particular reordering; a test that passes proves nothing about other hardware", "anchors": ["src/sync/spsc/oneshot/sender.rs: send, poll_canceled, drop", "src/sync/spsc/oneshot/receiver.rs: close, try_recv, poll, drop", "src/sync/spsc/atomic_macros.rs"]}
{"id": "C82", "title": "No data races in a pulse channel between cores", "statement": "When the halves of a pulse channel are used on different cores, the orderings given in the source order all accesses that could conflict: those to the error and the wakers, and those before the freeing of the shared block.", "quantifier": "every word width, every sequence of calls and every execution that the memory model allows", "why_tests_cant": "needs hardware that reorders, and then a particular reordering", "anchors": ["src/sync/spsc/pulse/sender.rs: send, send_err, poll_canceled, drop", "src/sync/spsc/pulse/receiver.rs: close, try_next, poll_next, drop"]}
{"id": "C83", "title": "No data races in a ring between cores", "statement": "When the halves of a ring are used on different cores, the orderings given in the source order all accesses that could conflict: those to the slots, the error and the wakers, and those before the freeing of the shared block.", "quantifier": "every capacity, every sequence of calls and every execution that the memory model allows", "why_tests_cant": "needs hardware that reorders, and then a particular reordering", "anchors": ["src/sync/spsc/ring/sender.rs: try_send, send_overwrite, send_err, poll_ready, poll_flush, poll_close, drop", "src/sync/spsc/ring/receiver.rs: close, try_next, poll_next, take_value, drop"]}
{"id": "C84", "title": "Channels between cores behave as on one core", "statement": "Whatever the halves of a channel do on different cores, there is an execution in which all accesses happen one after the other and in which each half makes the same calls with the same results, wakeups and destroyed values. In particular values are received at most once, pulses are not lost or invented, and a waiting receiver is woken when the sender ends.", "quantifier": "every sequence of calls and every execution that the memory model allows", "why_tests_cant": "the executions of a weak memory cannot be enumerated by running the program", "anchors": ["src/sync/spsc/oneshot", "src/sync/spsc/pulse", "src/sync/spsc/ring"]}
{"id": "C85", "title": "Draining a list on one core while others push has no data races", "statement": "While any number of contexts push to a linked list and one drains it with drain_filter_raw, removing and freeing nodes as the filter decides, any two conflicting non-atomic accesses (to a node's value or link, or the freeing of a node) are ordered by happens-before.", "quantifier": "every number of contexts and pushes, every filter, and every execution that the memory model allows", "why_tests_cant": "races depend on the memory model and on interleavings that cannot be enumerated by running the program", "anchors": ["src/sync/linked_list.rs: push_raw, drain_filter_raw, DrainFilterRaw::next, cut_out", "src/fib/chain.rs"]}
{"id": "C86", "title": "A list shared between cores is memory safe and loses no node", "statement": "While any number of contexts push and one drains, on cores that may read outdated values of the head: the drain never follows a null pointer, nothing in a freed node is accessed, no node is freed twice, and while no drain is under way each node whose push has returned is either in the list or has been freed exactly once.", "quantifier": "every number of contexts and pushes, every filter, and every execution that the memory model allows", "why_tests_cant": "outdated values and their interleavings cannot be enumerated by running the program", "anchors": ["src/sync/linked_list.rs: push_raw, drain_filter_raw, DrainFilterRaw::next, cut_out"]}
{"id": "C87", "title": "The executor polls each future as long as it is pending, and destroys it once", "statement": "Every fiber, generator or root future added to a thread is made by exactly one call of its factory in the calling context, is then added once, and is called only while it is in the chain and has not completed; a complete run of the thread calls each fiber that was in the chain at its start exactly once, the latest first. exec wakes the thread up after the future has been added, so that it is polled in each complete run after this wake-up until it is ready. A fiber that completes is destroyed exactly once and never called again. The only panic is that of a root future that completes with an error; 'fiber resumed after completion' cannot happen.", "quantifier": "every number of contexts and fibers of all four kinds, every answer of user code, every interleaving of additions with a running thread, in both builds", "why_tests_cant": "a test fixes the futures, their answers and one interleaving of additions and runs", "anchors": ["src/thr/exec.rs: exec, exec_factory, add_exec, add_exec_factory, ExecOutput", "src/fib/closure.rs: FiberFn, FiberOnce, add_fn, add_fn_factory, add_once", "src/fib/generator.rs: FiberGen, add, add_factory", "src/thr/mod.rs: add_fib, add_fib_factory"]}
{"id": "C88", "title": "Data behind the mutex is never raced on, on any number of cores", "statement": "Any two accesses through guards of a mutex, by whatever cores and also when guards are moved between cores, are ordered by happens-before in the order in which they are made, so that each holder sees all that the earlier ones have written; at no time do two guards exist.", "quantifier": "every number of cores and every execution that the memory model allows, with arbitrary other accesses in between", "why_tests_cant": "data races depend on the memory orderings, which tests on one machine do not exercise", "anchors": ["src/sync/mutex.rs: try_lock, unlock, MutexGuard"]}
{"id": "C89", "title": "Blocks of a memory pool can be passed between cores without data races", "statement": "Accesses to a block of a pool by its successive owners, and by allocate and deallocate themselves, are ordered by happens-before, on any number of cores.", "quantifier": "every number of contexts, every pool size, every pattern of allocating, using, sending and freeing, every execution that the memory model allows", "why_tests_cant": "data races depend on the memory orderings and on interleavings inside allocate", "anchors": ["src/heap/pool.rs: allocate, deallocate, allocate_free, allocate_uninit"]}
{"id": "C90", "title": "Register tokens exist at most once", "statement": "Of the tokens that safe code can have of one register, those that are not Copy exist at most once each, and an Urt or Srt token of the whole register excludes every other token of it.", "quantifier": "every sequence of conversions, splits, joins, drops and accesses by safe code, for every number of variants and fields, starting from one token", "why_tests_cant": "the set of programs that can be written with public items is not something a test enumerates; the hole is a public field of a generated struct", "anchors": ["src/reg/tag.rs: Urt, Srt, Crt", "src/reg/mod.rs: into_unsync, into_sync, into_copy, RwRegUnsync", "src/reg/field.rs: into_copy", "macros/src/reg.rs: generate, into_variant", "macros/src/reg_tokens_inner.rs"]}
{"id": "C91", "title": "modify never loses an update", "statement": "When no modify is in progress, a register has the value that results from applying all stores and all closures of finished modify calls in the order in which they took effect.", "quantifier": "every interleaving of loads, stores and modify calls by any number of threads and inside closures, with and without atomics", "why_tests_cant": "lost updates need an interrupt, or a nested call, between a load and a store", "anchors": ["src/reg/atomic.rs: modify", "src/reg/soft_atomic.rs: modify, modify_reg", "src/reg/mod.rs: RwRegUnsync::modify"]}
{"id": "C92", "title": "An index of register tokens has one token for each declared register", "statement": "The struct made by a register index macro has exactly one member for each register declared in reg::tokens! calls that the macro extends, whose cfg conditions hold where it is declared and that is not excluded.", "quantifier": "every tree of reg::tokens! calls, every arrangement of blocks, conditions and exclusions, every set of features", "why_tests_cant": "the expansion depends on the features of two crates; a test compiles one combination", "anchors": ["macros/src/reg_tokens.rs: proc_macro, make_macro, negate_cfg_attrs, is_cfg_attr", "macros/src/reg_tokens_inner.rs: proc_macro"]}
{"id": "C93", "title": "A software-managed thread polls its futures when it is woken up", "statement": "Whenever a software-managed thread is woken up, by exec or by one of its wakers, every future that is in its fiber chain at that time is polled afterwards, before the system is idle; every run of the thread polls every future that was there at its start exactly once.", "quantifier": "every number of threads up to 32, both builds, every interleaving of handlers, thread bodies, calls of the scheduler, additions and polls, any answers of the futures", "why_tests_cant": "a lost wake-up depends on which priority is being run at the moment of the wake-up; a test sees one interleaving", "anchors": ["src/thr/exec.rs: ThrExec::exec_factory", "src/thr/soft/mod.rs: ThrExec for SoftThrToken, set_pending, preempt", "src/thr/soft/wake.rs: SoftWaker::wakeup", "src/thr/mod.rs: Thread::resume"]}
{"id": "C94", "title": "What is printed is what format! makes of it", "statement": "The probe reads, on the stream of each printing macro, the text that format! makes of the macro's arguments, with a newline for println! and eprintln!, in the order printed; a message is left out if and only if its stream is disabled when the macro is reached; all of a message is written before the next macro of the same context is reached.", "quantifier": "every format string, every arguments and what they display (also if they report an error), every number of contexts with any programs, any schedule of transactions, any progress of the probe and any changes of the enable mask", "why_tests_cant": "the arm of the macro that is chosen depends on how the call is spelled; tests print a few literals", "anchors": ["src/stream/macros.rs: print!, println!, eprint!, eprintln!, dbg!", "src/stream/mod.rs: write_str, write_fmt, Stream::write_bytes, Write for Stream", "src/stream/runtime.rs: write_bytes, is_enabled"]}
{"id": "C95", "title": "dbg! evaluates its expressions exactly once", "statement": "dbg!(a, b, ...) evaluates each expression exactly once, in order, whether or not the stream is enabled, and prints each after it has been evaluated and before the next one is.", "quantifier": "every program of printing macros, every schedule and any changes of the enable mask", "why_tests_cant": "a debugging macro that drops or repeats side effects when nobody listens is noticed only with the probe detached", "anchors": ["src/stream/macros.rs: dbg!"]}
{"id": "C96", "title": "A printed message is in one piece", "statement": "The bytes of a message printed by one context appear contiguously: messages of other contexts on the same stream come before or after it.", "quantifier": "any two contexts, any messages, any schedule", "why_tests_cant": "depends on an interrupt between two transactions of one message", "anchors": ["src/stream/macros.rs: print!", "src/stream/mod.rs: write_fmt, Stream::write_bytes", "src/stream/runtime.rs: write_bytes, write_transaction"]}
{"id": "C97", "title": "A panic prints its message and resets the system", "statement": "A panic, or a failed allocation, prints its message to stderr if a probe has enabled it, in full and to be read, and then resets the system, whatever the program was doing and has printed before.", "quantifier": "any earlier printing, any buffer contents and size, any message, any relative speed of the context and the probe", "why_tests_cant": "needs the program and the probe at all relative speeds, with the buffer in any state, and that something happens eventually", "anchors": ["src/lang_items.rs: begin_panic, alloc_error_handler", "src/stream/runtime.rs: write_transaction, write_bytes", "src/stream/macros.rs: eprintln!"]}
{"id": "C98", "title": "A token exists at most once", "statement": "Of a token type defined by simple_token!, unsafe_simple_tokens!, unsafe_static_tokens! or thr::pool!, except those that are Copy, at most one instance exists at any time, if the program has taken at most one.", "quantifier": "any declarations, any safe program in any number of contexts", "why_tests_cant": "quantifies over all safe programs that own tokens", "anchors": ["src/token.rs: Token", "macros/src/simple_token.rs: proc_macro", "macros/src/simple_tokens.rs: proc_macro", "macros/src/static_tokens.rs: proc_macro", "macros/src/thr_pool.rs: def_index, def_thr_token"]}
{"id": "C99", "title": "A static with a token is accessed by one context at a time", "statement": "A mutable static with a static token is accessed only by the context that owns the token, or a reference made from it, and by another context only after it was handed over.", "quantifier": "any declarations in which each static has one token, any safe program in any number of contexts", "why_tests_cant": "quantifies over all safe programs that own tokens", "anchors": ["src/token.rs: StaticToken", "macros/src/static_tokens.rs: proc_macro"]}
{"id": "C100", "title": "A static that is not Send stays in its context", "statement": "A mutable static with a static token, whose type is not Send, is accessed by one context only.", "quantifier": "any declarations, any safe program in any number of contexts", "why_tests_cant": "quantifies over all safe programs; whether a program is accepted is decided by types, not by running it", "anchors": ["src/token.rs: Token, StaticToken", "macros/src/static_tokens.rs: proc_macro"]}
{"id": "C101", "title": "A peripheral consists of the registers and fields it was declared with", "statement": "periph::singular! defines a struct and a macro; the macro is accepted exactly when the registers are in the index, and makes a value whose members are, in the declared order and under the declared names, the tokens of the registers and fields that were declared for the features that are on.", "quantifier": "any declaration, any set of features, any registers, any state of the register index", "why_tests_cant": "the macro's input and the features are unbounded, and every combination is a different program that is or is not accepted by the compiler", "anchors": ["src/periph.rs: singular", "macros/src/periph_singular.rs: proc_macro"]}
{"id": "C102", "title": "A register belongs to one peripheral", "statement": "In a program that uses the macros of peripherals and moves registers out of the index by hand, no register or field is handed out twice, neither as itself nor as a part of a register.", "quantifier": "any registers, any number of peripherals in any order, any moves", "why_tests_cant": "quantifies over all programs; whether one is accepted is decided by ownership, not by running it", "anchors": ["src/periph.rs: singular", "macros/src/periph_singular.rs: proc_macro", "macros/src/reg_tokens.rs: proc_macro"]}
{"id": "C103", "title": "A generic peripheral holds the registers that its map names", "statement": "For a generic peripheral (periph!) and a map (periph::map!), the value that the map's macro makes has as members, under the generic names, the tokens of the registers and fields that the map names, or () for what is absent; and every map that agrees with the generic definition is accepted.", "quantifier": "any generic definition with any blocks, registers, variants and fields, any map, any registers", "why_tests_cant": "generic definitions and maps are unbounded inputs of macros; a wrong entry is a program that compiles with another field of the same shape or does not compile at all", "anchors": ["src/periph.rs: map", "macros/src/periph.rs: proc_macro", "macros/src/periph_map.rs: proc_macro"]}
{"id": "C104", "title": "A mapped register is taken apart into the fields that the map names", "statement": "The functions of a map that take a register apart into its generic fields and put it together compile for every accepted map, give each generic field the token that the map names or () if it is absent, and give back the same register.", "quantifier": "any accepted map, any of its registers and variants", "why_tests_cant": "the functions are generated per map; their struct patterns have to match two independently generated structs for all maps", "anchors": ["macros/src/periph.rs: proc_macro", "macros/src/periph_map.rs: proc_macro"]}
{"id": "C105", "title": "A pool that reports exhaustion is exhausted", "statement": "Whenever Pool::allocate returns None, then at some instant between its call and its return every block of the pool was in use or belonged to another call in progress (handing it out, giving it back or about to get it), as the documentation promises (`None` means that the pool is exhausted).", "quantifier": "every pool, every interleaving of any number of contexts, both builds", "why_tests_cant": "an allocation looks at the free list and at the unissued blocks at two different instants, between which any number of other calls can run", "anchors": ["src/heap/pool.rs: Pool::allocate, allocate_free, allocate_uninit", "src/sync/soft_atomic.rs", "src/atomic_macros.rs"]}
{"id": "C106", "title": "The heap shared by interrupts keeps allocations apart and loses nothing", "statement": "When contexts that interrupt one another at any point call allocate and deallocate of one heap, the live allocations (from the return that hands one out to the call that gives it back) are at every instant non-overlapping blocks of pools, at least as large as asked for; and once the interrupts have returned, the next allocation answers exactly as the live allocations dictate: from the first pool with large enough blocks that has a block left, failing only if there is none.", "quantifier": "every well-formed configuration, every initial memory, every schedule of any number of nested contexts, every size; critical-section build", "why_tests_cant": "an allocation visits pool after pool and can be interrupted inside and between them, and deallocation picks its pool by address; whether some interleaving hands a block to the wrong pool's list, or loses one, is beyond any set of runs", "anchors": ["src/heap/mod.rs: allocate, deallocate", "src/heap/pool.rs: Pool::allocate, Pool::deallocate, pool_range_by_layout, pool_by_ptr, binary_search", "src/sync/soft_atomic.rs"]}
{"id": "C107", "title": "An allocation of the heap that fails has seen memory exhausted", "statement": "Whenever allocate of a heap shared by contexts fails, then at some instant between its call and its return all blocks large enough for the request were in use or belonged to other calls in progress.", "quantifier": "every well-formed configuration, every schedule of any number of nested contexts; critical-section build", "why_tests_cant": "the call looks at one pool after the other, and which block was free when is a matter of what runs between the looks", "anchors": ["src/heap/mod.rs: allocate", "src/heap/pool.rs: Pool::allocate, pool_range_by_layout"]}
{"id": "C108", "title": "A pool of threads consists of the threads it is declared with", "statement": "thr::pool! and thr::soft! accept a declaration whose parts that are configured in have distinct names, and make of it one thread object and one token type per thread that is configured in: COUNT is their number, THR_IDX of each token is the position of its thread, to_thr gives the object at that position, whose fields and thread-local fields were initialised with index equal to it, the index struct has exactly these tokens; a software-managed pool also has a zeroed state array of pending_size elements and priorities 0.", "quantifier": "every declaration (any number of threads and fields, any conditions, any order of the sections), every configuration", "why_tests_cant": "a macro is tested on a few declarations; unsafe code (get_unchecked-style pointer arithmetic in to_thr, call, set_pending) relies on THR_IDX < COUNT for all of them", "anchors": ["macros/src/thr_pool.rs: def_thr, def_local, def_index, def_thr_token, Input::parse", "macros/src/thr_soft.rs: def_pool, def_soft", "src/thr/mod.rs: Thread, ThrToken::to_thr", "src/thr/soft/mod.rs: pending_size"]}
{"id": "C109", "title": "A derived bit-field touches exactly its bits", "statement": "For a declaration that derive(Bitfield) accepts, every method it generates does what its documentation says: the reader of a field returns the field's bits, set/clear/toggle/write change the field's bits as told and no other bit of the integer; a field has readers and writers exactly as its mode says; calls for other fields that do not overlap leave what a field reads.", "quantifier": "every declaration (any number of fields, any names, modes, offsets, widths), every integer width, value and argument, debug and release builds, every sequence of calls", "why_tests_cant": "tests use one declaration, whose fields all lie in the integer; the macro checks neither offsets nor widths against the integer", "anchors": ["macros/src/bitfield.rs: Input::parse, Mode::parse, proc_macro_derive", "src/bitfield/mod.rs: Bitfield, Bits"]}
{"id": "C110", "title": "With the heap as global allocator, each allocation is an array of its own", "statement": "A program that allocates, zero-allocates, reallocates and frees through the global allocator that heap! generates (#[global_allocator]) observes arrays: every load gives the byte stored last at that index of that allocation, whatever happened to other allocations and across any reallocations; zeroed memory is zero; a failed request changes nothing; allocations do not overlap and are not null; a request fails only if every pool with blocks of its size is used up; no block is lost.", "quantifier": "every pool configuration that is well-formed, every sequence of requests, stores and loads, any initial contents of memory", "why_tests_cant": "no test runs a program against the generated GlobalAlloc; the state space of histories is unbounded", "anchors": ["macros/src/heap.rs: def_global_alloc, def_core_alloc", "src/heap/mod.rs: allocate, deallocate", "src/heap/pool.rs: Pool"]}
{"id": "C111", "title": "Resizing within a block succeeds", "statement": "Shrinking an allocation, or growing it to a size that its block has room for, needs no memory and succeeds; Vec::shrink_to_fit and the like do not fail for lack of memory.", "quantifier": "every well-formed configuration, every history, every allocation and new size up to its block size", "why_tests_cant": "tests resize on a heap with free blocks", "anchors": ["src/heap/mod.rs: grow, grow_zeroed, shrink", "macros/src/heap.rs: def_global_alloc"]}
{"id": "C112", "title": "The trace of the heap adds up to what is in use", "statement": "With tracing enabled, the sum of the sizes in the allocation records minus those in the deallocation records is the number of bytes that the program has in use.", "quantifier": "every history of a program that uses the global allocator, every stream number and word size from 4 bytes", "why_tests_cant": "tests look at single records", "anchors": ["macros/src/heap.rs: def_core_alloc (trace_allocate, trace_deallocate), def_global_alloc", "src/heap/trace.rs"]}
{"id": "C113", "title": "A register token has exactly the documented methods", "statement": "The tables of the documentation list, for each method of register and field tokens, the field widths, field modes, register modes and tags it is for. With each set of traits that the documentation names for read-write, read-only and write-only registers and fields, `reg!` is accepted exactly if the field does not do what its register cannot, and a method can be called on a token exactly if the tables list it.", "quantifier": "every method, tag, width of field, mode of field and of register, size of register, with and without the feature \"atomics\"", "why_tests_cant": "that a call does not compile cannot be tested by running; a test covers one combination; the methods come from some thirty traits with general implementations", "anchors": ["src/reg/mod.rs: documentation tables, RReg, WReg, RoReg, WoReg, WRegUnsync, WRegAtomic, RwRegUnsync", "src/reg/field.rs: the traits and their implementations", "src/reg/atomic.rs: RwRegAtomic, WRwRegFieldAtomic, AtomicBits", "src/reg/soft_atomic.rs", "macros/src/reg.rs: Variant::generate"]}
{"id": "C114", "title": "A marker trait stands for its kind of token", "statement": "Each trait of `reg::marker` names a kind of token (tag, width, mode of the field, mode of the register). A token has the marker of its own kind and no other; generic code bound by a marker can call exactly the documented methods of that kind.", "quantifier": "every marker, every token declared with a documented set of traits, every method, with and without the feature \"atomics\"", "why_tests_cant": "what generic code may call is decided by the compiler; tests would have to be programs that fail to compile", "anchors": ["src/reg/marker.rs: all traits", "src/reg/mod.rs: documentation tables"]}
{"id": "C115", "title": "The value of a register has the methods of its fields, each for its bits", "statement": "For fields of distinct names, `reg!` is accepted, and the value passed to `modify` and `store` has the documented methods for each field: `foo()` if the field can be read, `set_foo`, `clear_foo`, `toggle_foo`, `write_foo` if it can be written; each returns or changes exactly the bits at the field's offset and width; a chain of calls in `modify` (or `store`) leaves all bits of the register (of the reset value) outside of the named fields.", "quantifier": "every declaration (any number of fields, names, offsets, widths, traits), every register size, value and argument, every chain of calls, debug and release builds", "why_tests_cant": "tests use one declaration, whose fields all lie in the register and whose names do not clash", "anchors": ["macros/src/reg.rs: Field, Variant::generate", "src/reg/field.rs: RRRegFieldBit, WWRegFieldBit, RRRegFieldBits, WWRegFieldBits", "src/bitfield/bits.rs: Bits::from_usize", "src/reg/mod.rs: documentation, \"Register Value\""]}
{"id": "C116", "title": "A stream starts with what the probe asked for, never with what was printed", "statement": "Each time a stream is initialised after a restart, its runtime structure is the one a probe placed in its buffer since the last initialisation; if none did, it is an empty buffer of the declared size. Text printed before the restart never has an influence, wherever the board was reset.", "quantifier": "any number of streams, every contents of memory at power on that does not begin with the sequence, every printed data, every number of restarts at any point (also within a transaction), every request of a probe", "why_tests_cant": "the text printed, the moment of the reset and the contents of memory are unbounded", "anchors": ["macros/src/stream.rs: proc_macro", "src/stream/mod.rs: init", "src/stream/runtime.rs: Transaction::write"]}
{"id": "C117", "title": "Frames are intact after every restart", "statement": "After every initialisation, from whatever empty position in the buffer the probe chose, for all streams of the board at once: nothing is written outside of the declared buffer, every transaction has exactly one outcome, the frames read are a prefix of the frames written since that initialisation, and the reader, left alone, obtains exactly the rest; no frame from before the restart appears.", "quantifier": "any number of streams, restarts at any point, requests of the probe within the buffer, every sequence of transactions and progress of the reader", "why_tests_cant": "unbounded histories; old frames are still in the buffer after a restart", "anchors": ["macros/src/stream.rs: proc_macro", "src/stream/mod.rs: init", "src/stream/runtime.rs: Transaction::write"]}
{"id": "C118", "title": "Only streams that the probe enabled are enabled", "statement": "`is_enabled` returns what the probe said last, at run time or with its request, and false after a restart until it says something.", "quantifier": "any number of streams and cores, every order of initialisation, restarts and changes of the mask", "why_tests_cant": "orders of initialisation on several cores and contents of memory that survive a restart", "anchors": ["src/stream/mod.rs: init, Stream::is_enabled", "src/stream/runtime.rs: LocalGlobalRuntime", "macros/src/stream.rs: init_primary"]}
{"id": "C119", "title": "Allocated memory keeps its contents", "statement": "Whatever the contexts that share a heap do, a byte read from a live block is the one its owners wrote there last; or, after `grow` or `shrink`, the one at the same place of the old block at the time of the call; or zero, after `allocate_zeroed` and in the part `grow_zeroed` adds. The links of the free lists, which are kept in the blocks themselves, are never damaged by writes of owners and never damage their data.", "quantifier": "every configuration, every contents of memory, any number of contexts that interrupt one another at any instruction of a pool and at any byte of a fill or a copy, every sequence of calls, reads and writes to live blocks", "why_tests_cant": "needs an interrupt at each single step of a copy that the interrupting context can influence, over unbounded histories of the heap", "anchors": ["src/heap/mod.rs: allocate_zeroed, grow, grow_zeroed, shrink, deallocate", "src/heap/pool.rs: Pool::deallocate, Pool::allocate"]}
{"id": "C120", "title": "Calls to the heap end, however often they are interrupted", "statement": "In the build with critical sections, every call for memory (`allocate`, `allocate_zeroed`, `grow`, `grow_zeroed`, `shrink`) returns after at most nine own steps per pool, one per byte that is filled or copied and ten for giving the old block back; `deallocate` after nine. Interrupts, whatever they do with the heap, do not make a call longer (\u201call operations are lock-free and have O(1) time complexity, which means they are deterministic\u201d, src/heap/mod.rs lines 5-6).", "quantifier": "every configuration, every reachable state, every request, every schedule of any number of contexts that interrupt one another", "why_tests_cant": "a bound on the steps of a call over all ways to interrupt it; a test observes some", "anchors": ["src/heap/mod.rs: allocate, allocate_zeroed, grow, grow_zeroed, shrink, deallocate", "src/heap/pool.rs: Pool::allocate, Pool::deallocate", "src/sync/soft_atomic.rs: modify, try_modify"]}
{"id": "C121", "title": "Operations of pools and lists are lock-free and bounded", "statement": "With hardware atomics, `allocate` and `deallocate` of a pool and `push` and `pop` of a list are lock-free: while a context is inside one of them, some operation takes effect at the latest with its fifth step, wherever all other contexts stop. Each operation takes a bounded number of steps (\u201cO(1) time complexity\u201d).", "quantifier": "every state, every number of contexts, every schedule without spurious failures of the context's compare-exchange", "why_tests_cant": "progress quantifies over all schedules and over contexts that never continue; a test shows that some runs end", "anchors": ["src/heap/pool.rs: Pool::allocate, Pool::deallocate", "src/sync/linked_list.rs: push, pop", "src/atomic_macros.rs: modify_atomic!, try_modify_atomic!", "src/heap/mod.rs: module documentation"]}
{"id": "C122", "title": "A mutex wakes or destroys each waker that it clones exactly once", "statement": "Each waker that a lock future clones into its waiter is woken or destroyed at most once, and exactly once by the end of the mutex's destructor, whether its future was polled to the end, dropped, or forgotten. The destructor uses no freed node and no moved-out waker. Once the mutex is destroyed, all memory of waiters is free again; none is freed twice.", "quantifier": "every number of contexts and futures, every schedule, both builds, every time at which no call is in progress for the destructor", "why_tests_cant": "a waker that is leaked or destroyed twice shows only under particular interleavings of polls, drops and releases; a test covers some of them", "anchors": ["src/sync/mutex.rs: MutexLockFuture::poll, Drop for MutexLockFuture, Mutex::unlock, Waiter::take, Drop for Waiter", "src/sync/linked_list.rs: Drop for LinkedList"]}
{"id": "C123", "title": "A register token converts into each variant of the same register, and back", "statement": "For each macro reg! with several variants that the compiler accepts: the token of each variant has one method for each other variant, named into_ followed by the name of that variant\u2019s module, which returns the token of that variant with the same tag; converting back gives the first token again; there are no other conversions; and the converted token stands for the same register, so that what is stored through one token is loaded through the other. However the tokens of an index are converted, no two of them stand for the same register. A map of a peripheral that names a variant, and in parentheses the one in the index, gets the token of the variant it names.", "quantifier": "every number of variants, names, addresses, sizes and fields, every tag, every chain of conversions, every contents of memory", "why_tests_cant": "the macro makes n*(n-1) methods from names and indices; tests declare two variants with equal addresses, and no test can show that a wrong address is refused", "anchors": ["macros/src/reg.rs: proc_macro (into_variant), Variant::reg_full", "src/reg/mod.rs: Reg", "macros/src/reg_tokens.rs: Input, proc_macro", "macros/src/periph_map.rs: proc_macro"]}
