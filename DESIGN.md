# Formal model of drone-core

The subject is the Rust crate in `/repo` (drone-core with its `macros` and
`macros-core` crates).  Nothing from `/repo` is executed: the model is written by
hand from the source text, function by function, and each definition cites the
lines it mirrors.

## Trusted base

- Coq 8.16.1's kernel, including its virtual machine (`vm_compute`), which checks
  the `..._refuted` witnesses and the Examples.
- What `Print Assumptions` lists for each property theorem: every one of them is
  "Closed under the global context".  Loading the standard library's ssreflect
  files brings the constants of `Coq.ssr.ssrunder` into the environment; no
  theorem depends on them.
- The faithfulness of the hand-written model to the Rust source.  The following
  are modelling assumptions rather than proofs:
  - Rust semantics (ownership, drop order, no panics other than the explicit
    ones) as read from the source.
  - Sequentially consistent memory, except in C81-C86, C88 and C89.  There (`Weak.v`,
    `WeakList.v`, `WeakMutex.v`, `WeakPool.v`) the channels, the list, the mutex and the pool run on several cores with the orderings of the source: loads may return old
    values as far as coherence allows, races are defined by happens-before.  Loads
    from the future (load buffering) and the reuse of freed memory are not modelled.
  - In the critical-section build, `Interrupts::paused` is a real critical
    section (single core, interrupts globally disabled).
  - `compare_exchange_weak` may fail spuriously (the schedule decides).
  - The crate `drone_stream` is not part of `/repo`; its constants are taken to be
    HEADER_LENGTH = 2 and STREAM_COUNT = 32, and the probe is modelled as a reader
    that follows the documented cursor protocol.
  - `core::task::Waker` is an opaque number; cloning, waking and dropping it are
    events.  Code of other crates (wakers, futures, user closures) does not touch
    the modelled memory except through the modelled calls.

## What is modelled

| Source | Model | Specification | Not modelled |
| --- | --- | --- | --- |
| `src/atomic_macros.rs`, `src/sync/soft_atomic.rs`, `src/reg/{atomic,soft_atomic}.rs`, `src/platform/interrputs.rs` | `Atomics.v` | `AtomicSpec.v` | the assembly instructions that mask interrupts |
| `src/bitfield/`, `src/reg/{mod,field}.rs` | `Bitfield.v` | `P01_Words.v` | parsing of the macro input (tokens: see `RegTok.v`) |
| `src/reg/{mod,field,atomic,soft_atomic,marker,tag}.rs`, the implementations made by `macros/src/reg.rs` | `RegTraits.v` | `P37_RegTraits.v` | how a method call searches references (a method is found if exactly one trait has it) |
| `macros/src/reg.rs` (fields and the value of a register) | `RegMacro.v` | `RegMacroSpec.v` | attributes; names of imported traits |
| `macros/src/reg.rs` (variants of a register) | `RegVariants.v` on `RegMacro.v` | `P44_RegVariants.v` | attributes; names of imported traits |
| `macros/src/bitfield.rs` | `BitDerive.v` | `P35_BitDerive.v` | the grammar of the attribute, documentation strings, visibility, raw identifiers |
| `src/heap/{mod,pool}.rs`, `macros/src/heap.rs` (generated methods) | `Heap.v` (sequential), `Treiber.v` (one pool, concurrent), `HeapConc.v` (all pools, concurrent), `HeapUse.v` (with the bytes of memory) | `HeapSpec.v`, `LinSpec.v`, `PoolFullSpec.v`, `HeapConcSpec.v`, `HeapUseSpec.v`, `LockFreeSpec.v` | layout parsing of the macro |
| `macros/src/heap.rs` (`def_global_alloc`), the provided methods of `core::alloc::GlobalAlloc` | `GlobalAlloc.v` on `Heap.v` | `GlobalAllocSpec.v` | alignment; interrupts |
| `src/sync/linked_list.rs` | `LinkedList.v` (sequential), `Treiber.v`, `Drain.v` (concurrent) | `LinkedListSpec.v`, `LinSpec.v`, `DrainSpec.v` | formatting |
| `src/fib/chain.rs` | `Drain.v` | `P04_List.v` | |
| `src/thr/exec.rs`, `src/fib/{closure,generator}.rs` | `Exec.v` (on `Drain.v`) | `ExecSpec.v` | what wakes the thread up again (arbitrary); unwinding |
| `src/thr/soft/` with `src/thr/exec.rs` (`wakeup`, wakers, `resume`) | `Tasks.v` (product of `Soft.v` and `Exec.v`) | `TasksSpec.v` | the fibers of the other threads |
| `src/stream/`, `src/heap/trace.rs` | `Stream.v` | `StreamSpec.v` | |
| `macros/src/stream.rs`, `src/stream/mod.rs` (`init`) over restarts | `Boot.v` on `Stream.v` | `BootSpec.v` | parsing; the layout file; the linker; printing before `init`; two streams with `global => true` |
| `src/stream/macros.rs`, `write_str`, `write_fmt` | `Print.v` on `Stream.v` | `PrintSpec.v` | how arguments are named in format strings; evaluation of the arguments of `print!` as an event |
| `src/lang_items.rs` | `Panic.v` on `Print.v` | in `P28_Panic.v` | interrupts that go on after the panic; a panic inside of a transaction |
| `src/token.rs`, `macros/src/{simple_token,simple_tokens,static_tokens}.rs`, tokens of `macros/src/thr_pool.rs` | `Tok.v` | `TokSpec.v` | parsing; names; borrows that last longer than one access |
| `src/sync/mutex.rs` | `Mutex.v` (on `Drain.v`), `MutexDrop.v` (destructor) | `MutexSpec.v`, `MutexDropSpec.v` | formatting; memory after a use of a freed waiter |
| `src/thr/soft/` | `Soft.v` | `SoftSpec.v` | several cores; the code of the threads (arbitrary); `Thread::call`, which is in `Thread.v` |
| `src/thr/mod.rs` (`call`, `local_checked`, `add_fib_factory`) | `Thread.v` | `ThreadSpec.v` | the fiber chain that `resume` drains (`Drain.v`) |
| `macros-core/src/unkeywordize.rs`, `macros/src/heap.rs` (`init`) | `Names.v` | `P18_Names.v` | the regular-expression engine; the linker script |
| `src/proc_loop.rs` | `ProcLoop.v` | `ProcLoopSpec.v` | the hooks `on_create`, `on_enter`, `on_drop`; the fiber and the request handler (arbitrary) |
| `src/fib/{future,stream_ring,stream_pulse}.rs` | `Fiber.v` | `FiberSpec.v` | panics of the fiber; destruction of values nobody takes |
| `src/inventory.rs` | `Inventory.v` | `InventorySpec.v` | `Token::new` (unsafe) |
| `macros-core/src/cfg_cond.rs` | `Cfg.v` | `CfgSpec.v` | tokenisation; the code between the attributes |
| `src/sync/spsc/` | `Spsc.v` (machine), `Oneshot.v`, `Pulse.v`, `Ring.v` | `OneshotSpec.v`, `PulseSpec.v`, `RingSpec.v` | trait methods that only forward; `is_connected_to`; allocation |
| the same, orderings included | `Weak.v` (machine; the programs are shared) | `WeakSpec.v` | load buffering; moving a half between cores |
| `push_raw` and `DrainFilterRaw` of `src/sync/linked_list.rs`, orderings included | `WeakList.v` | `RaceSpec.v` | load buffering; reuse of addresses; `pop` |
| `try_lock`, `unlock` of `src/sync/mutex.rs`, orderings included | `WeakMutex.v` | `RaceSpec.v` | load buffering; the waiters |
| `src/heap/pool.rs`, orderings included | `WeakPool.v` | `RaceSpec.v` | load buffering; addresses |
| `src/reg/{tag,mod,field,atomic,soft_atomic}.rs`, tokens made by `macros/src/reg.rs` | `RegTok.v` | `RegTokSpec.v` | parsing; several registers at once; peripheral tokens; weak memory of the bus |
| `macros/src/reg_tokens.rs`, `macros/src/reg_tokens_inner.rs` | `RegIndex.v` | `RegIndexSpec.v` | parsing; modules of blocks; types of members; order of members |
| `macros/src/periph_singular.rs` | `Periph.v` | `PeriphSpec.v` | parsing; the traits of `src/reg/marker.rs` |
| `macros/src/periph.rs`, `macros/src/periph_map.rs` | `PeriphMap.v` | `PeriphMapSpec.v` | parsing; cfg conditions; bounds by marker traits; tags other than `Srt` |

The exact list of modules is `rocq/_CoqProject`; each definition names its source
lines.  Source files not in the table have no model yet.

## Conventions

- Machine words are `N`, with explicit masks where overflow matters.  Where Rust
  uses plain `+`, `-` or `*` on words the model wraps, as release builds do; a build
  with overflow checks would panic instead.  A theorem depends on
  this in `add_length` of the ring channel at MAX_CAPACITY
  (`C37_max_capacity_refuted`: such a build panics in the last send).
- Uninitialised cells and freed memory are explicit; reading one raises a sticky
  fault in the model instead of being undefined.
- Concurrency is expressed as schedules (lists of steps), quantified universally.
- The spsc channels are trees of shared accesses (`Spsc.v`).  The history contains
  the calls and returns, wakes and destroyed values, and additionally marks the
  accesses to the state word, so that a specification can say at which
  access a call takes effect; specifications are folds over the history
  (`*Spec.v`) that do not mention the model's memory.
- A property that is false of the faithful model is stated in full, refuted with
  a concrete witness (`..._refuted`), and the strongest proved positive part is
  named `..._partial`.

## Plan per property

- **C01 Hardware-atomic read-modify-write is lossless.** Model: n threads, one word, per-thread CAS-loop state machine, schedule = list of (thread, spurious?) steps. Invariant by induction on the schedule: log of committed updates folds to the current word.
- **C02 Software atomics are atomic under interrupt preemption.** Model: critical section instructions (pause/load/store/restore) executed by a stack of preempting contexts, interrupts taken only when enabled. Refinement to the atomic update log.
- **C03 Critical sections nest and restore the interrupt state.** Model: structured programs with nested `paused`. Induction over the program tree.
- **C04 Multi-bit fields read back what was written and disturb nothing else.** Functions over N mirroring read_bits/write_bits with explicit mod 2^n. Specification through N.testbit / N.modulo.
- **C05 Single-bit operations affect exactly one bit.** As C04 for single-bit ops.
- **C06 Concurrent register field updates never lose each other's bits.** Instances of the C01/C02 machines with the field functions; spec by per-bit ownership.
- **C07 Write-only stores start from the reset value.** store model on N.
- **C08 Live allocations never overlap.** Byte-addressed heap model, pools with free list stored in memory; invariant by induction on operations.
- **C09 Allocation is best-fit-first and fails only on exhaustion.** Same model; spec over the list of pools with count of used blocks.
- **C10 No block is ever leaked by the allocator.** Same invariant, counting.
- **C11 Deallocation returns a block to the pool that issued it.** pool_by_ptr over contiguous pools.
- **C12 The pool search returns the partition point.** binary_search mirrored with fuel = pool count, fuel shown sufficient.
- **C13 Reallocation preserves contents.** Heap model with memory contents.
- **C14 The allocator never modifies live user memory.** Heap model with memory contents.
- **C15 Zeroed allocation is fully zeroed.** Heap model with memory contents.
- **C16 Allocations honour the requested alignment.** Expected false in general (alignment is ignored): refutation plus the conditional positive theorem.
- **C17 Concurrent pool use in the critical-section build never double-allocates.** Concurrent pool machine, closures run as one critical section.
- **C18 Concurrent pool use in the hardware-atomics build never double-allocates.** Expected false (ABA): refutation by explicit schedule; positive part (no ABA when no deallocation overlaps an allocation).
- **C19 Linked list is LIFO and loses nothing.** Heap-of-nodes model of the list; refinement to Coq lists.
- **C20 Concurrent push/pop in the critical-section build.** Concurrent list machine, soft build.
- **C21 Concurrent push/pop in the hardware-atomics build.** Expected false (ABA): refutation; positive part for pushes concurrent with a single popper.
- **C22 drain_filter splits the list exactly.** Sequential drain_filter refinement to partition.
- **C23 drain_filter tolerates concurrent pushes at any point.** Small-step drain machine interleaved with pushes.
- **C24 Each thread run resumes every fiber once and removes exactly the finished ones.** Chain model on top of the list semantics with arbitrary fiber transition functions.
- **C25 Mutual exclusion.** Mutex.v: n contexts, one shared access per step, on top of the list machine of Drain.v; spec is a fold over the events (MutexSpec.v). Invariant: lock word and guards (MutexProofs.v).
- **C26 Protected data is only changed by the guard holder and survives hand-over.** Same machine; the spec is a single cell updated by the writes in the history.
- **C27 No lost wakeup in the mutex.** False (two refutations by schedule); positive theorem when no waiter is stale and no failing attempt overlaps a release (MutexWake.v, MutexRun.v).
- **C28 Mutex waiters are never used after being freed.** False (two refutations); positive theorem when a woken future's node is not left behind (MutexSafe.v, MutexRun.v).
- **C29 Oneshot delivers at most once, and exactly the sent value.** Every method is a tree of shared accesses (Spsc.v, Oneshot.v); two threads, both builds, all schedules. The spec is a fold over the history (OneshotSpec.v). Proof: shared invariant with private ghost state per half (OneshotProofs.v, OneshotTx.v, OneshotRx.v).
- **C30 Oneshot receiver is woken.** Same.
- **C31 Oneshot sender learns about cancellation.** Same.
- **C32 Oneshot shared state is freed exactly once and never used afterwards.** False in the window of a consuming operation: refutation, plus positive theorem for all schedules in which the two consuming calls do not overlap; no double free, uninitialised read or leak in any schedule.
- **C33 Polling with a new waker re-registers it.** False: refuted for all three channels.
- **C34 Pulse counter conservation.** Pulse.v: pulse programs on the framework of C29. The spec is an atomic counter (PulseSpec.v, nstep) and, derived from it, totals over the history.
- **C35 Pulse send on a closed channel has no effect.** False: two refutations, plus the positive part.
- **C36 Pulse receiver wakeup and termination.** Observers over the history (PulseSpec.v); same invariant proof (PulseProofs.v, PulseTx.v, PulseRx.v, PulseMain.v).
- **C37 Ring channel is a bounded FIFO.** Ring programs (Ring.v) on the framework of C29. The spec is a sequential bounded queue (RingSpec.v, seq_call) run over the history. False at capacity = MAX_CAPACITY (refuted); proved below it, from the atomic-queue invariant (RingQueue.v) by simulation (RingHist.v).
- **C38 Ring FIFO survives arbitrary preemption.** False for a receiving call preempted by a send into a full queue, and for the receiver's destructor (refuted). Otherwise the calls are atomic queue operations (RingSpec.v, qstep; invariant J1 in RingQueue.v).
- **C39 Overwriting send replaces exactly the oldest value.** Corollary of C37.
- **C40 Ring error is delivered once, after all values.** Invariants over the history (RingHist.v): flow of values as a shuffle, observer of the error.
- **C41 Ring wakeups.** Observers over the history; invariants J2 (RingRxWaker.v), J3 (RingTxWaker.v). False of the sender when its own send_overwrite is preempted (refuted).
- **C42 Ring channel never uses a consumed waker.** False after close (refuted); proved otherwise: invariants J3 and J4 (RingLife.v).
- **C43 A soft thread preempts only strictly lower priorities.** Soft.v: one core, stack of scheduler frames, one shared access per step, interrupts anywhere. SoftProofs.v abstracts the header and the cells to sets for at most 32 threads; the levels of the loops on the stack decrease. False when a priority is changed while the thread is woken or running, and above 32 threads (two refutations).
- **C44 The highest-priority pending soft thread runs first.** Same machine. The selection at the start of preempt is always right; the later ones are false when a thread is woken while its own priority is being run (refuted), right otherwise.
- **C45 Every wakeup of a soft thread leads to a run.** False: a thread woken while its priority is being run (for instance by itself) stays pending for ever if nothing else happens (refuted), and above 32 threads (refuted). Proved for all other wakeups; and a stuck wakeup is honoured by the next preempt.
- **C46 Soft threads run only when woken.** Same machine; credit invariant for at most 32 threads; above, the row pointer drifts and a wrong thread is run (refuted).
- **C47 Thread-local access follows preemption.** Thread.v: nested calls, interrupts between the steps of Thread::call. Code of a thread always gets its own storage; a handler that interrupts a thread gets the storage of that thread (refuted).
- **C48 Debug stream frames are intact and ordered.** Ring buffer model with reader; invariant relating buffer to queue of frames.
- **C49 A stream write completes once the reader catches up.** Same model.
- **C50 write_bytes splits without loss.** List chunking.
- **C51 Future fiber resolves with the fiber's result.** Fiber.v: the generator as a tree of calls on top of the oneshot machine; the fiber's answers come from the schedule. FiberProofs.v: a program logic over the combined history for any such generator; FutureProofs.v instantiates it, using C29-C31 for the channel.
- **C52 Polling a fiber future is always defined.** Same model. False after close and after Ready (refuted); proved for futures polled neither after Ready nor after close.
- **C53 Stream fiber delivers yielded values in order.** Fiber.v: the two generators of stream_ring.rs on top of the ring machine. False when the thread preempts a poll of a full stream (refuted, from C38). Otherwise: FiberSpec.v states what is produced, refused, handed over; RingStreamProofs.v proves it in the logic of FiberProofs.v, using C38, C40, C41 for the channel.
- **C54 Saturating pulse stream saturates.** Fiber.v: the generator of stream_pulse.rs on top of the pulse machine. False: the pack that does not fit is dropped (refuted). Proved what is lost instead.
- **C55 Inventory teardown happens only when all tokens are back.** Inventory.v computes which programs the compiler accepts (counter in the type, linear tokens); invariant: the counter is the number of outstanding tokens. False with two inventories of one item type (refuted).
- **C56 Command loop protocol.** ProcLoop.v: the future of cmd as a state machine; fiber and request handler are given by the schedule; closed form of every command in the history.
- **C57 Conditional-compilation transposition is faithful.** Cfg.v: conditions as lists of clauses, the hash map as a list of entries in any order; semantics of cfg in CfgSpec.v. False (three refutations: overlapping conditions, conjunctions, repeated conditions); coverage proved in general, the full claim for exclusive single conditions.
- **C58 Allocation trace events describe the operation.** Byte encoding model.
- **C59 Stream runtime initialisation.** init on memory model.
- **C60 Interrupts stay disabled while any handle is alive.** Interrupt handle stack; refutation for out-of-order drops.
- **C61 The heap keeps live memory intact for every block size.** Heap model; refutation for blocks below the pointer size.
- **C62 A pool allocation fails only when the pool is full.** Stack machines; refutation, plus the undisturbed case and what a failing allocation has observed.
- **C63 Every heap operation leaves a trace.** Trace model of the generated methods; refutation for the zeroed entry points.
- **C64 A transaction may carry up to the documented number of bytes.** Length check of write_transaction; refutation at 256.
- **C65 Pulse sender learns about cancellation.** Pulse.v on the same framework as C29; observer in PulseSpec.v.
- **C66 Pulse shared state is freed exactly once and never used afterwards.** As C32: refutation, plus the positive theorem for non-overlapping consuming calls.
- **C67 Ring channel frees its memory exactly once and leaks nothing.** Refutation as C32; positive theorem for non-overlapping consuming calls, under the conditions of C38 and C42.
- **C68 A free lock is granted.** Same machine and invariant as C27.
- **C69 A release wakes the task that polled the future last.** False (refuted): the waker of the first poll is kept. Positive part: futures polled with one waker each.
- **C70 A soft thread is never re-entered.** Soft.v; false with set_priority (refuted), proved for threads whose priority does not change while they are woken or running.
- **C71 clear_pending cancels the wakeup.** Soft.v; false while the row of the thread is being run, since the scheduler works on a copy of the row, and after a change of priority (two refutations); proved otherwise.
- **C72 The soft-thread scheduler stays within its state array.** Soft.v; false above 32 threads (refuted), proved up to 32.
- **C73 The fiber of a command loop reads its input as what it is.** Same model as C56; false after a failed or dropped command (two refutations), proved otherwise.
- **C74 Generated cfg attributes of an item hold exactly when the written ones do.** Same model as C57; false for any() (refuted), proved otherwise.
- **C75 A token stands for an active item.** Same model as C55; false (two refutations: references before activation, tokens after teardown); proved for tokens given out while the item is active.
- **C76 A fiber future never uses freed memory.** Same model. False when the future is dropped while the fiber completes (refuted, from C32); proved when the two consuming calls do not overlap.
- **C77 Pulse stream conserves pulses and reports errors and the end.** Same model; PulseStreamProofs.v proves the invariant in the logic of FiberProofs.v, using C34, C36, C65 for the channel; as long as no memory is used after being freed (C66).
- **C78 Thread-local contents stay in their thread.** Thread.v with fibers that refer to a storage; false because a factory runs in the thread of its caller (refuted), proved for factories called in the thread the fiber is for.
- **C79 Heap initialisation restores exactly the metadata.** Names.v: memory as bytes, the copy in words; false for words of 2 or 8 bytes (refuted), proved for 4.
- **C80 Generated names are usable and distinct.** Names.v: the function on strings against the list of reserved words of Rust 2021; three refutations, and what holds outside of them.
- **C81 No data races in a oneshot between cores.** Weak.v runs the same programs on a memory where loads return any value coherence allows and records the accesses with their orderings; WeakSpec.v defines happens-before and races. Invariant over what each half knows (WeakProofs.v, WeakOneshot.v): all accesses to cells are ordered; refuted for the freeing.
- **C82 No data races in a pulse channel between cores.** As C81 (WeakPulse.v).
- **C83 No data races in a ring between cores.** As C81 (WeakRing.v): error and receiver's waker always, sender's waker unless close is called; slots, sender's waker and freeing refuted. The slots of a ring that sends no more values than it has slots (WeakSlots.v): the number of values accepted and claimed decides which half may access a slot, and each read-modify-write that claims acquires what those that publish release.
- **C84 Channels between cores behave as on one core.** WeakSC.v: the accesses of an execution without races between cells are sorted by the value of the state word they belong to, which gives an execution of Spsc.v. Instances for oneshot and pulse; values, wakeup and pulses are transferred from C29, C30 and C34. For the ring with few values (WeakRingHist.v), order from C40.
- **C85 Draining a list on one core while others push has no data races.** WeakList.v: a machine with a history of head values and the accesses it makes. Refuted: cut_out loads the head relaxed and then reads the link of a node another context has just pushed. Otherwise by numbering the pushes: a link points to a node with a smaller number, and the drain only reaches nodes with numbers below what it has acquired.
- **C86 A list shared between cores is memory safe and loses no node.** WeakListSafe.v: the list as a Coq list; the head values that context 0 may still read are its first elements, so that an outdated head never is a removed node.
- **C87 The executor polls each future as long as it is pending, and destroys it once.** Exec.v: the four kinds of fibers on the chain of Drain.v, the answers of user code from the schedule. ExecSpec.v: three automata over the events (the life of a fiber, what an adding context does, what the thread does). Invariant (ExecProofs.v): where a fiber is decides where in its life it is; the order of calls comes from C24.
- **C88 Data behind the mutex is never raced on, on any number of cores.** WeakMutex.v: the lock word with its orderings (swap Acquire, store Release), guards that may be sent. Invariant: the holder knows (happens-before) all accesses to the data; while unlocked, the latest store does.
- **C89 Blocks of a memory pool can be passed between cores without data races.** WeakPool.v: the pool at the granularity of single accesses, loads may be old. Race witness by computation. WeakPoolProofs.v: the owner of a block knows all accesses to it; a free block's are known to the compare-exchange that freed it. WeakPoolSolo.v: with one allocator the free list is a Coq list whose suffixes are the heads it may still read.
- **C90 Register tokens exist at most once.** RegTok.v: the tokens of one register, what safe code can do with them, including writing the struct literal of a register without fields. Invariant (RegTokProofs.v): either one whole owned token, or distinct owned field tokens, or copies.
- **C91 modify never loses an update.** RegTok.v: modify as begin (load) and end (store or store-exclusive) with both builds; RegTokSpec.v: replay of the log of updates. Invariant: with atomics a store succeeds only if the value has not changed since the load; without, interrupts are off in between.
- **C92 An index of register tokens has one token for each declared register.** RegIndex.v: the proc macro produces macro_rules items under conditions, which are expanded by name; RegIndexSpec.v: declared registers. Induction over the chain of calls, then over the map that collects the members.
- **C93 A software-managed thread polls its futures when it is woken up.** Tasks.v: product of the scheduler (Soft.v) and the executor (Exec.v), in which the body of one thread is the drain of its chain and wakeup is set_pending. Invariant (TasksProofs.v): both parts are runs of their machines with the projected logs, every start of the thread starts a drain, the drain is at rest unless the body is on the stack. With C45, C70 and C87.
- **C94 What is printed is what format! makes of it.** Print.v: the arms of the macros, format_args! as an automaton, chunks, transactions, and contexts printing on the buffer of Stream.v; PrintSpec.v: the meaning of format strings as an inductive relation, independent of the automaton. Both directions between automaton and relation, then an invariant over runs; with C48.
- **C95 dbg! evaluates its expressions exactly once.** Print.v, acts in PrintSpec.v. Same invariant.
- **C96 A printed message is in one piece.** Print.v. Refuted by an interrupt between two transactions; messages of one short string by the same invariant.
- **C97 A panic prints its message and resets the system.** Model: `Panic.v`: a panic replaces the program of a context of `Print.v` by its handler; from then on the context and the probe go on by an infinite schedule. Refuted for buffers too small for a string of the message (no schedule resets, by the invariant that frames written are shorter than the buffer), for probes that enabled stderr and no longer read (by the invariant that unread frames fit in the buffer), and for reading before the reset. Proved for fair schedules and room for a transaction, by a measure: reads left, then how far the context is in its attempt once the probe has caught up. The same measure gives C49 for any program.
- **C98 A token exists at most once.** Model: `Tok.v`: the structs that the macros generate (public fields, private field, Copy, static), and safe code as a machine that owns values of these types (moving fields out, struct literals, copies, handing over). Refuted for the index of thr::pool!, which has no private field and whose members are Copy. Proved otherwise: the number of tokens of a type never grows.
- **C99 A static with a token is accessed by one context at a time.** `Tok.v`, history of accesses and hand-overs in `TokSpec.v`. Proved by the invariant that each static can be reached from one value, owned by who owns the static by the history.
- **C100 A static that is not Send stays in its context.** `Tok.v`. Refuted: tokens are Send whatever their static is. Proved when tokens are handed over only of statics that are Send; references are covered by the type.
- **C101 A peripheral consists of the registers and fields it was declared with.** `Periph.v` models the macro and the checks of the compiler on what it makes (names, types, moves out of the index). What an accepted macro makes is proved in full; acceptance is refuted for two features at once, nested conditions and a field `VAL`, and proved for the rest.
- **C102 A register belongs to one peripheral.** `Periph.v`, programs of macro calls and moves; invariant that the tokens in the index and those handed out are distinct.
- **C103 A generic peripheral holds the registers that its map names.** `PeriphMap.v` models the traits that both macros declare and implement, the associated types, and the struct expression. What an accepted map makes is proved; that agreeing maps are accepted is refuted for markers, variants and an empty definition, and proved for all other ones (`PeriphMapComplete.v`).
- **C104 A mapped register is taken apart into the fields that the map names.** `PeriphMap.v`, `into_fields` and `from_fields` as functions with the checks on patterns and types.
- **C105 A pool that reports exhaustion is exhausted.** `Treiber.v`. Instants are prefixes of the schedule, use and progress are read off the log (`PoolFullSpec.v`). The instant is the last one at which the failing call, or a call that took an unissued block meanwhile, found the free list empty; shown once for both builds (`PoolFull.v`, `PoolFullHw.v`). Refuted for the hardware build, where the reuse of C18 loses blocks; proved there for the schedules of C18.
- **C106 The heap shared by interrupts keeps allocations apart and loses nothing.** `HeapConc.v`: the loop of `allocate` over pools of `Treiber.v`, contexts on a stack. Each step of the heap is at most one step of each pool (projection), so the ownership invariant of C17 holds for every pool; the blocks in use of a pool are the live allocations in its range. The answer of an undisturbed allocation is computed pool by pool (`HeapConcQuiet.v`).
- **C107 An allocation of the heap that fails has seen memory exhausted.** `HeapConc.v`, instants as in C105 (`HeapConcSpec.v`). Refuted: an interrupt between two pools frees in the first and takes from the second. Proved pool by pool: the argument of C105 applied to the projection of the run to each pool, and the pools a call has left behind (`HeapConcFull.v`).
- **C108 A pool of threads consists of the threads it is declared with.** `ThrPool.v`: parsing of the sections, the generated items, what the compiler demands of them (names, struct expressions, literals, one implementation per type) and what the program then does. Lookup in tables without duplicates (`ThrPoolProofs.v`). Refuted: conditions are put on the struct or field but not on the struct expression or the implementations.
- **C109 A derived bit-field touches exactly its bits.** `BitDerive.v`: the generated methods, what the compiler demands of them, and shifts by any amount in debug and release builds over the functions of `Bitfield.v`. Spec (`BitDeriveSpec.v`) by bits. Proved for fields in the integer (`BitDeriveProofs.v`); refuted for others: in a release build, a field beyond the end is another field's bit.
- **C110 With the heap as global allocator, each allocation is an array of its own.** `GlobalAlloc.v` on `Heap.v`: the generated methods, the provided methods of `core::alloc::GlobalAlloc`, and a program. Spec (`GlobalAllocSpec.v`): a list of arrays. Simulation (`GlobalAllocProofs.v`) on the invariant of the heap.
- **C111 Resizing within a block succeeds.** On `GlobalAlloc.v` and `Heap.v`; refuted by a pool of one block. Proved: it succeeds while a pool with blocks of the new size has one left.
- **C112 The trace of the heap adds up to what is in use.** On `GlobalAlloc.v`, `Stream.v` (records and their decoding). Induction over histories; refuted by a failing request, which is recorded as if it had succeeded.
- **C113 A register token has exactly the documented methods.** `RegTraits.v`: every trait with its supertraits and the conditions of its general implementation, and what `reg!` implements. Spec (`RegTraitsSpec.v`): the tables, row by row. Proved by complete case analysis for sizes up to 32 bits or without atomics; refuted for wider registers (no `AtomicBits`) and for other sets of traits.
- **C114 A marker trait stands for its kind of token.** `RegTraits.v`: as for C113; generic code knows its bounds, their supertraits, and the bound on the register that it has to repeat. Complete case analysis. Refuted: `SRwReg` does not require the atomic read-modify-write trait that `CRwReg` requires, so with atomics generic code lacks `modify`, and 64-bit registers have the marker.
- **C115 The value of a register has the methods of its fields, each for its bits.** `RegMacro.v`: the generated types, members and methods, what the compiler demands of them, with the bodies of `BitDerive.v`; names are lists of words. Spec (`RegMacroSpec.v`) by bits. Proved for accepted declarations and fields in the register; refuted for others: offsets lose their high bits, so "bit 256" of an 8-bit register is bit 0; names HOLD, FOO with SET_FOO, IN1 with IN_1, TRY are refused.
- **C116 A stream starts with what the probe asked for, never with what was printed.** `Boot.v`: a board with several streams; running streams are those of `Stream.v`, initialisation is its `stream_init` on bytes, a reset leaves the bytes. Observers over the history in `BootSpec.v`. Invariant (`BootProofs.v`): the first byte of a buffer is not that of the sequence, or the buffer is as it was. Refuted for sequences that begin with the number of a stream.
- **C117 Frames are intact after every restart.** `Boot.v`; the invariant of C48 holds from any empty position, carried over restarts (`BootProofs.v`).
- **C118 Only streams that the probe enabled are enabled.** `Boot.v`; the mask is a fold over the history (`BootSpec.v`). Refuted for a core that is initialised before the primary one.
- **C119 Allocated memory keeps its contents.** `HeapUse.v`: `HeapConc.v` with the memory as bytes; fills, copies and links are written into it. What is known of the contents is a fold over the history of calls, returns, writes and reads (`HeapUseSpec.v`). Invariant (`HeapUseProofs.v`): every byte of a live block that is not within a call is what is known, and within a call it is the part that is filled or copied. The links of the pools are the words in memory (`HeapUseLinks.v`).
- **C120 Calls to the heap end, however often they are interrupted.** `HeapUse.v`, schedules in `HeapUseTurns.v`. What a call has left to do is a number that each own step decreases and no other step increases (`HeapUseWait.v`).
- **C121 Operations of pools and lists are lock-free and bounded.** Specification `LockFreeSpec.v` over the runs of `Treiber.v`. What a context has left to do while nobody changes the head is at most five (`LockFree.v`); each own step takes effect or decreases it, and the others' steps take effect or leave it. The bound is refuted: another context takes a block and puts it back around every attempt.
- **C122 A mutex wakes or destroys each waker that it clones exactly once.** `MutexDrop.v` (destructor, clones of a run) on `Mutex.v`; specification `MutexDropSpec.v` counts clones, wakes and destructions. Invariant (`MutexDropProofs.v`): the clones of a waker are those used, those in nodes, and those in the hands of a release; a node with a waker is not free, and is in the list, being pushed, or being read. No memory leaks, without restriction (`MutexLeak.v`): memory that is not free is in the list, or in the hands of a call. Refuted when a release frees a waiter that the destructor of its future is taking.
- **C123 A register token converts into each variant of the same register, and back.** `RegVariants.v` (the methods as the macro enumerates them; acceptance by the compiler with `RegMacro.v`). Membership in the enumeration characterised for every list; distinct names of modules make a method unique. Refuted for the address: the macro does not compare the addresses of variants. With the index of C92: conversions keep the address of each token, so that no two tokens stand for one register; refuted for an index with two variants of a register (a forgotten exclamation mark). Refuted for names: block GPIO_A register X and block GPIO register A_X cannot be variants of one register.
