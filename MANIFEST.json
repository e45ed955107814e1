{
 "claims": [
  {
   "property": "C01",
   "status": "proved",
   "theorems": [
    "C01_cas_atomic",
    "C01_cas_undisturbed"
   ],
   "note": ""
  },
  {
   "property": "C02",
   "status": "proved",
   "theorems": [
    "C02_soft_atomic"
   ],
   "note": ""
  },
  {
   "property": "C03",
   "status": "proved",
   "theorems": [
    "C03_paused_nests",
    "C03_handles_lifo",
    "C03_restored_after_rmw"
   ],
   "note": ""
  },
  {
   "property": "C04",
   "status": "proved",
   "theorems": [
    "C04_write_then_read",
    "C04_write_bits_exact",
    "C04_write_bits_in_range",
    "C04_read_bits_value",
    "C04_disjoint_commute",
    "C04_modify_unsync"
   ],
   "note": ""
  },
  {
   "property": "C05",
   "status": "proved",
   "theorems": [
    "C05_single_bit"
   ],
   "note": ""
  },
  {
   "property": "C06",
   "status": "proved",
   "theorems": [
    "C06_reg_cas",
    "C06_reg_soft"
   ],
   "note": ""
  },
  {
   "property": "C07",
   "status": "proved",
   "theorems": [
    "C07_store_from_reset",
    "C07_reset"
   ],
   "note": ""
  },
  {
   "property": "C08",
   "status": "proved",
   "theorems": [
    "C08_live_disjoint"
   ],
   "note": ""
  },
  {
   "property": "C09",
   "status": "proved",
   "theorems": [
    "C09_best_fit",
    "C09_realloc_best_fit"
   ],
   "note": ""
  },
  {
   "property": "C10",
   "status": "proved",
   "theorems": [
    "C10_no_leak",
    "C10_full_capacity_back"
   ],
   "note": ""
  },
  {
   "property": "C11",
   "status": "proved",
   "theorems": [
    "C11_pool_by_ptr",
    "C11_issuer"
   ],
   "note": ""
  },
  {
   "property": "C12",
   "status": "proved",
   "theorems": [
    "C12_partition_point"
   ],
   "note": ""
  },
  {
   "property": "C13",
   "status": "proved",
   "theorems": [
    "C13_grow",
    "C13_shrink"
   ],
   "note": ""
  },
  {
   "property": "C14",
   "status": "proved",
   "theorems": [
    "C14_untargeted_unchanged",
    "C14_data_retained"
   ],
   "note": ""
  },
  {
   "property": "C15",
   "status": "proved",
   "theorems": [
    "C15_zeroed"
   ],
   "note": ""
  },
  {
   "property": "C16",
   "status": "partial",
   "theorems": [
    "C16_alignment_refuted",
    "C16_alignment_partial"
   ],
   "note": "False as stated: the alignment of the layout is ignored (C16_alignment_refuted). Proved when the alignment divides address and block size of every suitable pool."
  },
  {
   "property": "C17",
   "status": "proved",
   "theorems": [
    "C17_no_double_allocation",
    "C17_no_loss"
   ],
   "note": ""
  },
  {
   "property": "C18",
   "status": "partial",
   "theorems": [
    "C18_no_double_allocation_refuted",
    "C18_no_double_allocation_partial",
    "C18_no_loss_partial"
   ],
   "note": "False as stated: an ABA schedule makes two contexts own one block (C18_no_double_allocation_refuted). Proved for schedules in which no block is given back while a preempted allocation has read it, or in which allocations do not overlap."
  },
  {
   "property": "C19",
   "status": "proved",
   "theorems": [
    "C19_lifo",
    "C19_reverse"
   ],
   "note": ""
  },
  {
   "property": "C20",
   "status": "proved",
   "theorems": [
    "C20_linearizable"
   ],
   "note": ""
  },
  {
   "property": "C21",
   "status": "partial",
   "theorems": [
    "C21_no_double_pop_refuted",
    "C21_no_use_after_free_refuted",
    "C21_linearizable_partial"
   ],
   "note": "False as stated (ABA double hand-out, and a freed node is read: two refutations). Linearizability proved for schedules in which no node is pushed back or freed while a preempted pop has read it, or in which pops do not overlap."
  },
  {
   "property": "C22",
   "status": "proved",
   "theorems": [
    "C22_drain_splits",
    "C22_pure_filter"
   ],
   "note": ""
  },
  {
   "property": "C23",
   "status": "proved",
   "theorems": [
    "C23_drain_with_pushes",
    "C23_drain_terminates"
   ],
   "note": ""
  },
  {
   "property": "C24",
   "status": "proved",
   "theorems": [
    "C24_thread_run",
    "C24_never_again",
    "C24_drop_destroys_all",
    "C24_run_terminates"
   ],
   "note": ""
  },
  {
   "property": "C25",
   "status": "proved",
   "theorems": [
    "C25_mutual_exclusion"
   ],
   "note": "Proved for every schedule and both builds."
  },
  {
   "property": "C26",
   "status": "proved",
   "theorems": [
    "C26_data"
   ],
   "note": "Proved for every schedule and both builds."
  },
  {
   "property": "C27",
   "status": "partial",
   "theorems": [
    "C27_no_lost_wakeup_refuted",
    "C27_no_lost_wakeup_by_drop_refuted",
    "C27_no_lost_wakeup_partial"
   ],
   "note": "False as stated (two refutations: a poll that fails while a release is walking the list; a notified future dropped during a release). Proved under the conditions of C28 when no attempt fails during a release."
  },
  {
   "property": "C28",
   "status": "partial",
   "theorems": [
    "C28_no_use_after_free_refuted",
    "C28_no_use_after_free_by_drop_refuted",
    "C28_no_use_after_free_partial"
   ],
   "note": "False as stated (two refutations: a woken future whose node is freed by the next release; a drop that races with a release). Proved of all histories in which no release begins while an earlier notified future has not been polled again, and no future is destroyed during a release."
  },
  {
   "property": "C29",
   "status": "proved",
   "theorems": [
    "C29_at_most_once"
   ],
   "note": ""
  },
  {
   "property": "C30",
   "status": "proved",
   "theorems": [
    "C30_receiver_woken"
   ],
   "note": ""
  },
  {
   "property": "C31",
   "status": "proved",
   "theorems": [
    "C31_cancellation"
   ],
   "note": ""
  },
  {
   "property": "C32",
   "status": "partial",
   "theorems": [
    "C32_no_use_after_free_refuted",
    "C32_freed_once_partial"
   ],
   "note": "False as stated (refuted): the end of one half announces itself before it stops touching the block, and the other half's end can free it in between. Proved when the two consuming calls do not overlap; no double free, uninitialised read or leak in any schedule."
  },
  {
   "property": "C33",
   "status": "partial",
   "theorems": [
    "C33_latest_waker_refuted",
    "C33_pulse_latest_waker_refuted",
    "C33_ring_latest_waker_refuted"
   ],
   "note": "False (refuted for the oneshot, pulse and ring channels): later polls ignore their waker once one is registered."
  },
  {
   "property": "C34",
   "status": "proved",
   "theorems": [
    "C34_atomic_counter",
    "C34_conservation"
   ],
   "note": ""
  },
  {
   "property": "C35",
   "status": "partial",
   "theorems": [
    "C35_closed_send_refuted",
    "C35_stream_resumes_refuted",
    "C35_closed_send_partial"
   ],
   "note": "False (two refutations): send adds the pulses before it looks whether the receiver is closed, so they are received, even after the end of the stream was reported. Partial: cancellation is reported exactly when due, and nothing else is ever received."
  },
  {
   "property": "C36",
   "status": "proved",
   "theorems": [
    "C36_receiver_woken",
    "C36_end_is_final"
   ],
   "note": ""
  },
  {
   "property": "C37",
   "status": "partial",
   "theorems": [
    "C37_max_capacity_refuted",
    "C37_bounded_fifo_partial"
   ],
   "note": "False at MAX_CAPACITY, which the constructor accepts (refuted: a full channel reads as empty). Proved for every smaller capacity, every even word width of at least 6 bits, both builds."
  },
  {
   "property": "C38",
   "status": "partial",
   "theorems": [
    "C38_preempted_receive_refuted",
    "C38_preempted_drop_refuted",
    "C38_atomic_queue_partial",
    "C38_receiver_preempts_partial"
   ],
   "note": "False as stated (two refutations: a receiving call frees the slot before reading it; the receiver's destructor likewise). Proved: atomic bounded queue for all interleavings in which no send starts inside a receiving call that took its value from a full queue or inside the receiver's destructor; in particular whenever only the receiver preempts."
  },
  {
   "property": "C39",
   "status": "partial",
   "theorems": [
    "C39_overwrite_partial",
    "C39_preempted_receive_refuted"
   ],
   "note": "False if the sender preempts a receiving call (C39_preempted_receive_refuted). Proved for capacities below MAX_CAPACITY and calls that do not overlap; overlapping calls are covered by C38_atomic_queue_partial."
  },
  {
   "property": "C40",
   "status": "partial",
   "theorems": [
    "C40_preempted_receive_refuted",
    "C40_order_partial",
    "C40_error_once_partial"
   ],
   "note": "False if the sender preempts a receiving call (C40_preempted_receive_refuted). Proved for capacities below MAX_CAPACITY under the condition of C38."
  },
  {
   "property": "C41",
   "status": "partial",
   "theorems": [
    "C41_lost_wakeup_refuted",
    "C41_receiver_woken_partial",
    "C41_sender_woken_partial"
   ],
   "note": "False of the sender (refuted: send_overwrite preempted by a receiving call loses the wakeup of an earlier poll_ready). Proved for the receiver under the condition of C38 and, with send_overwrite cancelling the expectation, for the sender."
  },
  {
   "property": "C42",
   "status": "partial",
   "theorems": [
    "C42_consumed_waker_refuted",
    "C42_wakers_partial"
   ],
   "note": "False as stated (refuted: receiving after close uses the consumed sender waker). Proved when no value is asked for on a closed channel after a sender's poll, under the conditions of C38 and C67."
  },
  {
   "property": "C43",
   "status": "partial",
   "theorems": [
    "C43_preempts_lower_refuted",
    "C43_preempts_lower_many_refuted",
    "C43_level_partial",
    "C43_preempts_lower_partial"
   ],
   "note": "False as stated (two refutations: set_priority on a running thread; more than 32 threads). Proved up to 32 threads in terms of the priority a thread was chosen with, and in terms of its current priority if that is not changed while it is woken or running."
  },
  {
   "property": "C44",
   "status": "partial",
   "theorems": [
    "C44_highest_first_refuted",
    "C44_start_highest_partial",
    "C44_next_highest_partial",
    "C44_back_partial",
    "C44_run_highest_partial"
   ],
   "note": "False as stated (refuted: a thread woken while its own priority is being run). Proved up to 32 threads for the start of preempt, and for every later choice with respect to all other wakeups."
  },
  {
   "property": "C45",
   "status": "partial",
   "theorems": [
    "C45_every_wakeup_refuted",
    "C45_every_wakeup_many_refuted",
    "C45_every_wakeup_partial",
    "C45_next_preempt_partial"
   ],
   "note": "False as stated (two refutations: a thread woken while its own priority is being run is forgotten until the next preempt; more than 32 threads). Proved up to 32 threads for all other wakeups; a stuck one is started by the next preempt."
  },
  {
   "property": "C46",
   "status": "partial",
   "theorems": [
    "C46_only_when_woken_refuted",
    "C46_only_when_woken_partial",
    "C46_cleared_first_partial"
   ],
   "note": "False for more than 32 threads (refuted: a thread that was never woken runs). Proved up to 32 threads."
  },
  {
   "property": "C47",
   "status": "partial",
   "theorems": [
    "C47_outside_refuted",
    "C47_own_storage",
    "C47_outside_partial"
   ],
   "note": "Own storage proved for every nesting. False outside of the pool (refuted: a handler gets the storage of the thread it interrupted); proved when no thread is interrupted."
  },
  {
   "property": "C48",
   "status": "proved",
   "theorems": [
    "C48_frames_intact"
   ],
   "note": ""
  },
  {
   "property": "C49",
   "status": "proved",
   "theorems": [
    "C49_completes",
    "C49_reader_catches_up",
    "C49_too_long_never",
    "C49_fair_probe"
   ],
   "note": ""
  },
  {
   "property": "C50",
   "status": "proved",
   "theorems": [
    "C50_write_bytes"
   ],
   "note": ""
  },
  {
   "property": "C51",
   "status": "proved",
   "theorems": [
    "C51_future_resolves",
    "C51_run_ends",
    "C51_closed_future_removes_fiber"
   ],
   "note": "For all fiber behaviours and interleavings that do not use freed memory (C76)."
  },
  {
   "property": "C52",
   "status": "partial",
   "theorems": [
    "C52_poll_defined_refuted",
    "C52_poll_after_ready_refuted",
    "C52_poll_defined_partial"
   ],
   "note": "False as stated (two refutations: polling after close, polling after Ready). Proved for all other polls."
  },
  {
   "property": "C53",
   "status": "partial",
   "theorems": [
    "C53_ring_stream_partial",
    "C53_order_partial",
    "C53_end_partial",
    "C53_consumer_woken_partial",
    "C53_run_ends",
    "C53_closed_stream_removes_fiber_partial",
    "C53_preempted_poll_refuted"
   ],
   "note": "False as stated when the thread runs the fiber inside a poll of a full stream (refuted). Proved for capacities below MAX_CAPACITY whenever that does not happen (condition of C38): order, loss only by overflow or overwriting, end, wakeups, removal; that runs end holds always."
  },
  {
   "property": "C54",
   "status": "partial",
   "theorems": [
    "C54_saturation_refuted",
    "C54_whole_packs_partial"
   ],
   "note": "False as stated (refuted): send, not saturating_send, is used and its error ignored, so the whole pack is lost. Proved: exactly the packs that do not fit are lost."
  },
  {
   "property": "C55",
   "status": "partial",
   "theorems": [
    "C55_all_back_partial",
    "C55_all_back_own_partial",
    "C55_two_inventories_refuted",
    "C55_guard_once",
    "C55_round_trip"
   ],
   "note": "False with two inventories of one item type (refuted: the token of one is merged into the other). Proved for one inventory of the type, and for any number when tokens go back to where they came from. Guards and the round trip are proved in full."
  },
  {
   "property": "C56",
   "status": "proved",
   "theorems": [
    "C56_protocol"
   ],
   "note": ""
  },
  {
   "property": "C57",
   "status": "partial",
   "theorems": [
    "C57_defined_partial",
    "C57_covered_partial",
    "C57_exclusive_partial",
    "C57_overlap_refuted",
    "C57_conjunction_refuted",
    "C57_repeated_refuted"
   ],
   "note": "False as stated (three refutations: two conditions set at once, an item with two attributes, a repeated condition). Proved: some alternative is always active and covers every item whose attributes hold; the full claim for items with one attribute when at most one of the conditions is set."
  },
  {
   "property": "C58",
   "status": "proved",
   "theorems": [
    "C58_trace_decodes"
   ],
   "note": ""
  },
  {
   "property": "C59",
   "status": "proved",
   "theorems": [
    "C59_init"
   ],
   "note": ""
  },
  {
   "property": "C60",
   "status": "partial",
   "theorems": [
    "C60_handle_order_refuted",
    "C60_handle_order_partial"
   ],
   "note": "The claim is false when handles are dropped out of creation order (C60_handle_order_refuted); it is proved for reverse-order drops."
  },
  {
   "property": "C61",
   "status": "partial",
   "theorems": [
    "C61_small_blocks_refuted"
   ],
   "note": "False for blocks smaller than a pointer (C61_small_blocks_refuted); for block sizes of at least a pointer it is C14, proved."
  },
  {
   "property": "C62",
   "status": "partial",
   "theorems": [
    "C62_fails_only_when_full_refuted",
    "C62_undisturbed_partial",
    "C62_seen_empty_partial"
   ],
   "note": "False in both builds (refuted). Proved: an undisturbed allocation fails exactly when nothing is free; any failing allocation saw the free list empty and later all blocks issued."
  },
  {
   "property": "C63",
   "status": "partial",
   "theorems": [
    "C63_every_operation_traced_refuted",
    "C63_other_operations_traced_partial"
   ],
   "note": "False: allocate_zeroed and grow_zeroed are not traced (refuted). All other entry points are (partial)."
  },
  {
   "property": "C64",
   "status": "partial",
   "theorems": [
    "C64_documented_limit_refuted",
    "C64_limit_255_partial"
   ],
   "note": "False at length 256 (refuted); the implemented limit is 255."
  },
  {
   "property": "C65",
   "status": "proved",
   "theorems": [
    "C65_cancellation"
   ],
   "note": ""
  },
  {
   "property": "C66",
   "status": "partial",
   "theorems": [
    "C66_no_use_after_free_refuted",
    "C66_freed_once_partial"
   ],
   "note": "False as stated (refuted), as C32. Proved when the two consuming calls do not overlap; no double free, uninitialised read or leak in any schedule."
  },
  {
   "property": "C67",
   "status": "partial",
   "theorems": [
    "C67_use_after_free_refuted",
    "C67_freed_once_partial"
   ],
   "note": "False as stated (refuted), as C32. Proved when the two consuming calls do not overlap and the conditions of C38 and C42 hold."
  },
  {
   "property": "C68",
   "status": "proved",
   "theorems": [
    "C68_free_lock"
   ],
   "note": "Proved for every history of the model; after a use of a freed waiter the model no longer describes the real memory."
  },
  {
   "property": "C69",
   "status": "partial",
   "theorems": [
    "C69_wakes_latest_refuted",
    "C69_wakes_latest_partial"
   ],
   "note": "False as stated (refuted: the waker of the first poll is kept). Proved under the conditions of C27 when each future is always polled with the same waker."
  },
  {
   "property": "C70",
   "status": "partial",
   "theorems": [
    "C70_no_reentrance_refuted",
    "C70_no_reentrance_partial"
   ],
   "note": "False with set_priority (refuted). Proved up to 32 threads for threads whose priority is not changed while they are woken or running."
  },
  {
   "property": "C71",
   "status": "partial",
   "theorems": [
    "C71_clear_pending_refuted",
    "C71_clear_pending_moved_refuted",
    "C71_clear_pending_partial"
   ],
   "note": "False as stated (two refutations: the row is being run; the priority was changed). Proved up to 32 threads otherwise."
  },
  {
   "property": "C72",
   "status": "partial",
   "theorems": [
    "C72_in_bounds_refuted",
    "C72_in_bounds_partial"
   ],
   "note": "False for more than 32 threads (refuted). Proved up to 32 threads."
  },
  {
   "property": "C73",
   "status": "partial",
   "theorems": [
    "C73_union_partial",
    "C73_union_refuted",
    "C73_union_drop_refuted"
   ],
   "note": "False as stated (two refutations: after a request error, and after the future of a command is dropped during a request, the next command is read as a request result). Proved when every earlier command returned a result."
  },
  {
   "property": "C74",
   "status": "partial",
   "theorems": [
    "C74_attrs_partial",
    "C74_any_refuted"
   ],
   "note": "False for any() (refuted). Proved for all other attributes."
  },
  {
   "property": "C75",
   "status": "partial",
   "theorems": [
    "C75_token_active_partial",
    "C75_reference_refuted",
    "C75_token_refuted"
   ],
   "note": "False as stated (two refutations). Proved when the driver gives out tokens and guards only while the item is active."
  },
  {
   "property": "C76",
   "status": "partial",
   "theorems": [
    "C76_drop_while_completing_refuted",
    "C76_future_memory_partial"
   ],
   "note": "False as stated (refuted). Proved when the destructor of the future and the end of the fiber do not overlap; single free and no uninitialised read in all executions."
  },
  {
   "property": "C77",
   "status": "proved",
   "theorems": [
    "C77_pulse_stream",
    "C77_conservation",
    "C77_end",
    "C77_consumer_woken",
    "C77_run_ends",
    "C77_closed_stream_removes_fiber"
   ],
   "note": "Proved as long as no memory is used after being freed (C66 shows when it is)."
  },
  {
   "property": "C78",
   "status": "partial",
   "theorems": [
    "C78_stays_in_thread_refuted",
    "C78_stays_in_thread_partial",
    "C78_factory_runs_in_caller"
   ],
   "note": "False (refuted): add_fib_factory calls the factory in the thread of the caller, so a fiber that is not Send reaches another thread with a reference to the local storage of the caller. Proved: a fiber refers to the storage of whoever called its factory, hence to that of its own thread if all factories are called there."
  },
  {
   "property": "C79",
   "status": "partial",
   "theorems": [
    "C79_init_refuted",
    "C79_init_small_refuted",
    "C79_init_partial"
   ],
   "note": "False (two refutations) unless usize has 4 bytes: the number of words is computed with a shift by 2. Proved for 4 bytes."
  },
  {
   "property": "C80",
   "status": "partial",
   "theorems": [
    "C80_never_reserved_refuted",
    "C80_only_reserved_refuted",
    "C80_distinct_refuted",
    "C80_never_reserved_partial",
    "C80_only_reserved_partial",
    "C80_distinct_partial"
   ],
   "note": "False (three refutations): async, await, dyn and try are not known; five words that are no longer reserved are changed; a name and the same name with an underscore collide. Proved outside of those cases."
  },
  {
   "property": "C81",
   "status": "partial",
   "theorems": [
    "C81_free_race_refuted",
    "C81_cells_partial"
   ],
   "note": "False: the freeing is not ordered after the other half's last accesses (the last updates acquire and do not release); C81_free_race_refuted. Proved: accesses to the value and the wakers never race."
  },
  {
   "property": "C82",
   "status": "partial",
   "theorems": [
    "C82_free_race_refuted",
    "C82_cells_partial"
   ],
   "note": "As C81: false for the freeing, proved for the error and the wakers."
  },
  {
   "property": "C83",
   "status": "partial",
   "theorems": [
    "C83_free_race_refuted",
    "C83_buffer_race_refuted",
    "C83_waker_race_refuted",
    "C83_cells_partial",
    "C83_waker_partial",
    "C83_slots_partial",
    "C83_few_partial"
   ],
   "note": "False: the freeing; the slots (the receiver claims a slot before reading it and never releases, so a later send into the slot races even if the calls do not overlap); the sender's waker after close. Proved: the error and the receiver's waker never race, nor does the sender's waker if close is not called. Also proved: if at most as many values are sent as there are slots and the receiver is not dropped, the slots do not race, and nothing does if it is not closed either."
  },
  {
   "property": "C84",
   "status": "partial",
   "theorems": [
    "C84_oneshot",
    "C84_pulse",
    "C84_ring_partial",
    "C84_ring_few_partial",
    "C84_ring_order_partial",
    "C84_values",
    "C84_wakeup",
    "C84_pulses"
   ],
   "note": "Proved for oneshot and pulse, in full generality (every weak execution has a sequential one with the same history of each half); for the ring only for executions without races, which C83 shows is not all of them but includes all with at most as many values sent as there are slots and a receiver neither closed nor dropped; of those it is proved that the values come out in order. Real-time order between the halves is not preserved, as it cannot be."
  },
  {
   "property": "C85",
   "status": "partial",
   "theorems": [
    "C85_drain_race_refuted",
    "C85_only_walk_partial"
   ],
   "note": "False: cut_out loads the head with Relaxed ordering and then reads, and writes, the link of a node that another core has just pushed; C85_drain_race_refuted. Proved: this is the only kind of race; no race involves a value, the freeing of a node, or a node that cut_out has not found by walking from the head."
  },
  {
   "property": "C86",
   "status": "proved",
   "theorems": [
    "C86_safe",
    "C86_conserved"
   ],
   "note": "Proved in the model in which racing accesses (C85) behave as if ordered; addresses of freed nodes are not reused."
  },
  {
   "property": "C87",
   "status": "proved",
   "theorems": [
    "C87_life",
    "C87_never_again",
    "C87_run",
    "C87_wakeups",
    "C87_exec_polled",
    "C87_panics"
   ],
   "note": "Any number of contexts and fibers of all four kinds, on the fiber chain at the granularity of single accesses; futures and closures are arbitrary. A panic stops the machine (no unwinding)."
  },
  {
   "property": "C88",
   "status": "proved",
   "theorems": [
    "C88_data_ordered",
    "C88_no_race",
    "C88_exclusive"
   ],
   "note": "Any number of contexts, guards may be sent; the waiters are arbitrary accesses to other memory (their races are C27, C28)."
  },
  {
   "property": "C89",
   "status": "partial",
   "theorems": [
    "C89_link_race_refuted",
    "C89_owners_ordered_partial",
    "C89_only_link_reads_partial",
    "C89_one_allocator_partial"
   ],
   "note": "False: allocate reads the link of a block that another context has meanwhile allocated and writes to (C89_link_race_refuted). Proved: these reads are the only races, as long as no block is allocated twice (C18); with one allocating context there is no race at all and no block is allocated twice."
  },
  {
   "property": "C90",
   "status": "partial",
   "theorems": [
    "C90_forged_refuted",
    "C90_alone_partial",
    "C90_once_partial",
    "C90_exclusive_partial"
   ],
   "note": "False for registers without fields: their token struct has a public field only, so that safe code can make any number of tokens (C90_forged_refuted). Proved if every variant has a field."
  },
  {
   "property": "C91",
   "status": "partial",
   "theorems": [
    "C91_forged_refuted",
    "C91_nested_refuted",
    "C91_hw_partial",
    "C91_soft_partial"
   ],
   "note": "False with forged tokens (C91_forged_refuted), and without atomics if a closure of modify itself updates the register, whose update is lost (C91_nested_refuted). Proved otherwise: with atomics also for nested calls."
  },
  {
   "property": "C92",
   "status": "partial",
   "theorems": [
    "C92_twice_refuted",
    "C92_crates_refuted",
    "C92_exact_partial",
    "C92_once",
    "C92_sound"
   ],
   "note": "False if a register is listed twice in a block under complementary conditions (C92_twice_refuted), and if the index is made in another crate with other features (C92_crates_refuted). Proved otherwise; at most one token and no undeclared ones in general."
  },
  {
   "property": "C93",
   "status": "partial",
   "theorems": [
    "C93_run_partial",
    "C93_woken_polled_partial",
    "C93_exec_polled_partial",
    "C93_woken_polled_refuted",
    "C93_exec_polled_refuted"
   ],
   "note": "False if a future wakes its own thread while it is polled (C93_woken_polled_refuted) or passes another future to exec of its own thread (C93_exec_polled_refuted): neither is polled, as the thread is woken while its priority is being run (C45). Proved under the conditions of C45 and C70 otherwise."
  },
  {
   "property": "C94",
   "status": "partial",
   "theorems": [
    "C94_compiles_partial",
    "C94_messages_partial",
    "C94_one_context_partial",
    "C94_literal_refuted",
    "C94_inline_refuted"
   ],
   "note": "False for a single literal with braces: println!(\"{{}}\") prints {{}} and println!(\"{x}\") prints {x} (C94_literal_refuted, C94_inline_refuted), since the first arm of print! writes the literal without formatting. Proved for everything else."
  },
  {
   "property": "C95",
   "status": "proved",
   "theorems": [
    "C95_dbg_evaluates"
   ],
   "note": ""
  },
  {
   "property": "C96",
   "status": "partial",
   "theorems": [
    "C96_in_one_piece_partial",
    "C96_in_one_piece_refuted"
   ],
   "note": "False for messages written in several transactions, i.e. with arguments or longer than 64 bytes (C96_in_one_piece_refuted). Proved for single strings of at most 64 bytes."
  },
  {
   "property": "C97",
   "status": "partial",
   "theorems": [
    "C97_resets_partial",
    "C97_disabled_partial",
    "C97_unread_never_resets",
    "C97_small_never_resets",
    "C97_resets_refuted",
    "C97_unread_refuted",
    "C97_read_refuted"
   ],
   "note": "False as stated: the system never resets if a string of the message does not fit in the buffer (C97_resets_refuted) or if the probe has stopped reading with stderr enabled (C97_unread_refuted), since write_transaction retries for ever; and it can reset before the message is read (C97_read_refuted). Proved for buffers of more than 66 bytes if the probe goes on reading, and if stderr is disabled. Interrupts that go on printing after the panic are not modelled."
  },
  {
   "property": "C98",
   "status": "partial",
   "theorems": [
    "C98_at_most_once_partial",
    "C98_at_most_once_refuted",
    "C98_untaken_refuted"
   ],
   "note": "False of the index of thr::pool!: its members are Copy and it has no private field, so that safe code can make any number of them (C98_at_most_once_refuted), in the module of the macro call even without taking any (C98_untaken_refuted). Proved of the other macros."
  },
  {
   "property": "C99",
   "status": "proved",
   "theorems": [
    "C99_exclusive"
   ],
   "note": ""
  },
  {
   "property": "C100",
   "status": "partial",
   "theorems": [
    "C100_stays_partial",
    "C100_stays_refuted"
   ],
   "note": "False: static tokens are Send whatever the type of the static, so that for example an Rc in a static is used from two contexts (C100_stays_refuted). Proved if tokens of such statics are not handed over."
  },
  {
   "property": "C101",
   "status": "partial",
   "theorems": [
    "C101_sound",
    "C101_accepted_partial",
    "C101_features_refuted",
    "C101_nested_refuted",
    "C101_val_refuted"
   ],
   "note": "What the macro makes is proved (C101_sound). Not every good declaration is accepted: two of the features that are on give two macros with the same name (C101_features_refuted), a condition on a field inside of a register with a condition makes the struct and the macro differ (C101_nested_refuted), a field VAL has a type that does not exist (C101_val_refuted). Proved to be accepted otherwise."
  },
  {
   "property": "C102",
   "status": "proved",
   "theorems": [
    "C102_exclusive"
   ],
   "note": "Proved for all programs."
  },
  {
   "property": "C103",
   "status": "partial",
   "theorems": [
    "C103_sound",
    "C103_accepted_partial",
    "C103_marker_refuted",
    "C103_variant_refuted",
    "C103_empty_refuted"
   ],
   "note": "What an accepted map makes is proved (C103_sound). Not every agreeing map is accepted: one that maps no field of a register (C103_marker_refuted), one with a variant that is there and one that is not, on which the macro panics (C103_variant_refuted), and one of an empty definition (C103_empty_refuted). Proved to be accepted, and to give a peripheral, otherwise (C103_accepted_partial)."
  },
  {
   "property": "C104",
   "status": "proved",
   "theorems": [
    "C104_fields"
   ],
   "note": "Proved for every accepted map. A register declared without fields gives a struct with a marker only."
  },
  {
   "property": "C105",
   "status": "partial",
   "theorems": [
    "C105_exhausted",
    "C105_exhausted_partial",
    "C105_exhausted_refuted"
   ],
   "note": "Critical-section build: proved for every schedule. Hardware build: false as stated (after the reuse of C18 the free list loses a block, and an allocation fails though two of three blocks are in use and no other call is in progress); proved for the schedules of C18. Calls in progress have to be counted: C105_case is a failure though at no instant all blocks were in use."
  },
  {
   "property": "C106",
   "status": "proved",
   "theorems": [
    "C106_live_disjoint",
    "C106_best_fit"
   ],
   "note": "Critical-section build. `grow` and `shrink` are not operations of the model (an allocation, a copy by the owner of both blocks, and a deallocation). The hardware build inherits the reuse of C18."
  },
  {
   "property": "C107",
   "status": "partial",
   "theorems": [
    "C107_failed_partial",
    "C107_failed_refuted"
   ],
   "note": "False as stated: with two pools of one block each, an interrupt that gives the block of the first back and takes that of the second between the two visits makes an allocation fail though a block was left at every instant. Proved: each large enough pool was exhausted at an instant of its own."
  },
  {
   "property": "C108",
   "status": "partial",
   "theorems": [
    "C108_pool_partial",
    "C108_soft_partial",
    "C108_accepted",
    "C108_names",
    "C108_order",
    "C108_conditions_refuted",
    "C108_fields_refuted",
    "C108_statement_refuted"
   ],
   "note": "False as stated: a thread, or a field, under a condition that does not hold makes the whole declaration fail. Proved: what is accepted is the declared pool; declarations with distinct types are accepted exactly when all conditions hold, no field has a name of the macro (fib_chain, local, priority) and there are fewer than 65536 threads; the order of sections is irrelevant."
  },
  {
   "property": "C109",
   "status": "partial",
   "theorems": [
    "C109_documented_partial",
    "C109_only",
    "C109_independent_partial",
    "C109_beyond_refuted",
    "C109_reach_refuted",
    "C109_statement_refuted"
   ],
   "note": "False as stated: a field that does not lie in the integer is accepted; in a release build, its methods touch bits of other fields, in a debug build they panic; one that reaches over the end does not read back what was written. Proved for fields that lie in the integer, in declarations with any other fields."
  },
  {
   "property": "C110",
   "status": "proved",
   "theorems": [
    "C110_arrays",
    "C110_apart",
    "C110_failure",
    "C110_no_loss"
   ],
   "note": "Proved, with sizes other than zero as the trait demands. Alignment is C16 (refuted); interrupts are C106."
  },
  {
   "property": "C111",
   "status": "partial",
   "theorems": [
    "C111_resize_partial",
    "C111_resize_refuted"
   ],
   "note": "False: every resize allocates first. With all blocks in use an allocation can neither be shrunk nor grown within its block. Proved: it succeeds if some pool of sufficient block size has a block left."
  },
  {
   "property": "C112",
   "status": "partial",
   "theorems": [
    "C112_trace",
    "C112_in_use_partial",
    "C112_in_use_refuted"
   ],
   "note": "False: a request that fails is recorded like one that succeeds. Proved: the records are decoded and add up to the bytes in use plus the sizes of the failed requests; exactly the bytes in use if none failed. (alloc_zeroed of the global allocator is traced, unlike allocate_zeroed, C63.)"
  },
  {
   "property": "C113",
   "status": "partial",
   "theorems": [
    "C113_accepted",
    "C113_methods_partial",
    "C113_wide_refuted",
    "C113_sets_refuted"
   ],
   "note": "False as stated: with atomics, a 64-bit read-write register lacks `modify` and its fields `set_bit` for the tags Srt and Crt. Also, a field with `WWRegField` alone in a write-only register lacks `set_bit`, and RReg WReg WoReg is accepted but makes `set_bit` ambiguous. Proved for all documented sets of traits, with 8 to 32 bits or without atomics."
  },
  {
   "property": "C114",
   "status": "partial",
   "theorems": [
    "C114_exact_partial",
    "C114_generic_partial",
    "C114_generic_refuted",
    "C114_exact_refuted"
   ],
   "note": "False as stated: with atomics, code bound by `SRwReg` cannot call `modify` and `modify_reg` (with `CRwReg` it can), and a 64-bit register is an `SRwReg` but becomes no `CRwReg`. Proved for all other markers and methods, and for sizes up to 32 bits or without atomics."
  },
  {
   "property": "C115",
   "status": "partial",
   "theorems": [
    "C115_documented_partial",
    "C115_only",
    "C115_modify_partial",
    "C115_store_partial",
    "C115_beyond_refuted",
    "C115_names_refuted",
    "C115_statement_refuted"
   ],
   "note": "False as stated: an offset beyond the register is accepted and converted with `as`, so setting \"bit 256\" of an 8-bit register sets bit 0 of another field, even in a debug build; distinct names can be refused. Proved for accepted declarations and fields that lie in the register, including chains of calls."
  },
  {
   "property": "C116",
   "status": "partial",
   "theorems": [
    "C116_starts_partial",
    "C116_forged_refuted",
    "C116_statement_refuted"
   ],
   "note": "The sequence is a constant of another crate. If it begins with the number of a stream, printed text can be taken for a request, and the stream then writes beyond its buffer (refuted). Proved for all sequences that do not."
  },
  {
   "property": "C117",
   "status": "proved",
   "theorems": [
    "C117_sessions"
   ],
   "note": "For sequences that do not begin with the number of a stream (see C116) and requests that lie in the buffer and are empty."
  },
  {
   "property": "C118",
   "status": "partial",
   "theorems": [
    "C118_enabled_partial",
    "C118_restart_refuted",
    "C118_statement_refuted"
   ],
   "note": "False as stated: only the primary stream's initialisation resets the mask, so a core that starts earlier after a restart still sees streams of the last session enabled. Proved: the answer is what the probe said last; and false after the primary stream is initialised without a request."
  },
  {
   "property": "C119",
   "status": "proved",
   "theorems": [
    "C119_contents",
    "C119_kept",
    "C119_links"
   ],
   "note": "Critical-section build. A block is not used while `grow` or `shrink` has it."
  },
  {
   "property": "C120",
   "status": "proved",
   "theorems": [
    "C120_requests_return",
    "C120_given_back"
   ],
   "note": "Critical-section build. With hardware atomics the loops of `load_modify_atomic!` and `load_try_modify_atomic!` retry as often as they are disturbed (C121)."
  },
  {
   "property": "C121",
   "status": "partial",
   "theorems": [
    "C121_lock_free_partial",
    "C121_alone",
    "C121_bounded_refuted"
   ],
   "note": "Hardware build. Lock-freedom is proved for all schedules, and that an undisturbed operation takes at most five steps; O(1) is refuted, already when the disturbances are interrupts. The build with critical sections is bounded (C120)."
  },
  {
   "property": "C122",
   "status": "partial",
   "theorems": [
    "C122_at_most_once_partial",
    "C122_exactly_once_partial",
    "C122_no_leak",
    "C122_freed_once",
    "C122_exactly_once_refuted"
   ],
   "note": "That no waiter leaks or is freed twice is proved for all histories (C122_no_leak, C122_freed_once). The rest is proved for the histories for which C28 is proved (no release begins while a notified future has not been polled or a future is being dropped). Refuted without this restriction: the waker of another future is destroyed instead."
  },
  {
   "property": "C123",
   "status": "partial",
   "theorems": [
    "C123_each",
    "C123_only",
    "C123_same_register_partial",
    "C123_same_register_refuted",
    "C123_names_refuted",
    "C123_one_token_partial",
    "C123_one_token_refuted",
    "C123_mapped",
    "C123_mapped_only"
   ],
   "note": "Methods, tags and maps proved in full (C123_each, C123_only, C123_mapped, C123_mapped_only). That a conversion leads to the same register is proved for variants with equal addresses, and refuted otherwise (nothing compares them). That no two tokens stand for one register is proved for an index with one variant of each register, and refuted for an index with two."
  }
 ]
}