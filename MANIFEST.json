{
 "claims": [
  {
   "property": "C01",
   "status": "proved",
   "theorems": [
    "spsc_conc_fifo",
    "spsc_conc_wait_free"
   ],
   "note": "All interleavings (SC) of one producer and one consumer, any size."
  },
  {
   "property": "C02",
   "status": "proved",
   "theorems": [
    "spsc_tso_fifo_publication"
   ],
   "note": "TSO store buffers; pushed addresses not reused while owned by the consumer."
  },
  {
   "property": "C03",
   "status": "proved",
   "theorems": [
    "spsc_seq_refines_fifo",
    "spsc_conc_pop_fails_only_empty",
    "spsc_conc_push_fails_only_full"
   ],
   "note": "Sequential exactness and the concurrent failure clause."
  },
  {
   "property": "C04",
   "status": "proved",
   "theorems": [
    "spsc_seq_refines_fifo",
    "spsc_reset_lineend_refuted"
   ],
   "note": "length()/reset exact for all histories; finding: reset(true) on rings under 8 slots goes out of bounds."
  },
  {
   "property": "C05",
   "status": "partial",
   "theorems": [
    "spsc_multipush_partial",
    "spsc_multipush_refuses_overflow",
    "spsc_multipush_refuted",
    "spsc_multipush_oob_refuted"
   ],
   "note": "Accepted batches are appended when the write index is 0; refused batches change nothing at every index. The general claim is false: the write index is advanced by last+1 instead of being set to it; refuted with concrete runs, one leaving the array."
  },
  {
   "property": "C06",
   "status": "partial",
   "theorems": [
    "lamport_conc_fifo",
    "lamport_seq_refines_fifo",
    "lamport_length_partial",
    "lamport_length_refuted"
   ],
   "note": "FIFO and capacity proved; length() is wrong on an empty ring (refuted), exact when non-empty."
  },
  {
   "property": "C07",
   "status": "proved",
   "theorems": [
    "ubuf_fifo",
    "ubuf_popped_prefix_of_pushed",
    "ubuf_no_use_after_free",
    "ubuf_segment_in_one_place",
    "ubuf_memory_bounded"
   ],
   "note": "Interleaving model at the granularity of segment and pool operations; inner ring and dynqueue objects taken as atomic FIFOs. Also bounds the number of live segments."
  },
  {
   "property": "C08",
   "status": "partial",
   "theorems": [
    "ubuf_fifo",
    "ubuf_empty_exact",
    "ubuf_push_wait_free",
    "ubuf_pop_wait_free",
    "ubuf_length_partial",
    "ubuf_length_after_reset_refuted",
    "ubuf_length_after_race_refuted"
   ],
   "note": "Everything but length() holds in full. length() is exact when calls never overlapped and reset() was never called; both exclusions are necessary: refuted with concrete runs."
  },
  {
   "property": "C09",
   "status": "proved",
   "theorems": [
    "dynqueue_linearizable",
    "dynqueue_no_loss_no_dup",
    "dynqueue_node_in_one_place",
    "dynqueue_no_use_after_recycle",
    "dynqueue_no_leak",
    "dynqueue_progress"
   ],
   "note": "Any number of threads (the SPSC calls are executions with one producer and one consumer), any cache outcome, malloc may return a freed address at once. STRONG_WAIT_FREE and NO_CACHE builds not modelled."
  },
  {
   "property": "C10",
   "status": "proved",
   "theorems": [
    "mpmc_linearizable",
    "mpmc_no_loss_no_dup",
    "mpmc_never_blocks",
    "mpmc_strict_pop_refuted",
    "mpmc_strict_push_refuted"
   ],
   "note": "Any number of threads, all interleavings (SC), capacity >= 2, unbounded sequence counters. Failing operations may be caused by an operation in progress; the two _refuted theorems show that stricter failure semantics do not hold."
  },
  {
   "property": "C11",
   "status": "partial",
   "theorems": [
    "msqueue_linearizable_partial",
    "msqueue_no_loss_no_dup_partial",
    "msqueue_free_once_partial",
    "msqueue_never_stuck_partial",
    "msqueue_obstruction_free_partial",
    "msqueue_reuse_refuted"
   ],
   "note": "Linearizable for any number of threads provided no node is reallocated while a running operation holds it in headptr/tailptr. Without that condition the claim is false (ABA): msqueue_reuse_refuted. The delayed allocator only delays reuse by a fixed number of frees, it does not establish the condition."
  },
  {
   "property": "C12",
   "status": "partial",
   "theorems": [
    "scal_no_loss_no_dup",
    "scal_no_loss_no_dup_quiescent",
    "scal_relaxed_complete",
    "scal_relaxed_drained",
    "scal_relaxed_complete_claim",
    "scal_fifo_complete_partial",
    "scal_fifo_order_partial",
    "scal_fifo_complete_refuted"
   ],
   "note": "Proved in full for the relaxed mode and multiSWSR. In the default FIFO mode the property is false (scal_fifo_complete_refuted): a pop that overtakes a delayed push burns its ticket and the value is stranded; proved when pushes and pops do not overlap. Sub-queues are atomic FIFO queues."
  },
  {
   "property": "C13",
   "status": "proved",
   "theorems": [
    "tas_mutual_exclusion",
    "tas_progress",
    "clh_mutual_exclusion",
    "clh_fifo",
    "clh_waiting_exact",
    "clh_progress",
    "clh_destroy_frees_distinct"
   ],
   "note": "Any number of threads, one step per shared access, sequentially consistent interleavings (memory orders not modelled). Each pid is used by one thread at a time; node contents before init are arbitrary."
  },
  {
   "property": "C14",
   "status": "proved",
   "theorems": [
    "spin_barrier_separates_rounds",
    "spin_barrier_call_count",
    "spin_barrier_progress",
    "spin_barrier_release_is_seen",
    "spin_barrier_resetup_refuted",
    "cond_barrier_refuted",
    "cond_barrier_separates_rounds_partial",
    "cond_barrier_progress_partial"
   ],
   "note": "spinBarrier: proved for any set of participants whose number differs from the one in force at barrierSetup. Findings: barrierSetup with the same number does not reset the per-thread phases (another set of ids then deadlocks); the mutex/condition-variable barrier lets a thread through on a spurious wakeup."
  },
  {
   "property": "C15",
   "status": "partial",
   "theorems": [
    "ofarm_in_order",
    "ofarm_stateful_order",
    "ofarm_complete",
    "ofarm_terminates",
    "ofarm_default_rerun",
    "ofarm_rerun_refuted",
    "ofarm_filter_refuted"
   ],
   "note": "Order, completeness, deadlock freedom and termination proved for the first run and for re-runs with the default thaw. Refuted: re-run with an explicit number of workers keeps misaligned round robin positions and breaks the order; workers that filter can deadlock the farm."
  },
  {
   "property": "C16",
   "status": "partial",
   "theorems": [
    "ondem_in_order_partial",
    "ondem_complete_partial",
    "ondem_holds_back_partial",
    "ondem_overrun_refuted",
    "ondem_wrapper_rerun_refuted"
   ],
   "note": "Order, completeness and minimal holding back proved for every completion order while fewer than M tasks are in flight at each send (any number of runs for the farm's own collector, one run for the collector of combined farms). Refuted without that bound (nothing enforces it: the workers' output queues are unbounded by default) and for a second run of combined ordered farms."
  },
  {
   "property": "C17",
   "status": "partial",
   "theorems": [
    "farm_exactly_once",
    "farm_terminates",
    "farm_complete_partial",
    "farm_map_permutation",
    "farm_early_stop_deadlock_refuted"
   ],
   "note": "Exactly-once, end-of-stream last and termination for all workers and choices; completeness for workers that do not stop early. With bounded channels a worker that returns EOS early can block the emitter for ever (refuted)."
  },
  {
   "property": "C18",
   "status": "partial",
   "theorems": [
    "pipeline_output_prefix",
    "pipeline_terminates",
    "pipeline_complete_partial",
    "pipeline_complete_unbounded",
    "pipeline_early_stop_deadlock_refuted"
   ],
   "note": "Arbitrary stateful stages, any capacities, any schedule. Completeness needs stages that read their whole input or unbounded channels: with bounded channels a stage that returns EOS early leaves the stages before it blocked for ever (refuted)."
  },
  {
   "property": "C19",
   "status": "partial",
   "theorems": [
    "gather_stops_only_when_all_ended",
    "gather_output_is_interleaving",
    "gather_terminates_partial",
    "gather_forwards_eos_partial",
    "gather_mixed_never_stops",
    "gather_terminates_refuted",
    "gather_eosw_refuted",
    "gather_rerun_refuted"
   ],
   "note": "Stopping only after all marks, output an interleaving, and termination when the marks are all EOS/EOSW or all EOS_NOFREEZE are proved. Refuted: termination with both EOS and EOS_NOFREEZE (never stops), a forwarded EOS independent of the arrival order when EOS and EOSW are mixed, and a correct second run after a filter left early."
  },
  {
   "property": "C20",
   "status": "partial",
   "theorems": [
    "sched_round_robin",
    "sched_true_delivers_once",
    "sched_false_delivers_nothing",
    "sched_next_worker_with_room",
    "sched_delivers_when_accepted",
    "sched_bounded_retry_blocking",
    "sched_bounded_retry_partial",
    "sched_retry_never_returns",
    "sched_bounded_retry_refuted",
    "sched_send_to_exact",
    "sched_send_to_returns",
    "sched_broadcast_exactly_once",
    "sched_broadcast_completes",
    "sched_next_free_channel"
   ],
   "note": "Round robin, next worker with room, send-to and broadcast proved for every answer of the workers' queues. The bounded-retry part holds in blocking mode and for retry <= n; for retry > n in non-blocking mode it is refuted (the call never returns while all workers are full)."
  },
  {
   "property": "C21",
   "status": "partial",
   "theorems": [
    "freeze_wait_freezing_run_complete",
    "freeze_thaw_one_run",
    "freeze_no_lost_wakeup",
    "freeze_wait_terminates",
    "freeze_wait_when_frozen_no_further_run",
    "freeze_thaw_then_wait_refuted",
    "freeze_run_and_wait_end_never_runs",
    "freeze_early_thaw_refuted",
    "freeze_wait_freezing_after_last_thaw_blocks"
   ],
   "note": "Proved when thaw is called only after wait_freezing has returned 0 (one controlling thread). Findings: thaw followed directly by wait can skip the requested run; run_and_wait_end on a frozen node never runs it; thaws before the freezing point collapse; wait_freezing after thaw(false) blocks for ever."
  },
  {
   "property": "C22",
   "status": "proved",
   "theorems": [
    "parfor_dynamic_exactly_once",
    "parfor_dynamic_terminates",
    "sequential_loop_spec"
   ],
   "note": "Both run modes (work-stealing workers, scheduler thread), all interleavings, any history of earlier loops on the object; termination bound with spurious CAS failures counted."
  },
  {
   "property": "C23",
   "status": "proved",
   "theorems": [
    "parfor_static_partition",
    "parfor_static_blocks",
    "parfor_static_assignment_fixed",
    "parfor_static_completes",
    "parfor_static_terminates"
   ],
   "note": "Contiguous blocks in worker order equal the sequential loop; empty ranges included; block sizes exact, so the assignment of iterations to workers is the same in every run; a complete run exists."
  },
  {
   "property": "C24",
   "status": "partial",
   "theorems": [
    "parfor_grain_partial",
    "parfor_grain_claim_refuted",
    "parfor_grain_step_refuted",
    "parfor_grain_negative_refuted",
    "parfor_grain_shrunk_refuted",
    "parfor_oneshot_negative_grain_refuted"
   ],
   "note": "The full statement is false of the code: step > 1 runs wrong indices, negative first drops iterations, a table shrunk by an earlier loop is indexed out of bounds. Proved for step 1 and first >= 0, or one worker."
  },
  {
   "property": "C25",
   "status": "proved",
   "theorems": [
    "parallel_reduce_dynamic",
    "parallel_reduce_static"
   ],
   "note": "Commutative monoid for dynamic scheduling; associativity and right identity suffice for the default static scheduling. parallel_reduce_static with a grain inherits the failures of C24."
  },
  {
   "property": "C26",
   "status": "partial",
   "theorems": [
    "squeue_partial",
    "squeue_one_chunk_partial",
    "squeue_fifo_refuted",
    "squeue_at_refuted",
    "squeue_claim_refuted"
   ],
   "note": "Full claim refuted (emptying with pop_front, at() across chunks); proved for histories avoiding these."
  },
  {
   "property": "C27",
   "status": "proved",
   "theorems": [
    "static_list_fifo",
    "static_list_pop_fails_only_empty",
    "static_list_push_fails_only_full",
    "static_list_wait_free"
   ],
   "note": "Both compile-time variants, all interleavings (SC)."
  },
  {
   "property": "C28",
   "status": "partial",
   "theorems": [
    "svector_partial",
    "svector_room_partial",
    "svector_copy",
    "svector_insert_full_refuted",
    "svector_insert_last_slot_refuted",
    "svector_append_self_refuted",
    "svector_claim_refuted",
    "svector_moved_from_refuted"
   ],
   "note": "Full claim refuted (insert, self-append, moved-from); proved for all other legal histories."
  },
  {
   "property": "C29",
   "status": "partial",
   "theorems": [
    "hash_is_map_partial",
    "hash_count_partial",
    "hash_foreach_partial",
    "hash_delete_count_refuted",
    "hash_update_count_refuted",
    "hash_claim_refuted",
    "hash_foreach_null_refuted"
   ],
   "note": "Finite-map behaviour of insert/update/delete/find proved for every history, hash function and bucket count. The entry-counter part of the claim is false of the code (delete and replacement increment it) and is refuted; it is proved for histories without deletion or replacement."
  },
  {
   "property": "C30",
   "status": "partial",
   "theorems": [
    "alloc_disjoint_partial",
    "alloc_inside_partial",
    "alloc_malloc_partial",
    "alloc_contents_partial",
    "alloc_release_partial",
    "alloc_no_misuse_partial",
    "alloc_all_returned_partial",
    "alloc_class",
    "alloc_free_queued_partial",
    "alloc_scan",
    "alloc_reuse_partial",
    "alloc_disjoint_stores_refuted",
    "alloc_disjoint_zero_aligned_refuted",
    "malloc_zero_refuted"
   ],
   "note": "Proved for every history that keeps the usage rules of AllocSpec.proper: requests are of 1 byte or more, no stored word equals the address of a segment, aligned requests stay below the slab limit. With a rule dropped the claim is false: a block holding the address of its segment makes the free of its neighbour release it (alloc_disjoint_stores_refuted), an aligned request of 0 bytes does the same (alloc_disjoint_zero_aligned_refuted), malloc(0) indexes the caches with -1 (malloc_zero_refuted). The per-thread free queues are atomic queues here (C01 covers their implementation); ffa_wrapper and the thread registry are not modelled."
  },
  {
   "property": "C31",
   "status": "partial",
   "theorems": [
    "memalign_accepts",
    "memalign_refuses",
    "memalign_aligned_partial",
    "free_exact_partial",
    "realloc_keeps_partial",
    "realloc_disjoint_refuted",
    "memalign_large_free_refuted",
    "memalign_large_free_always"
   ],
   "note": "Same usage rules as C30. False outside them: realloc of an aligned pointer keeps it although the rest of the block is too small (realloc_disjoint_refuted); free of an aligned block above the slab limit passes the system a pointer it never returned (memalign_large_free_refuted, and memalign_large_free_always for every address and alignment)."
  },
  {
   "property": "C32",
   "status": "proved",
   "theorems": [
    "static_alloc_exclusive",
    "static_alloc_capacity",
    "static_alloc_channels",
    "static_alloc_progress",
    "static_alloc_full_spins"
   ],
   "note": "One allocating thread per channel, any number of deallocating threads, header accesses interleaved, counter wrap-around included. Assumes the requested slot count is >= 1 (0 makes the code divide by zero) and callers only dealloc blocks they own. Exhaustion is not reported: alloc spins (static_alloc_full_spins)."
  },
  {
   "property": "C33",
   "status": "partial",
   "theorems": [
    "mdf_program",
    "mdf_conflicts_in_program_order",
    "mdf_at_most_once",
    "mdf_all_executed",
    "mdf_terminates",
    "mdf_eos_after_all",
    "mdf_eos_reached",
    "mdf_sequential_result",
    "mdf_all_executed_refuted",
    "mdf_conflicts_refuted"
   ],
   "note": "Proved for every program whose tasks declare no null address and do not declare a datum again after declaring it OUTPUT, for any number of workers, any priorities and any interleaving: conflict order, exactly-once execution, termination bound, end of stream, and equality of final memory with the sequential program. Without the hypothesis the claim is false: a task declaring OUTPUT d then INPUT d (or OUTPUT d twice) waits for itself forever, and dependencies on a null address are lost (both refuted with witnesses). Hash tables are abstract maps; identifiers do not wrap; throttling of the input is left out."
  },
  {
   "property": "C34",
   "status": "partial",
   "theorems": [
    "mdf_ring_bounded",
    "mdf_ring_default_sizes_bounded",
    "mdf_ring_bounded_all_read",
    "mdf_ring_unbounded_refuted",
    "mdf_ring_unbounded_partial",
    "taskf_ring_partial",
    "taskf_ring_complete_partial",
    "taskf_ring_refuted"
   ],
   "note": "False with the default unbounded channels for every ring size (mdf) and in every configuration for ff_taskf; proved for ff_mdf with bounded channels and, in general, under the stated limits on outstanding tasks."
  },
  {
   "property": "C35",
   "status": "partial",
   "theorems": [
    "mapper_ids_exist",
    "mapper_cyclic_partial",
    "mapper_cyclic_claim_refuted",
    "mapper_round_robin",
    "mapper_vector_shrinks_refuted"
   ],
   "note": "Ids always exist; the cyclic rule holds for power-of-two lists and the first length(list) threads, refuted otherwise. String parsing not modelled."
  },
  {
   "property": "C36",
   "status": "partial",
   "theorems": [
    "stencil_square_partial",
    "stencil_sweep_partial",
    "stencil_iterations_partial",
    "stencil_out_of_bounds_refuted",
    "stencil_overlap_refuted",
    "stencil_claim_refuted",
    "stencil_init_refuted"
   ],
   "note": "Holds for square matrices (any region, strides, row order, iteration count). For X <> Y the code uses row stride X instead of Y: out-of-bounds writes (X > Y) or overlapping cells (X < Y), refuted. The reduction variable is covered by C23, not here."
  },
  {
   "property": "C37",
   "status": "partial",
   "theorems": [
    "frame_roundtrip_partial",
    "frame_prefix_partial",
    "frame_single_big_refuted",
    "frame_claim_refuted",
    "frame_empty_payload_refuted",
    "frame_address_refuted",
    "send_buffer_claim_refuted",
    "send_buffer_partial",
    "two_receives_claim_refuted",
    "two_receives_partial"
   ],
   "note": "Round-trip holds when the byte limit is at most T+1 (default), payloads of one batch arrive; refuted for larger byte limits, empty payloads, node ids over 32767, a direct send while a batch is pending, and two outstanding receives with a payload above the threshold."
  },
  {
   "property": "C38",
   "status": "partial",
   "theorems": [
    "recv_capacity_claim_refuted",
    "recv_capacity_refuted",
    "recv_capacity_growing_partial",
    "recv_capacity_batches_partial"
   ],
   "note": "False as stated: three messages of 100, 10, 50 bytes in one slot overflow the third buffer. Holds when sizes never shrink per slot or when every message is a batch of several."
  },
  {
   "property": "C39",
   "status": "proved",
   "theorems": [
    "readn_exact",
    "readn_terminates",
    "writen_exact",
    "readvn_exact",
    "readvn_terminates",
    "writevn_exact",
    "readvn_empty_refuted"
   ],
   "note": "For every sequence of operating-system replies. Side finding: readvn on segments of total length 0 reports a closed connection."
  },
  {
   "property": "C40",
   "status": "partial",
   "theorems": [
    "Push_true_enqueued",
    "Push_false_not_enqueued",
    "Push_succeeds_when_room",
    "Push_blocks_while_full",
    "Pop_item_is_oldest",
    "Pop_false_inactive",
    "Pop_true_delivers_blocking",
    "Pop_true_delivers_partial",
    "Pop_exhausted_returns_true",
    "Pop_true_refuted"
   ],
   "note": "Push: full. Pop: a non-blocking Pop that exhausts its retries returns true with no item (refuted); otherwise proved."
  },
  {
   "property": "C41",
   "status": "partial",
   "theorems": [
    "node_alone",
    "comb_is_chain_partial",
    "comb_grouping_partial",
    "comb_wiring",
    "comb_later_eos_refuted",
    "comb_null_refuted"
   ],
   "note": "Proved for arbitrary stateful nodes, nested combinations and all streams, when no node but the first ends the stream early and none returns a null pointer. Both conditions are needed: when a later node returns EOS the mark is sent but the combination goes on, items and a second mark follow it (comb_later_eos_refuted); a null pointer, which ends the stream of a node run alone, is pushed on the output channel (comb_null_refuted). Multi-input and multi-output nodes and source nodes (skipfirstpop) are not modelled."
  },
  {
   "property": "C42",
   "status": "partial",
   "theorems": [
    "isPowerOf2_partial",
    "isPowerOf2_size_t_refuted",
    "nextPowerOf2_partial",
    "nextPowerOf2_diverges_refuted",
    "nextPowerOf2_fuel",
    "roundPow2_least",
    "nextMultipleOfIf_partial",
    "nextMultipleOfIf_refuted",
    "alignment_test_exact"
   ],
   "note": "True for 32-bit arguments without overflow; isPowerOf2 truncates size_t, nextPowerOf2 loops forever above 2^63, nextMultipleOfIf wraps."
  },
  {
   "property": "C43",
   "status": "proved",
   "theorems": [
    "dc_result",
    "dc_safe",
    "dc_no_deadlock",
    "dc_bounded",
    "dc_total",
    "dc_can_complete",
    "dc_any_division_refuted"
   ],
   "note": "ff_DC: the workers' recursion, the commands and notifications they send, the scheduler's dependency tables (task set, last-writer table, unblock lists, counters), the allocation and deletion of the operand and result vectors. For every divide/combine/base functions for which the sequential recursion ends, every number of workers and every interleaving: the ended computation holds the sequential value and has freed everything; no deleted vector is used and no assertion fails; no deadlock; all executions are bounded. dc_any_division_refuted is a finding: a division into no parts below the root indexes a vector at -1."
  },
  {
   "property": "C44",
   "status": "partial",
   "theorems": [
    "parfor_empty_partial",
    "parfor_empty_refuted"
   ],
   "note": "True for default static scheduling; dynamic and grained loops hit an assert on every empty range."
  },
  {
   "property": "C45",
   "status": "partial",
   "theorems": [
    "parfor_chunk_bound_partial",
    "parfor_chunk_bound_refuted"
   ],
   "note": "False: when one chunk is left over after one per worker the chunk size is doubled. Proved: the chunk is at most twice the grain."
  },
  {
   "property": "C46",
   "status": "proved",
   "theorems": [
    "umpmc_linearizable",
    "umpmc_no_loss_no_dup",
    "umpmc_push_succeeds",
    "umpmc_one_producer",
    "umpmc_one_consumer",
    "umpmc_subqueue_ready",
    "umpmc_solo_ends",
    "umpmc_can_complete",
    "umpmc_nonblocking_refuted",
    "umpmc_strict_pop_refuted"
   ],
   "note": "Sub-queues are atomic FIFO lists (the SPSC queue of C07); exclusive access to them is proved. Counters are unbounded naturals, memory is sequentially consistent. Findings: push and pop are not nonblocking (a thread stalled between taking its ticket and publishing blocks the others), and pop can report empty after a push has completed while an earlier one is in progress."
  },
  {
   "property": "C47",
   "status": "proved",
   "theorems": [
    "net_channels_fifo",
    "net_pushes_follow_code",
    "net_one_mark",
    "net_ends_after_inputs",
    "net_no_deadlock",
    "net_terminates",
    "net_terminates_bounded",
    "net_stuck_is_idle",
    "net_final_channels",
    "net_final_items",
    "net_cycle_no_deadlock_refuted",
    "net_early_stop_refuted"
   ],
   "note": "The two refuted claims show that the conditions are needed: a cycle of bounded channels deadlocks, and a node that returns EOS early leaves its producer waiting for ever on a full bounded channel."
  },
  {
   "property": "C48",
   "status": "proved",
   "theorems": [
    "a2a_wiring",
    "a2a_directed_delivery",
    "a2a_exchange",
    "a2a_ends_last",
    "a2a_alone_completes"
   ],
   "note": "Wiring of all2all.hpp prepare; delivery inside any network; completion for the all-to-all alone (sources on the left, sinks on the right) and, inside a larger acyclic network, by net_no_deadlock/net_terminates of C47. Wrap-around (feedback) of the all-to-all is covered only by the general theorems of C47."
  },
  {
   "property": "C49",
   "status": "proved",
   "theorems": [
    "mw_results",
    "mw_completes",
    "mw_terminates",
    "mw_workers_end_after"
   ],
   "note": "Workers return one result per task; the emitter has no input stream besides the feedback. The channel numbers the emitter observes after a worker has been removed from its list (lb.hpp:1040) are not modelled."
  },
  {
   "property": "C50",
   "status": "partial",
   "theorems": [
    "opt_level1_exact",
    "opt_level2_partial",
    "opt_options_partial",
    "opt_node_between_refuted",
    "opt_merge_pipes_refuted",
    "opt_null_collector_refuted",
    "opt_comb_emitter_refuted",
    "opt_a2a_loop_refuted",
    "opt_ordered_merge_refuted",
    "opt_chooser_refuted"
   ],
   "note": "OptLevel1 is proved in full: it always ends with a result which delivers exactly the streams of the original. OptLevel2 and the other option sets without introduce_a2a: every stream delivered by the result could be delivered by the original (and conversely when farms are not merged). Missing: introduce_a2a; and level 2 does not always succeed - the refutations give well-formed pipelines on which it crashes, aborts, loops forever or returns a pipeline that refuses to start."
  },
  {
   "property": "C51",
   "status": "partial",
   "theorems": [
    "dgr_delivery_partial",
    "dgr_complete_partial",
    "dgr_terminates_partial",
    "dgr_stops_last_partial",
    "dgr_ends_partial",
    "dgr_unacknowledged_bounded",
    "dgr_anonymous_refuted",
    "dgr_eos_to_refuted",
    "dgr_eos_to_one_refuted",
    "dgr_empty_value_refuted",
    "dgr_end_stops_refuted"
   ],
   "note": "Proved for all graphs, groupings, batch parameters and schedules when no value serializes to nothing, no end of stream is addressed to one output, and, in acknowledgement mode, the sending nodes of a group share their connections; each of the three restrictions is necessary (refutations). Not covered: feedback, groups of several processes of one level talking to themselves."
  },
  {
   "property": "C52",
   "status": "partial",
   "theorems": [
    "wire_succeeds",
    "wire_channels",
    "wire_succs_preds",
    "wire_one_to_one",
    "wire_network",
    "wire_no_deadlock",
    "wire_terminates",
    "wire_ordered_refuted"
   ],
   "note": "Proved for pipelines whose ordered farms have a collector (ff_OFarm adds one). Refuted for a farm made ordered with set_ordered() and no collector: the stages fit but the pipeline is refused (wire_ordered_refuted). Nested pipelines and feedback channels (wrap_around) are in C69-C71."
  },
  {
   "property": "C53",
   "status": "proved",
   "theorems": [
    "acc_as_stream",
    "acc_complete",
    "acc_offload_no_deadlock",
    "acc_load_no_deadlock",
    "acc_threads_stop",
    "acc_threads_idle",
    "acc_returns",
    "acc_pipeline",
    "acc_pipeline_ok",
    "acc_false_is_eos_refuted",
    "acc_bounded_output_refuted",
    "acc_limit_returns"
   ],
   "note": "Non-blocking mode, one stream. The internal network is any acyclic network of NetModel.v; the two ends of the calling thread are moved only by the calls. acc_false_is_eos_refuted: with a finite number of attempts, false does not imply EOS as the comment of load_result says. acc_bounded_output_refuted: without the forced unbounded output buffer, offloading a stream before loading deadlocks."
  },
  {
   "property": "C54",
   "status": "proved",
   "theorems": [
    "blk_fifo",
    "blk_delivers",
    "blk_producer_sleeps",
    "blk_signals_suffice_refuted"
   ],
   "note": "W producers, one polling consumer; atomic channels (C01, C02). blk_signals_suffice_refuted: with untimed waits a fair schedule leaves the consumer asleep with messages in its channel (signal sent without the mutex, and only when empty() was sampled true)."
  },
  {
   "property": "C55",
   "status": "partial",
   "theorems": [
    "ser_roundtrip",
    "ser_too_long_crashes",
    "ser_any_length_refuted",
    "ser_zero_initial_crashes"
   ],
   "note": "Proved for every sequence of values of at most 2 GiB each; longer values crash (refuted), as does an initial size of zero."
  },
  {
   "property": "C56",
   "status": "partial",
   "theorems": [
    "msg_proper",
    "msg_no_leak",
    "msg_can_drain",
    "msg_right_way_partial",
    "msg_hook_size_refuted",
    "msg_lender_refuted"
   ],
   "note": "Exactly-once release and no leak for every execution; the means of release for serializers whose lent bytes come with a hook and hooked payloads up to the single-send threshold; refuted beyond."
  },
  {
   "property": "C57",
   "status": "proved",
   "theorems": [
    "utso_delayed_fifo",
    "utso_nothing_lost",
    "utso_popped_prefix_of_pushed",
    "utso_on_the_way",
    "utso_drains",
    "utso_no_use_after_free",
    "utso_push_wait_free",
    "utso_pop_wait_free",
    "utso_immediate_refuted"
   ],
   "note": "The two inner rings and the segment list are modelled at the level of their publishing stores (C02 treats the ring itself on TSO, C09 the list). The claim that a pop sees every push that returned is false without a fence: utso_immediate_refuted."
  },
  {
   "property": "C58",
   "status": "partial",
   "theorems": [
    "re_separate",
    "re_order",
    "re_no_deadlock",
    "re_terminates",
    "re_complete",
    "re_early_stop_refuted"
   ],
   "note": "Full for nodes that read their whole input and acyclic networks. The claim for nodes that return EOS early is false (re_early_stop_refuted). Missing: running the next time with fewer workers, networks with feedback, EOS_NOFREEZE; that a thaw restarts each thread exactly once is C21."
  },
  {
   "property": "C59",
   "status": "partial",
   "theorems": [
    "poll_order",
    "poll_never_stuck",
    "poll_ends",
    "poll_fair",
    "poll_queue",
    "poll_terminates",
    "poll_ids_partial",
    "poll_null_partial",
    "poll_inactive_hangs",
    "poll_ids_refuted",
    "poll_sides_refuted",
    "poll_null_refuted"
   ],
   "note": "Order, end, fairness and termination are proved in full. The channel number is right only until a worker's channel is removed from the polled list (always right when the workers freeze): poll_ids_refuted and poll_sides_refuted give runs where worker 2 is reported as worker 1 and a value of the previous stage as a worker's answer. An emitter with input channels only that switches input off is never called again (poll_inactive_hangs, poll_null_refuted). The manager channel is not modelled."
  },
  {
   "property": "C60",
   "status": "partial",
   "theorems": [
    "comb_gather_partial",
    "node_gather_partial",
    "comb_gather_grouping_partial",
    "comb_gather_refuted"
   ],
   "note": "Proved for a multi-input first node and any tree, and for a standard first node when the left part of the outer combination is a node. For combine_nodes(combine_nodes(a,b),c) as a farm's collector with a standard node a, c is told the end of stream once per worker, before its input is complete (comb_gather_refuted). Nodes that return EOS early are not covered."
  },
  {
   "property": "C61",
   "status": "partial",
   "theorems": [
    "all_gather_rows_partial",
    "all_gather_ends_partial",
    "all_gather_no_loss_partial",
    "all_gather_result_partial",
    "all_gather_ends_refuted",
    "all_gather_emitter_ends_refuted",
    "all_gather_marks_refuted",
    "all_gather_feedback_refuted"
   ],
   "note": "Proved for channels without feedback: rows and termination for streams of equal length, no loss and meaning of the result for any streams. Refuted: with streams of different lengths the collector waits for ever for a channel that ended inside an earlier call, the emitter never ends, the emitter's array may contain the mark with result 0; with feedback channels a channel is read twice and another skipped."
  },
  {
   "property": "C62",
   "status": "partial",
   "theorems": [
    "pfint_ceil_partial",
    "pfint_setup_partial",
    "pfint_workers_partial",
    "pfint_sched_partial",
    "pfint_sequential_partial",
    "pfint_ceil_refuted",
    "pfint_cover_refuted",
    "pfint_no_overflow_refuted"
   ],
   "note": "No overflow and exact counts under an explicit, sufficient condition on the range (fits64), for grain >= 0. Unrestricted claims refuted: 2^53+1 iterations lose an index, a grain of LONG_MAX overflows. Static loops with a grain (C24) are not covered."
  },
  {
   "property": "C63",
   "status": "proved",
   "theorems": [
    "tnet_refines",
    "tnet_never_null",
    "tnet_channels_fifo",
    "tnet_pushes_follow_code",
    "tnet_one_mark",
    "tnet_ends_after_inputs",
    "tnet_no_deadlock",
    "tnet_stuck_is_idle",
    "tnet_terminates",
    "tnet_final_channels",
    "tnet_final_items"
   ],
   "note": "The network of C47 with each push and pop taken apart into its loads and stores, a store buffer per thread, and items as objects in memory. Unbounded channels are arrays without end (the chain of rings on TSO is C57); a broadcast sends one object per channel."
  },
  {
   "property": "C64",
   "status": "partial",
   "theorems": [
    "search_all_partial",
    "search_all_no_deadlock",
    "search_steps_bounded",
    "search_all_twice_refuted",
    "search_all_claim_refuted",
    "search_one_partial",
    "search_one_hang_refuted",
    "search_one_abort_refuted",
    "search_one_claim_refuted",
    "search_one_worker_partial",
    "search_one_not_found_partial"
   ],
   "note": "The search for all results is exact, does not block and ends, except that results are repeated when the start node is its own successor or has a successor twice (refuted without that condition). The search for one result is right when it returns, and returns when there is no match; with a match it blocks for ever on some graphs under every schedule with two or more workers, or stops at the assertion in absorb_eos (refuted)."
  },
  {
   "property": "C65",
   "status": "partial",
   "theorems": [
    "pool_evolution_phase",
    "pool_svc",
    "pool_result_unique",
    "pool_degree_irrelevant",
    "pool_svc_completes",
    "pool_stream_partial",
    "pool_stream_refuted",
    "pool_keeps_partial",
    "pool_keeps_refuted"
   ],
   "note": "svc computes the sequential algorithm for every interleaving of the element accesses. Refuted: the population is replaced, not extended as documented (P += f(N,P)); populations of a stream share the environment."
  },
  {
   "property": "C66",
   "status": "partial",
   "theorems": [
    "min_told",
    "min_told_all",
    "min_end_notified",
    "min_first_call_partial",
    "min_first_call_refuted",
    "min_from_input_refuted"
   ],
   "note": "The channel numbers of messages and of notifications are proved for every run, and when eosnotify() is called without argument (min_end_notified). The call without a task reports -1 only in the first run (min_first_call_partial); in a later run it reports the channel read last by the previous one (min_first_call_refuted), and without feedback channels fromInput() is true in it (min_from_input_refuted). Not modelled: output of svc, waiting for the end of a run."
  },
  {
   "property": "C67",
   "status": "partial",
   "theorems": [
    "ffq_fifo",
    "ffq_safe",
    "ffq_visible",
    "ffq_dequeue_returns",
    "ffq_prepare_returns_partial",
    "ffq_prepare_hangs",
    "ffq_prepare_returns_refuted"
   ],
   "note": "Order, content, emptiness and memory safety are proved for bucket sizes of at least 8 bytes. enqueue_prepare returns for sizes that fit into the bucket it asks for (ffq_prepare_returns_partial); for a size that is not a multiple of 8 and exceeds the bucket size less 16 bytes it never returns (ffq_prepare_hangs, ffq_prepare_returns_refuted). Not modelled: destructor, failing allocation, size_t overflow."
  },
  {
   "property": "C68",
   "status": "proved",
   "theorems": [
    "vtso_linearizable",
    "vtso_no_loss_no_dup",
    "vtso_alone_exact",
    "vtso_never_blocks",
    "vtso_relaxed_refuted"
   ],
   "note": "Proved for every schedule and every drain of the store buffers. The stronger guarantee that C10 gives under sequential consistency is refuted on TSO (vtso_relaxed_refuted)."
  },
  {
   "property": "C69",
   "status": "partial",
   "theorems": [
    "wrap_succeeds",
    "wrap_succs_preds",
    "wrap_channels_partial",
    "wrap_one_to_one_partial",
    "wrap_network_partial",
    "wrap_stuck_is_idle_partial",
    "wrap_channels_refuted",
    "wrap_lost_channel"
   ],
   "note": "Proved for every accepted pipeline unless its last stage is a farm with a multi-output collector; there the feedback channel is written by nobody (wrap_channels_refuted, wrap_lost_channel). Running: with unbounded feedback channels no thread is blocked for ever by a full channel (wrap_stuck_is_idle_partial). Not modelled: nested pipelines, a farm's or all-to-all's own wrap_around, blocking mode; an ordered farm without collector is excluded as in C52 (wire_ordered_refuted)."
  },
  {
   "property": "C70",
   "status": "partial",
   "theorems": [
    "farm_feedback_iff",
    "farm_feedback_partial",
    "farm_replaced_collector",
    "farm_feedback_refuted",
    "farm_accepts",
    "farm_wrap_twice"
   ],
   "note": "Refuted in full: setlb() or set_ordered() after wrap_around() on a farm without collector silently drops the feedback (the move of the load balancer forgets master_worker), and a user collector added in place of the one present at wrap_around() writes through a null pointer (standard) or nowhere (multi-output). farm_feedback_iff says exactly when the promised feedback is there; farm_feedback_partial: always when wrap_around() is the last configuration call. Not modelled: accelerators, parallel workers, setgt, set_ordered() after remove_collector(); an all-to-all's wrap_around is C71. farm_accepts: exactly which sequences of configuration calls are accepted; farm_wrap_twice: a second wrap_around() is refused."
  },
  {
   "property": "C71",
   "status": "partial",
   "theorems": [
    "a2a_accepts",
    "a2a_channels_partial",
    "a2a_forward_iff",
    "a2a_channels_refuted",
    "a2a_mixed_dead_channel"
   ],
   "note": "Proved for sets whose nodes are of one kind each, with and without wrap_around(). Refuted for mixed sets: prepare() looks at the first node only, so a standard node after a multi-output one is accepted and left without channels, and a node of the other set waits on a channel that nobody writes; a2a_forward_iff says exactly which mixed sets work without feedback. Not modelled: pipelines inside the sets, an all-to-all inside another structure (C52, C69)."
  },
  {
   "property": "C72",
   "status": "partial",
   "theorems": [
    "taskf_wait_partial",
    "taskf_finite",
    "taskf_progress_partial",
    "taskf_one_round",
    "taskf_again_refuted",
    "taskf_empty_ub"
   ],
   "note": "Refuted in full: (1) taskf_again_refuted: wait() waits for the scheduler's thread only; a worker still asleep when the next run() thaws it again loses one of the two thaws, reads the GO_OUT of the round before, sleeps, and the second wait() never returns; (2) taskf_empty_ub: run_then_freeze() with no task runs the scheduler with no worker, which is undefined behaviour. Proved for all schedules: exactly once and before wait() returns (taskf_wait_partial, all rounds using at least one worker), no infinite schedule (taskf_finite), no deadlock unless a thaw was lost (taskf_progress_partial), and complete for one round (taskf_one_round). Simplified: the scheduler may serve its channels in any order; lock-protected parts of the freezing protocol are single steps; the ring of task descriptors is C34."
  },
  {
   "property": "C73",
   "status": "partial",
   "theorems": [
    "bb_sound",
    "bb_innermost_partial",
    "bb_composed_emitter",
    "bb_nested_comb",
    "bb_ordered_aborts",
    "bb_innermost_refuted"
   ],
   "note": "Refuted in full: a node of a composed emitter or collector is not found (null), a composition that is a part of a composition is returned as its own container, and a search that meets an ordered farm calls abort() even if the node is elsewhere. Proved: the block returned always contains the node or is the node (bb_sound, no hypothesis), and the whole promise for graphs without ordered farms and composed emitters or collectors, for nodes that are not nested compositions (bb_innermost_partial). A pointer is a number; every node occurs once in the graph."
  },
  {
   "property": "C74",
   "status": "partial",
   "theorems": [
    "change_node_partial",
    "change_node_once_partial",
    "change_node_absent",
    "change_pipe_leaks",
    "change_farm_deletes_both",
    "change_farm_filter_lost",
    "change_comb_nested_refused",
    "change_node_refuted"
   ],
   "note": "Proved for every block that does not delete all its stages or workers by flag, emitters and collectors replaced by sequential nodes and not taken back when owned, and compositions that are not nested; refuted otherwise, with the general outcome of each exception. Before prepare only."
  },
  {
   "property": "C75",
   "status": "partial",
   "theorems": [
    "flags_partial",
    "flags_one_digit",
    "flags_other_kernel",
    "flags_missing",
    "flags_refuted"
   ],
   "note": "Exact for every command in the format: the last kernel whose number starts with the digits asked for is read. So the claim holds when no later kernel's number starts with the same digits (for example one-digit numbers) and is refuted otherwise. The tables from device names to nodes are not modelled."
  },
  {
   "property": "C76",
   "status": "partial",
   "theorems": [
    "laststage_partial",
    "firststage_partial",
    "combine_refused",
    "laststage_default_collector",
    "laststage_refuted"
   ],
   "note": "Proved for every pipeline whose end (beginning) is suited: no default collector at the end, workers alike, each suited in turn. A refused call changes no path, for every pipeline. Refuted in general: a failure for a worker other than the first is lost and 0 is returned. Ownership of the nodes is not modelled."
  },
  {
   "property": "C77",
   "status": "partial",
   "theorems": [
    "combine_farms_partial",
    "combine_farms_accepted",
    "combine_farms_ordered_first",
    "combine_farms_ordered_accepted",
    "combine_farms_ordered_aborts",
    "combine_farms_ordered_refused",
    "combine_farms_node2_lost",
    "combine_farms_refuted"
   ],
   "note": "Proved for every accepted call but one case: node1 null, node2 given and mergeCE true, where node2 is dropped (combine_farms_node2_lost, combine_farms_refuted). The hypothesis on ordered farms (no own collector in farm1, no own emitter in farm2) is needed only for the sequence statement; combine_farms_ordered_first covers the others when farm1 is ordered, and combine_farms_ordered_aborts shows that a standard node as farm2's emitter aborts there. Ownership, buffers and scheduling options are not modelled."
  },
  {
   "property": "C78",
   "status": "partial",
   "theorems": [
    "nodes_in_pipeline_sequence",
    "nodes_in_pipeline_partial",
    "nodes_in_pipeline_a2a",
    "nodes_in_pipeline_null",
    "nodes_in_pipeline_standard_emitter",
    "nodes_in_pipeline_refuted",
    "nodes_in_pipeline_pipe_lost"
   ],
   "note": "Proved for every pipeline given back on the documented stages, and acceptance for the suited ones. The full claim is refuted: a farm with its own collector followed by a farm without an emitter is undefined behaviour, with an emitter that is a standard node it aborts, and a pipeline next to a farm is left out silently. Ownership is not modelled."
  },
  {
   "property": "C79",
   "status": "partial",
   "theorems": [
    "combine_owner_partial",
    "combine_owner_nothing",
    "combine_owner_twice",
    "combine_owner_node1",
    "combine_owner_leak",
    "combine_owner_refuted"
   ],
   "note": "Proved for every accepted call but three cases, each shown wrong for all farms: node2 only without mergeCE deletes farm1's workers twice; node1 only with mergeCE lets farm2 delete node1 when it has the emitter flag and no emitter; an ordered farm1's own collector is never deleted when farm2 has no emitter. Farms whose collector was removed before the call are not modelled."
  },
  {
   "property": "C80",
   "status": "partial",
   "theorems": [
    "pipeline_owner_partial",
    "pipeline_owner_leak",
    "pipeline_owner_node",
    "pipeline_owner_ordered",
    "pipeline_owner_refuted"
   ],
   "note": "Proved for every accepted call on farms without flags for filters they do not have, but two cases shown wrong: a node given with cleanup before a farm without an emitter is never deleted; an ordered first farm given with cleanup has all its nodes deleted, owned or not, and is itself not deleted by the pipeline. With a flag for a missing filter the caller's node is deleted (pipeline_owner_node)."
  }
 ]
}