# Formal model of fastflow — design

Source modelled: `/repo` (fastflow/fastflow, pinned commit), read as text, never built.
Prover: Rocq / Coq 8.16.1.  Layout: `rocq/theories/<Component>Model.v` (definitions only, each
citing file and lines), `<Component>Proofs.v` (lemmas), `<Component>Props.v` (the property
theorems, their non-vacuity examples and `Print Assumptions`).

## Modelling conventions

* **Sequential code** is a total computable function on an explicit state.  Undefined behaviour
  (out-of-bounds access, NULL dereference, failed `assert`) is a distinct outcome.
* **Concurrent code** is a small-step relation/function: every shared-memory load, store, CAS,
  exchange or fetch-add is one atomic step of one thread, thread-local computation is merged
  into the adjacent step.  A schedule is an arbitrary list of thread choices; theorems are
  proved for all reachable states by an inductive invariant.  Default memory model: sequential
  consistency; `SpscTso` uses explicit per-thread FIFO store buffers.
* **History (ghost) variables** (`pushed`, `popped`, ...) record the API-visible events only, and
  no step depends on them.
* Pointers to user data are opaque values; NULL is the only distinguished one.
* A property found false of the faithful model is kept in `properties.jsonl`, refuted by a
  theorem `..._refuted` with a concrete witness, and the true part is proved as `..._partial`.

## Plan per property

| id | model | method |
|----|-------|--------|
| C01 | interleaving model of push/pop of the NULL-slot ring | invariant: slots between indices hold pushed-minus-popped |
| C02 | same program with TSO store buffers, plus payload memory | invariant over buffered stores |
| C03 | sequential ring + concurrent failure clause | refinement to bounded list queue |
| C04 | sequential ring | refinement |
| C05 | multipush on the ring | expected false (write index update); refutation + special case |
| C06 | Lamport ring, interleaving | invariant; length refuted by witness |
| C07 | interleaving of segment-level operations | invariant over chain of segments |
| C08 | sequential unbounded queue | refinement; length after reset refuted |
| C09 | heap-of-nodes list queue with node cache, SPSC interleaving | list-segment invariant |
| C10 | Vyukov queue, N threads | ticket invariant |
| C11 | MS queue, N threads | list-segment invariant |
| C12 | sequential model of ticket + subqueues | refutation |
| C13 | CLH / TAS, N threads | queue invariant |
| C14 | two-counter barrier, N threads | round-counting invariant |
| C15 | emitter/workers/collector network over FIFO channels | invariant over round-robin projections |
| C16 | reorder stage as function of completion order | induction |
| C17 | farm network | multiset invariant |
| C18 | chain of nodes over bounded channels | invariant + progress |
| C19 | gatherer loop | induction over arrival list; mixed kinds refuted |
| C20 | scheduling function over fill states | induction |
| C21 | controller/worker handshake with mutex + condvar | invariant |
| C22 | init_data arithmetic + CAS work stealing, N workers | coverage invariant |
| C23 | init_data_static arithmetic | arithmetic induction over workers |
| C24 | as C23, chunk<0 | refutations + proved sub-case |
| C25 | reduction over arbitrary assignment | commutative-monoid fold lemma |
| C26 | chunked deque | refinement; refutations |
| C27 | static linked list | refinement |
| C28 | svector | refinement; insert refuted |
| C29 | bucket array of chains | refinement to map; count refuted |
| C30 | slab cache with segments | ownership invariant |
| C31 | address arithmetic + back-pointer words | arithmetic; realloc refuted |
| C32 | slot table | invariant |
| C33 | dependency graph scheduler | invariant + progress; self-dependency refuted |
| C34 | ring of descriptors + channel | refutation, and sufficient condition |
| C35 | list padding | lemma; non-power-of-two refuted |
| C36 | index arithmetic | refutation + square case |
| C37 | batch encoder/decoder | round-trip; three refutations |
| C38 | receiver buffer bookkeeping | refutation |
| C39 | partial-transfer loops with oracle | induction |
| C40 | retry loops | refutation for Pop |
| C41 | comb dispatch | induction on stream |
| C42 | word arithmetic | arithmetic; truncation refuted |
| C43 | recursion as a small-step abstract machine + scheduler tables | simulation, ownership invariant, termination measure |
| C44, C45 | parallel_for arithmetic | case analysis; refutations |
| C46 | ticket queue over SPSC sub-queues, N threads | ticket invariant, linearization |
| C47 | network of nodes over FIFO channels, any topology | invariant; lexicographic measure; induction along full channels |
| C48 | channels built by the all-to-all, inside C47's network | list positions; corollaries of C47 |
| C49 | emitter and workers with feedback, instance of C47's network | counting argument on idle states |
| C50 | the optimiser as a function on skeleton trees; denotational meaning of skeletons as a separate specification | refinement per rewrite, congruence for nesting, induction on the passes |
| C51 | groups with sender, batches, connections, router, wrapped nodes; arbitrary user nodes | message-level invariant (each value is in exactly one place, in order); measure for draining |
| C52 | heap of buffer pointers and neighbour lists; the sixteen cases of ff_pipeline::prepare and the prepare of farms and all-to-alls, for any list of stages | invariant on the built prefix giving each boundary and each stage its own range of channels; explicit numbering, injective; acyclic order of the threads gives C47 |
| C53 | any acyclic network whose two ends are moved by the calls of the caller (offload, load_result, load_result_nb with their retry counts) | simulation by the stream network of C47 for every list of values still to come; then deadlock freedom, termination and complete runs of C47; pipelines of transducers by induction on the stages |
| C54 | W producers and a polling consumer, each with its program counter: sample of empty(), push, signal, wait, time-out | safety by invariant; delivery by a measure each thread's turns lower until a push or pop happens, for every fair infinite schedule |
| C55 | the growing buffer as a block of bytes, a capacity and a position; the int in pbump | induction over the bytes written, then over the values; outcome None for a write outside the block |
| C56 | messages with their fields and whereabouts, the pool, the reuse slots; every action one thread does to one message; a log of births, uses and releases | invariant tying each open resource to exactly one travelling message; the log is then proper, complete when quiet |
| C57 | the unbounded channel on x86-TSO: a FIFO store buffer per thread, every store of push, pop and of the segment pool as one entry, draining as an action of its own; payload writes and reads; freed segments | invariant over memory and both buffers: each segment is owned exactly once, counted over memory and pending stores; buffer predicates stable under draining; then a delayed queue, drainable; witness for the refuted immediate visibility |
| C58 | the networks of C47 plus, per thread, the number of the run it is in; a thread that ended may begin its next run at any time | invariant: the state is the concatenation of one separate execution per run (simulation quantified over the states nodes not yet started may begin with); deadlock freedom from the oldest run; measure for termination |
| C59 | the emitter's polling loop turn by turn, with removal of ended channels, input switched off, and the user's reactions as an oracle (PollModel) | invariant over all interleavings (history of each channel, marks read, list of polled channels); distance to a channel for fairness; messages waiting for termination; witnesses for the wrong channel numbers |
| C60 | ff_comb::eosnotify with its counters, run by the gatherer on any order of items and ends of channels (GcModel, on top of CombModel) | induction on the tree: item by item meaning equals the stream of the first node fed to the chain of the others; witness for the collector |
| C61 | ff_gatherer::all_gather and ff_loadbalancer::all_gather as two loops interleaved with the producers; the main loop reads any channel that has a message (AgModel) | invariant relating what each channel gave to the rows already returned and to the retry list; measure for termination; witnesses for the four wrong cases |
| C62 | setloop, sendTask, nextTask, nextTaskConcurrent and the loop of the body with 64-bit longs (overflow is a distinct outcome) and the two ceilings computed in doubles (PfIntModel, over ParForModel) | the checked functions agree with the unbounded ones in every reachable state, by an invariant: cells with tasks lie within the range; rounding of doubles by division lemmas |
| C63 | the network of NetModel with every push and pop taken apart into slot loads and stores, a FIFO store buffer per thread, items as objects in memory owned by one thread or channel at a time (TNetModel) | forward simulation to NetModel (per channel: pushes and clears that reached memory; per object: only its owner has buffered stores to it); stuck states are stuck in NetModel; lexicographic measure |
| C64 | emitter, workers, feedback channels, mask, counter and flag of one search, down to the reads of the flag and the marks absorbed at the end (GsModel) | counting invariants: every node sent is in one place (channel, worker, emitter, done); the counter is the number of nodes in flight; closure of the nodes looked at; decreasing measure; separate invariant for the search that hangs |
| C65 | svc of the pool with arbitrary user functions; the evolution phase as any interleaving of the reads and writes of single elements by the workers of a static loop (PoolModel, on ParForModel) | exact block sizes of the static loop; induction over the interleaving with what each worker still has to do; big-step loop against a fuelled sequential algorithm, both directions |
| C66 | the loop of the gatherer with feedback channels, the channel number, eosnotify and the call without a task (MinModel, messages of GatherModel) | invariant: per channel, the calls made plus the calls due to what is still to come are the calls due to its content |
| C67 | the queue at the level of words of memory in buckets, TSO store buffers of both threads, allocation, free and writes of other threads to memory that is not allocated (FfqModel) | invariant: in every version of the memory, from now until the producer's store buffer is empty, the words from the consumer's position spell a prefix of the logical content; the buckets still to be read are a suffix of the producer's chain |
| C68 | the Vyukov queue of C10 with a store buffer per thread; compare-and-swap needs an empty buffer (VtsoModel) | the array through the work in flight: a job per thread, read off its oldest buffered store or its program point; five events of the array; views grow with memory; specification with *unseen* operations (VtsoSpec) |
| C69 | prepare_wraparound before the loop that connects the stages of C52, the feedback lists, their place in the inputs and outputs of a node (WrapModel, on WireModel) | the pairs (last, first) that fit, case by case, give the same *bundle* of channels as two adjacent stages; simulation: the rest of prepare does what it does without wrap_around, with the channels renumbered |
| C70 | the configuration calls of a farm as a list, wrap_around among them, and the part of prepare that creates the workers' channels (FwrModel) | invariants over the call list; exact condition for the promised feedback; the unconditional claim refuted |
| C71 | ff_a2a::prepare on its own: the feedback of wrap_around(), the transformers, the loop over all pairs, for any list of node kinds (AwModel) | closed forms of the loops by induction; channel numbering; mixed sets refuted with an exact condition |
| C72 | ff_taskf over any number of rounds: user's thread, scheduler, workers, freezing and thawing of threads (TkfModel) | invariant counting messages, tasks and pending thaws; decreasing measure bounding every schedule; no deadlock unless a thaw is lost; lost thaw and empty round as refutations |
| C73 | getBB over trees of building blocks (BbModel) | induction over the tree; soundness with no hypothesis; exactness under conditions; three refutations |
| C74 | change_node of the four building blocks and their destructors (ChnModel) | counting of deletions over lists; exactness under conditions on ownership; general findings where the flags conflict |
| C75 | extractFlags and getDeviceID on command strings (FlgModel) | the printed format is parsed back: exact result for every command; refuted when one kernel's number starts another's |
| C76 | combine_with_laststage, combine_with_firststage and their helpers over nested blocks (CwsModel) | induction on the nesting; the paths of items before and after; refusals change nothing; one refutation |
| C77 | combine_farms, combine_farms_a2a, combine_farms_nf, combine_ofarm_farm (CfmModel) | cases; the paths of items through the result against the documentation; one refutation |
| C78 | combine_nodes_in_pipeline (CnpModel) | cases; the paths of items through the result against the two stages in sequence; one refutation |
| C79 | the cleanup flags in combine_farms and its helpers, change_emitter, the farm destructor (CfoModel) | cases on the flags, multisets of deletions; three wrong cases |
| C80 | the cleanup flags and arguments in combine_nodes_in_pipeline (CnoModel) | cases on the flags, multisets of deletions; three wrong cases |

## Trusted base

* Coq's kernel (8.16.1).
* Axioms: none.  Every `*Props.v` file ends with `Print Assumptions` for each of its theorems, and
  each one prints "Closed under the global context".  `coqchk` lists no axiom of ours.
* The hand translation from C++ to Gallina.  Every definition cites the file and lines it models
  and states its simplifications.  Nothing checks this translation mechanically.
* Memory: sequentially consistent interleavings of single accesses, except C02, C57 and C63 (TSO store buffers).
  Compiler reordering, data races on plain fields, and weaker hardware models are outside.
* Machine words: unbounded integers unless the property is about them (C32, C42 and the explicit
  `mod` in the rings).  Ticket counters do not wrap (C10, C46).
* `malloc` never fails and returns any address not in use.
* The properties are layered: a component that uses another takes it as an atomic object with the
  specification proved for it (for example C07 uses the ring of C01/C03, C17/C18/C47 use channels
  with the behaviour of C01, C03, C07, C08).  This composition is by statement, except for networks of
  nodes over channels, where C63 proves it for the composed code (bounded rings, TSO).

## What is modelled, and what is not

| file in /repo/ff | modelled | not modelled |
|---|---|---|
| buffer.hpp | SWSR ring push/pop/empty/available/length/reset/multipush; Lamport ring | mpush/flush of the batching mode, init failure paths |
| ubuffer.hpp | push/pop with segment pool, empty, length, reset; push/pop and segment pool on x86-TSO (C57) | uSWSR_MULTIPUSH, changesize, locked mp_push/mc_pop; on TSO: fixedsize, reset, length; inner queues at the level of their publishing stores; compiler reordering of the plain buf_w; re-use of a pushed address |
| dynqueue.hpp, dynlinkedlist | mp_push/mp_pop with node cache | STRONG_WAIT_FREE and NO_CACHE builds |
| staticlinkedlist.hpp | both variants | - |
| MPMCqueues.hpp | bounded (Vyukov), MSqueue, scalable queue, multiSWSR, unbounded uMPMC | wrap-around of 64-bit tickets; memory orders, except for the bounded queue (C68: TSO) |
| spin-lock.hpp, barrier.hpp | CLH, TAS/ticket-free locks, spin barrier, cond barrier | pthread_barrier wrapper |
| node.hpp | thread loop, freeze/thaw handshake, push/pop/Push/Pop, blocking mode (C54) | thread creation and cancellation, CPU affinity, timing, callbacks |
| lb.hpp | scheduling, send_to, broadcast, emitter loops, removal of workers from the polled list (C59), all_gather (C61) | manager channel; absorb_eos only in C64 |
| gt.hpp | polling, end of stream accounting, loop, all_gather (C61), channel numbers told to the filter (C66) | timed gathering |
| farm.hpp, pipeline.hpp, all2all.hpp | the running networks (C15-C18, C47-C49); prepare and the buffers it creates (C52), with wrap_around() of a pipeline (C69) and of a farm (C70) and an all-to-all (C71); offload and load_result (C53); repeated runs (C58) | nested pipelines with wrap_around, cardinality code, who shares which condition variable (C54 takes one per consumer) |
| optimize.hpp | optimize_static of pipelines and farms, OptLevel1/2 (C50); combine_with_firststage, combine_with_laststage (C76) | blocking/queue/mapping options, ownership in the combine_with_* helpers; introduce_a2a is modelled but only its loop is judged |
| ordering_policies.hpp | on-demand ordered farm | all_gather |
| combine.hpp | ff_comb of standard nodes (C41), behind several channels (C60); combine_farms and its helpers (C77); combine_nodes_in_pipeline (C78) | combinations ending in a multi-output node, source nodes; buffers and scheduling in combine_farms; ownership only for combine_farms and combine_nodes_in_pipeline (C79, C80) |
| parallel_for*.hpp | loop partition, work stealing, static, grain, reduce, one-shot | thread pinning; 64-bit overflow (C62) is not modelled for a static loop with a grain |
| mdf.hpp, task_internals.hpp, taskf.hpp, icl_hash.h | dependency scheduler, descriptor rings, hash table; task farm rounds with freezing (C72) | throttling, icl_hash foreach over a changing table |
| dc.hpp | divide and conquer end to end | cost-based scheduling order (left open) |
| allocator.hpp, staticallocator.hpp | slab caches, malloc/free/realloc/memalign, cross-thread frees; static slots | ffa_wrapper, thread registry, statistics |
| stencilReduce.hpp | stencil2D index arithmetic and sweep | reduction variable, GPU code |
| squeue.hpp, svector.hpp, utils.hpp, mapper.hpp | all operations used | string parsing of the mapping |
| distributed/ | batch framing, receive buffers, readn/writen loops; routing, batching, acknowledgements and end of stream between groups (C51); serialisation buffer (C55); ownership of messages and payloads, message pool (C56) | connection set-up, MTCL itself, serialization archives |
| gsearch.hpp | a search for one or all results (C64) | use as a pipeline stage, the destructor |
| poolEvolution.hpp | svc, single run and stream (C65) | threadPause, start of the thread |
| ff_queue.hpp | all of ff_queue (C67) | destructor, failing allocation |
| graph_utils.hpp | getBB (C73) | the one-line tests on kinds of nodes |
| bitflags.hpp, repara/rprkernels.hpp | extractFlags, the device name in getDeviceID (C75) | the rest of rprkernels.hpp |
| pipeline.hpp, farm.hpp, all2all.hpp, combine.hpp (change_node and destructors) | C74, before prepare | the filters held by load balancer and gatherer, the abort on a composed emitter that is not multi-output |
| not touched | - | fftree, map.hpp, tpcallocator, cuda/opencl files |

## Findings

Behaviours of the code that contradict what the API promises.  Each has a theorem `..._refuted`
(the claim is a definition just above it) with a concrete witness.

* **Channels.** multipush advances the write index by last+1 instead of setting it
  (`spsc_multipush_refuted`, `spsc_multipush_oob_refuted`).  reset(true) writes outside rings
  shorter than a cache line (`spsc_reset_lineend_refuted`).  Lamport length() is wrong when empty
  (`lamport_length_refuted`).  Unbounded length() is wrong after reset and after overlapping calls
  (`ubuf_length_after_reset_refuted`, `ubuf_length_after_race_refuted`).  A non-blocking Pop that
  runs out of retries returns true without an item (`Pop_true_refuted`).
* **MPMC queues.** MSqueue is exposed to ABA when nodes come back too early
  (`msqueue_reuse_refuted`).  The scalable queue strands values in FIFO mode
  (`scal_fifo_complete_refuted`).  The unbounded queue blocks behind a stalled thread and may
  report empty after a completed push (`umpmc_nonblocking_refuted`, `umpmc_strict_pop_refuted`).
* **Barriers.** barrierSetup with an unchanged count keeps old phases
  (`spin_barrier_resetup_refuted`); the condition-variable barrier does not re-test
  (`cond_barrier_refuted`).
* **Skeletons.** A node that returns EOS early blocks its producers for ever on bounded channels
  (`pipeline_early_stop_deadlock_refuted`, `farm_early_stop_deadlock_refuted`,
  `net_early_stop_refuted`).  A cycle of bounded channels deadlocks
  (`net_cycle_no_deadlock_refuted`).  The ordered farm loses its order on a re-run with an explicit
  number of workers and may deadlock with filtering workers (`ofarm_rerun_refuted`,
  `ofarm_filter_refuted`).  The on-demand ordered farm overwrites its ring when more than M tasks
  are in flight (`ondem_overrun_refuted`, `ondem_wrapper_rerun_refuted`).  The gatherer never stops
  when EOS and EOS_NOFREEZE marks are mixed (`gather_terminates_refuted`), forwards an
  arrival-dependent mark (`gather_eosw_refuted`), and starts a second run with old state
  (`gather_rerun_refuted`).  schedule_task with a retry count above the number of workers does not
  return while all are full (`sched_bounded_retry_refuted`).  thaw/wait combinations lose runs
  (`freeze_thaw_then_wait_refuted`, `freeze_early_thaw_refuted`).  A combination goes on after a
  later node ends the stream and forwards null pointers (`comb_later_eos_refuted`,
  `comb_null_refuted`).
* **Graph search.** The successors of the start node are sent without looking at the mask, so a
  result may appear twice (`search_all_twice_refuted`).  A worker that finds the one result ends and
  the emitter goes on waiting for the other workers: with two or more workers a search from a
  matching node without successors never returns (`search_one_hang_refuted`).  When the emitter
  stops while nodes are on their way back, absorb_eos fails its assertion
  (`search_one_abort_refuted`).
* **Pool evolution.** The documentation adds the filter's result to the population (`P += f(N,P)`);
  the code replaces the population by it (`pool_keeps_refuted`).  The environment is kept between
  the populations of a stream, so a termination test that counts rounds in it stops the second
  population at once (`pool_stream_refuted`).
* **Optimiser.** OptLevel2 treats a node between two farms as a farm (`opt_node_between_refuted`),
  combines workers that are not nodes (`opt_merge_pipes_refuted`), dereferences the missing
  collector of an ordered farm (`opt_null_collector_refuted`), aborts on a combination before a farm
  (`opt_comb_emitter_refuted`) and merges ordered farms into one that refuses to start
  (`opt_ordered_merge_refuted`).  introduce_a2a loops for ever when the second farm has an emitter
  (`opt_a2a_loop_refuted`).  OptLevel1 turns a node that chooses its output channel into one that
  does not (`opt_chooser_refuted`).
* **Connecting stages.** A farm made ordered with set_ordered() and without a collector is connected as
  a stage with one producer and the pipeline is refused (`wire_ordered_refuted`).
* **Blocking mode.** Signals are sent without the mutex and only after empty() was sampled true, and
  nothing signals a producer that waits on a full channel: only the time-outs of the waits keep the
  threads going (`blk_signals_suffice_refuted`, `blk_producer_sleeps`).
* **Accelerator.** load_result with a limit on the attempts returns false also when it gave up, not only
  at EOS (`acc_false_is_eos_refuted`).
* **Loops.** Block-cyclic static loops are wrong for step > 1, negative first, and after a smaller
  loop (`parfor_grain_*_refuted`).  Empty ranges hit an assert (`parfor_empty_refuted`).  Chunks
  exceed the grain (`parfor_chunk_bound_refuted`).  Non-square stencils leave the matrix
  (`stencil_*_refuted`).
* **Containers.** squeue, svector and the hash table deviate in the listed operations
  (`squeue_*_refuted`, `svector_*_refuted`, `hash_*_refuted`).
* **Memory.** `alloc_disjoint_stores_refuted`, `alloc_disjoint_zero_aligned_refuted`,
  `realloc_disjoint_refuted`, `memalign_large_free_refuted`, `malloc_zero_refuted`.
* **Data-flow.** A task declaring a datum again after OUTPUT waits for itself; null addresses lose
  their dependencies; descriptor rings are overwritten (`mdf_*_refuted`, `taskf_ring_refuted`);
  an empty division below the root of a divide and conquer indexes at -1
  (`dc_any_division_refuted`).
* **Distributed.** Batch headers truncate ids, empty payloads vanish, buffers overflow
  (`frame_*_refuted`, `recv_capacity_refuted`, `two_receives_claim_refuted`,
  `send_buffer_claim_refuted`, `readvn_empty_refuted`).  Waiting for an acknowledgement from any
  connection may send a value where no node can take it, it is dropped with a message on the
  console (`dgr_anonymous_refuted`).  ff_send_out_to(EOS, j) takes the output index for a node
  number: abort, or the end of stream reaches another node (`dgr_eos_to_refuted`,
  `dgr_eos_to_one_refuted`).  A value that serializes to nothing reads as end of stream
  (`dgr_empty_value_refuted`).  A node that returned EOS is still handed values
  (`dgr_end_stops_refuted`).  A value that serializes to more than 2 GiB writes before its buffer
  (`ser_any_length_refuted`, `ser_too_long_crashes`).  The release hook of a payload above the
  single-send threshold is told size 0 (`msg_hook_size_refuted`), and bytes lent without a hook are
  passed to free() (`msg_lender_refuted`).
* **Running again.** Values left by a node that returned EOS early are read in the next run
  (`re_early_stop_refuted`).
* **Emitter.** After a worker has ended, get_channel_id() in the emitter is wrong for the workers
  after it, and a value of the previous stage may be presented as a worker's answer
  (`poll_ids_refuted`, `poll_sides_refuted`).  An emitter with input channels only that calls
  input_active(false) is never called again (`poll_null_refuted`).
* **Combination as collector.** combine_nodes(combine_nodes(a,b),c) with a standard node a: c is told
  the end of stream once per worker (`comb_gather_refuted`).
* C62: parallel_for counts its iterations in double (parallel_for_internals.hpp:471, 517): from 2^53+1
  iterations on, the last index may belong to no worker.  A very large grain, the natural way to ask for
  one chunk, overflows a long (line 488).
* C61: a channel that ends inside all_gather (gt.hpp:776-791) is counted but not marked offline: a later
  call waits for it for ever (`all_gather_ends_refuted`).  In an emitter (lb.hpp:855-863) it is marked but
  not counted: the emitter never ends (`all_gather_emitter_ends_refuted`); the loop there runs over as many
  entries as there are channels left, so a mark in a later entry is returned as a task with result 0
  (`all_gather_marks_refuted`).  With feedback channels the array is indexed by two numberings: one channel
  is read twice, another not at all (`all_gather_feedback_refuted`).
* **Memory order.** Without a fence, a pop on the unbounded channel may fail after a push returned
  (`utso_immediate_refuted`); order, payload and absence of loss survive.
* **Helpers.** `isPowerOf2_size_t_refuted`, `nextPowerOf2_diverges_refuted`,
  `nextMultipleOfIf_refuted`, `mapper_cyclic_claim_refuted`, `mapper_vector_shrinks_refuted`.
- C66: the channel number of the call `svc(NULL)` of a multi-input node with skipfirstpop is -1 only in the
  first run. `nextr` is not reset between runs, so in a later run the call reports the channel read last.
  Without feedback channels `fromInput()` is true in that call in every run.
- C67: `ff_queue::enqueue_prepare(sz)` never returns, and allocates without end, when `sz` is not a multiple of 8
  and `sz + 16` exceeds the bucket size: the new bucket has `sz + 16` bytes, while the message needs `sz` rounded up
  plus 16 (ff_queue.hpp:116-117, 198-200). A bucket size below 8 makes the constructor write outside the bucket.
  `bucket_count_` is never decremented, so `max_bucket_count_` limits the allocations ever made, not the buckets
  kept.
- C68: on x86 `MPMC_Ptr_Queue::pop` can return false although a push has returned true, nobody else has popped and no
  operation is in progress: push ends with plain stores (MPMCqueues.hpp:216-217), which may still be in the store buffer of
  the producer.  Likewise push after a pop.  So the guarantee of C10 (a wrong failure only while an operation is in
  progress) does not hold on TSO (`vtso_relaxed_refuted`); what holds is `vtso_linearizable`.

- C69: wrap_around() on a pipeline whose last stage is a farm with a multi-output collector.  prepare_wraparound calls
  set_output_feedback on the farm (pipeline.hpp:207), which stores the channel in the farm's outputNodesFeedback
  (farm.hpp:2086-2089); ff_farm::prepare reads that list only for workers without a collector (farm.hpp:463-490) and hands only
  outputNodes to the collector.  run() succeeds, the first stage reads a feedback channel that nobody writes, and so never sees
  its end (`wrap_channels_refuted`, `wrap_lost_channel`).  The farm's own wrap_around passes the channel to the collector
  (farm.hpp:1228).
- C70: wrap_around() on a farm.  setlb() moves the old load balancer into the new one with an operator= that forgets
  master_worker (ff/lb.hpp:500-523).  setlb() after wrap_around() on a farm without collector, or set_ordered(), which
  makes prepare() call setlb(), therefore drops the feedback without a word.  If the default collector is replaced by a
  user one after wrap_around(), a standard collector pushes its output through its null `out` (ff/gt.hpp:226-262), and a
  multi-output one has no feedback channel; the emitter waits on a channel that nobody writes.
- C71: an all-to-all whose nodes are not all of the same kind.  prepare() tests the first node of each set only and ignores
  the results of set_output, set_input, set_output_feedback and set_input_feedback.  With a standard node after a
  multi-output one in the first set, run() is accepted, that node can send to the last node of the second set only, and
  the others wait for ever on channels that nobody writes (`a2a_mixed_dead_channel`).  The code comments assume
  homogeneous sets; add_firstset does not say so and nothing checks it.
- C72: a task farm used twice can hang.  wait() and run_then_freeze() wait for the scheduler's thread only; a worker that
  has not woken up since the first thaw is thawed again, the two thaws are one, and the worker goes back to sleep on the
  GO_OUT of the first round with the tasks of the second in its channel (`taskf_again_refuted`).  run_then_freeze() with
  no task added starts the scheduler with no worker: undefined behaviour (`taskf_empty_ub`).
- C73: getBB() does not look inside a composed emitter or collector (null), returns a nested composition as its own
  container, and aborts on any ordered farm it meets before the node (`bb_composed_emitter`, `bb_nested_comb`,
  `bb_ordered_aborts`, `bb_innermost_refuted`).
- C74: change_node: a pipeline with cleanup_nodes() deletes the new stage although cleanup is false and leaks the old
  one; a farm with cleanup_workers() deletes both although the old one was taken back and the new one given with
  cleanup false; an emitter or collector the farm owns is deleted during the call although it was taken back, and is
  lost when the new one is refused; a composition inside a composition cannot be replaced.
- C75: extractFlags() and getDeviceID() search backwards for the text "kernel_1", so kernel 1 is given the device and the
  flags of kernel 12 (or of any later kernel whose number starts with 1) (`flags_other_kernel`, `flags_refuted`).
- C76: combine_with_laststage() ignores failures for all workers but the first (`r+=...; return (r>0?-1:0)` while failures
  are -1), so it can return 0 with the node added to some workers only (`laststage_refuted`).
- C77: combine_farms(farm1, nullptr, farm2, node2, true) drops node2: the code sets farm2's emitter to null where the
  documentation says node2 becomes the emitter (`combine_farms_node2_lost`, `combine_farms_refuted`).
  With an ordered farm1 and a standard node as farm2's emitter (or, with no emitter, as farm1's collector) the call
  aborts, because the composed emitter does not end with a multi-output node (`combine_farms_ordered_aborts`).
- C78: combine_nodes_in_pipeline of a farm with a collector and a farm without an emitter composes the collector with a
  null pointer and then reads the last node of the empty composition (`nodes_in_pipeline_null`); with a standard node as
  emitter it aborts (`nodes_in_pipeline_standard_emitter`); a pipeline next to a farm is left out without a word
  (`nodes_in_pipeline_pipe_lost`).
- C79: combine_farms(farm1, nullptr, farm2, node2, false) does not clear farm1's cleanup flag, so its workers are deleted
  twice (`combine_owner_twice`).  change_emitter() on a farm with no emitter ignores its cleanup argument: node1 given
  with mergeCE is deleted by a farm2 on which cleanup_all() was called (`combine_owner_node1`), and the composition that
  owns the collector of an ordered farm1 is never deleted (`combine_owner_leak`).
- C80: combine_nodes_in_pipeline: cleanup1 is ignored for a node before a farm without an emitter, so the node leaks
  (`pipeline_owner_leak`); after cleanup_all() a farm without that filter deletes a node given without cleanup
  (`pipeline_owner_node`); an ordered first farm given with cleanup gets all its flags set instead of being deleted, so
  workers it does not own are deleted (`pipeline_owner_ordered`).

## Wrong programs

`seeded/LOG.jsonl` lists the deliberate bugs put in scratch copies of the model, the claims they
break and the theorems that stopped proving.  Theorems that survived a bug breaking their claim
were tightened; the log says which.
