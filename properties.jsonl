{"id": "C01", "title": "Bounded SPSC channel is a FIFO under every schedule", "statement": "One thread calling push and one thread calling pop on the same bounded buffer: the sequence of values returned by successful pops is, at every moment of every execution, a prefix of the sequence of values successfully pushed (no loss, duplication, reordering or invention), and the number of values pushed but not yet popped never exceeds the buffer size.", "quantifier": "all buffer sizes >= 1, all sequences of pushed non-NULL values, all interleavings of the two threads at the granularity of single loads/stores", "why_tests_cant": "Tests sample a handful of thread schedules; the claim is about every interleaving of the individual shared-memory accesses.", "anchors": ["ff/buffer.hpp: SWSR_Ptr_Buffer::push, pop, inc, available, empty"]}
{"id": "C02", "title": "Bounded SPSC channel is a FIFO on TSO hardware without fences", "statement": "C01 still holds when each thread has a FIFO store buffer that drains at arbitrary times (the x86-TSO model the source claims to need no fence for), and whatever the producer wrote into the pointed-to object before push is visible to the consumer after the matching pop.", "quantifier": "all sizes, all value sequences, all interleavings of instruction steps and store-buffer drain steps", "why_tests_cant": "Store-buffer drains are not observable or controllable from a unit test.", "anchors": ["ff/buffer.hpp: SWSR_Ptr_Buffer::push (WMB), pop, inc"]}
{"id": "C03", "title": "push/pop on the bounded channel fail only when full/empty", "statement": "With no concurrent operation: push returns false exactly when `size` items are stored, pop returns false exactly when no item is stored; a failed operation changes nothing; empty() and available() agree with that.  With a concurrent peer, a false result implies that at some instant during the call the buffer was full (resp. empty).", "quantifier": "all sizes >= 1 and all operation histories", "why_tests_cant": "The boundary depends on pwrite/pread wrap-around reached after arbitrarily long histories.", "anchors": ["ff/buffer.hpp: SWSR_Ptr_Buffer::push, pop, empty, available"]}
{"id": "C04", "title": "length() of the bounded channel", "statement": "With no concurrent operation length() returns exactly the number of stored items, after any history of push/pop/reset, and reset leaves an empty buffer.", "quantifier": "all sizes >= 1 and all operation histories", "why_tests_cant": "Wrap-around, full and empty positions all have pread==pwrite; only an invariant distinguishes them for all histories.", "anchors": ["ff/buffer.hpp: SWSR_Ptr_Buffer::length, reset"]}
{"id": "C05", "title": "Batched push keeps FIFO order", "statement": "multipush of a batch either stores the whole batch contiguously in order after everything previously pushed or stores nothing; any later push/pop sees the batch in FIFO position.", "quantifier": "all sizes, all batch lengths < size, all starting positions", "why_tests_cant": "Correctness depends on the start position of the write index modulo the size.", "anchors": ["ff/buffer.hpp: SWSR_Ptr_Buffer::multipush, mpush, flush"]}
{"id": "C06", "title": "Lamport buffer is a FIFO of capacity size-1 with exact length()", "statement": "The Lamport ring delivers values in FIFO order under every interleaving of one producer and one consumer, holds at most size-1 values, and length() returns the number of stored values.", "quantifier": "all sizes >= 2, all histories and interleavings", "why_tests_cant": "Tests sample a handful of thread schedules; the claim is about every interleaving of the individual shared-memory accesses.", "anchors": ["ff/buffer.hpp: Lamport_Buffer::push, pop, length"]}
{"id": "C07", "title": "Unbounded SPSC channel never loses, duplicates or reorders, under every schedule", "statement": "One producer and one consumer on the unbounded channel (chain of recycled bounded segments): popped values are at every moment a prefix of pushed values; no segment that still holds data is recycled; a segment is never in two places (in use, cached, freed) at once.", "quantifier": "all segment sizes >= 1, all value sequences, all interleavings of the two threads at the granularity of the segment/pool operations", "why_tests_cant": "Tests sample a handful of thread schedules; the claim is about every interleaving of the individual shared-memory accesses.", "anchors": ["ff/ubuffer.hpp: uSWSR_Ptr_Buffer::push, pop; BufferPool::next_w, next_r, release"]}
{"id": "C08", "title": "Unbounded channel: push always succeeds, pop fails only when empty, length() exact when quiescent", "statement": "Without fixedsize, push never returns false; pop returns false iff nothing is stored; empty() iff nothing is stored; with no concurrent operation length() is the number of stored items, also after reset().  With fixedsize the channel behaves as the bounded one.", "quantifier": "all segment sizes, all histories of push/pop/reset", "why_tests_cant": "length() uses a segment counter whose correctness depends on the entire history (reset while several segments are in use).", "anchors": ["ff/ubuffer.hpp: uSWSR_Ptr_Buffer::push, pop, empty, length, reset"]}
{"id": "C09", "title": "Dynamic list queue is a FIFO (SPSC and two-lock MPMC)", "statement": "dynqueue delivers pushed values in order; a node is never both linked and in the node cache (no use-after-recycle), under all SPSC interleavings.", "quantifier": "all cache sizes, value sequences and interleavings", "why_tests_cant": "Tests sample a handful of thread schedules; the claim is about every interleaving of the individual shared-memory accesses.", "anchors": ["ff/dynqueue.hpp: dynqueue::push, pop, allocnode, mp_push, mp_pop"]}
{"id": "C10", "title": "Bounded MPMC queue is linearizable FIFO", "statement": "Any number of threads calling push/pop: every popped value was pushed, no pushed value is popped twice, pops return values in the order in which the corresponding pushes took effect, at most capacity values are stored, and a thread that loses a race retries without corrupting the queue.", "quantifier": "all power-of-two capacities >= 2, any number of threads, all interleavings of their atomic accesses (sequence counters as unbounded naturals)", "why_tests_cant": "Tests sample a handful of thread schedules; the claim is about every interleaving of the individual shared-memory accesses.", "anchors": ["ff/mpmc/MPMCqueues.hpp: MPMC_Ptr_Queue::push, pop, init"]}
{"id": "C11", "title": "Michael-Scott MPMC queue is linearizable FIFO", "statement": "Any number of threads calling push/pop on the lock-free list queue: every popped value was pushed, none is popped twice, and pops take effect in the order pushes took effect.", "quantifier": "any number of threads, all interleavings", "why_tests_cant": "Tests sample a handful of thread schedules; the claim is about every interleaving of the individual shared-memory accesses.", "anchors": ["ff/mpmc/MPMCqueues.hpp: MSqueue::push, pop"]}
{"id": "C12", "title": "Scalable MPMC queue eventually returns every pushed element", "statement": "If pushes have completed and consumers keep calling pop, every pushed element is returned by some pop.", "quantifier": "any number of SPSC sub-queues and any history of push/pop calls", "why_tests_cant": "The failure needs a particular history of failing pops before pushes.", "anchors": ["ff/mpmc/MPMCqueues.hpp: scalableMPMCqueue::push, pop"]}
{"id": "C13", "title": "Spin locks give mutual exclusion; CLH is first-come first-served", "statement": "At most one thread is between lock and unlock; for the CLH lock threads acquire in the order they swapped themselves into the queue, and whenever the lock is not held and someone is queued, some queued thread can acquire it.", "quantifier": "any number of threads, any number of lock/unlock rounds, all interleavings", "why_tests_cant": "Tests sample a handful of thread schedules; the claim is about every interleaving of the individual shared-memory accesses.", "anchors": ["ff/spin-lock.hpp: CLHSpinLock::spin_lock, spin_unlock; spin_lock/spin_unlock (test-and-set)"]}
{"id": "C14", "title": "Spin barrier: nobody leaves a round before everybody entered it; reusable; no deadlock", "statement": "With n participating threads using distinct ids, when any thread returns from its k-th doBarrier call every thread has entered its k-th call, rounds never mix although the barrier is immediately reusable, and as long as some thread has not finished its calls some thread can make progress.", "quantifier": "all n >= 1, all numbers of rounds, all interleavings", "why_tests_cant": "Tests sample a handful of thread schedules; the claim is about every interleaving of the individual shared-memory accesses.", "anchors": ["ff/barrier.hpp: spinBarrier::doBarrier, barrierSetup"]}
{"id": "C15", "title": "Ordered farm preserves the input order", "statement": "With the default ordered policy (strict round robin dispatch and collection), and workers producing exactly one output per input, the farm emits exactly map f of the input stream in input order, then end-of-stream.", "quantifier": "all numbers of workers >= 1, all input streams, all schedules of emitter, workers and collector", "why_tests_cant": "Order violations only show up under particular relative worker speeds.", "anchors": ["ff/farm.hpp: ofarm_lb, ofarm_gt, set_ordered"]}
{"id": "C16", "title": "On-demand ordered farm restores the input order", "statement": "With on-demand scheduling the sequence-numbered reordering stage emits exactly the input order whatever the completion order of the workers, and holds back only items whose predecessor has not completed; also when the farm is run more than once.", "quantifier": "all completion orders (all permutations of all lengths), all numbers of runs", "why_tests_cant": "The set of completion orders is factorial in the number of tasks.", "anchors": ["ff/ordering_policies.hpp: ordered_lb, ordered_gt, OrderedEmitterWrapper, OrderedCollectorWrapper"]}
{"id": "C17", "title": "Farm processes every task exactly once and terminates the stream last", "statement": "Each input task is given to exactly one worker and each worker result reaches the collector exactly once; end-of-stream is emitted downstream exactly once and after every result.", "quantifier": "all numbers of workers, all input streams, all scheduling choices and interleavings", "why_tests_cant": "Tests sample a handful of thread schedules; the claim is about every interleaving of the individual shared-memory accesses.", "anchors": ["ff/lb.hpp: schedule_task, push_eos, svc; ff/gt.hpp: svc, gather_task; ff/node.hpp: thWorker::svc"]}
{"id": "C18", "title": "Pipeline is function composition on streams", "statement": "A pipeline of single-input nodes emits exactly the composition of the stage functions applied to the input stream, in order, followed by exactly one end-of-stream; it cannot deadlock with bounded channels.", "quantifier": "all numbers of stages, all stage functions (including filtering GO_ON), all channel capacities >= 1, all schedules", "why_tests_cant": "Deadlock and loss depend on the schedule and on channel capacities.", "anchors": ["ff/node.hpp: thWorker::svc, ff_node::push/pop; ff/pipeline.hpp"]}
{"id": "C19", "title": "Collector/multi-input node terminates exactly when every input channel ended", "statement": "The node forwards tasks until it has received an end-of-stream from every input channel, whatever kind of end-of-stream each channel used, then terminates once.", "quantifier": "all numbers of channels, all arrival orders and mixes of EOS kinds", "why_tests_cant": "Arrival orders and mixes are unboundedly many.", "anchors": ["ff/gt.hpp: ff_gatherer::svc, selectworker, gather_task"]}
{"id": "C20", "title": "Load balancer scheduling: round robin, broadcast and bounded retry", "statement": "Default scheduling gives task k to worker k mod n when queues have room and otherwise to the next worker with room; broadcast delivers the task to every worker exactly once; a send with a finite retry count eventually returns false if no worker has room.", "quantifier": "all numbers of workers, all queue fill states, all task sequences", "why_tests_cant": "Depends on every combination of full queues.", "anchors": ["ff/lb.hpp: selectworker, schedule_task, broadcast_task, ff_send_out_to"]}
{"id": "C21", "title": "Freeze/thaw handshake", "statement": "thaw() after a freeze restarts the node for exactly one further run; wait_freezing() returns only after the node has completed its current run; no wake-up is lost.", "quantifier": "all interleavings of controller and worker thread, all numbers of rounds", "why_tests_cant": "Tests sample a handful of thread schedules; the claim is about every interleaving of the individual shared-memory accesses.", "anchors": ["ff/node.hpp: ff_thread::thread_routine, freeze, thaw, wait_freezing"]}
{"id": "C22", "title": "Dynamic parallel_for executes every index exactly once", "statement": "parallel_for with a positive grain runs the body once for every index first, first+step, ... below last and for no other index, for every interleaving of the workers' work-stealing, and every worker terminates.", "quantifier": "all first < last, step >= 1, grain >= 1, number of workers >= 1, all interleavings", "why_tests_cant": "Tests sample a handful of thread schedules; the claim is about every interleaving of the individual shared-memory accesses.", "anchors": ["ff/parallel_for_internals.hpp: init_data, nextTaskConcurrent, forall_Scheduler"]}
{"id": "C23", "title": "Default static parallel_for partitions the range", "statement": "parallel_for with grain 0 (static block partition) assigns every index of the iteration space to exactly one worker, for empty ranges too.", "quantifier": "all first, last, step >= 1, number of workers >= 1", "why_tests_cant": "Four-parameter arithmetic with remainders.", "anchors": ["ff/parallel_for_internals.hpp: init_data_static, FF_PARFOR_BEGIN"]}
{"id": "C24", "title": "Block-cyclic static parallel_for (negative grain) executes every index exactly once", "statement": "parallel_for_static with an explicit grain runs the body once for every index of the iteration space and for no other.", "quantifier": "all first < last, step >= 1, grain >= 1, number of workers >= 1", "why_tests_cant": "Four-parameter arithmetic; failures need step > 1 or negative bounds.", "anchors": ["ff/parallel_for_internals.hpp: init_data_static (chunk<0), sendTask, FF_PARFOR_T_START_STATIC"]}
{"id": "C25", "title": "parallel_reduce equals the sequential reduction", "statement": "For an associative and commutative combining operation with the given identity, parallel_reduce returns the sequential fold over the range whatever the assignment of iterations to workers.", "quantifier": "all ranges, all workers, all assignments of chunks to workers, all commutative monoids", "why_tests_cant": "All assignments and all algebras.", "anchors": ["ff/parallel_for_internals.hpp: forallreduce_W::svc, ff_forall_farm::setF; ff/parallel_for.hpp: parallel_reduce"]}
{"id": "C26", "title": "squeue is a double-ended sequence", "statement": "push_back/pop_back/pop_front/front/back/at/size behave as on a sequence, never reading outside the allocated chunks.", "quantifier": "all chunk sizes and all operation histories", "why_tests_cant": "The failing histories cross chunk boundaries in specific ways.", "anchors": ["ff/squeue.hpp: squeue::push_back, pop_back, pop_front, front, back, at"]}
{"id": "C27", "title": "Static linked list queue is a bounded FIFO", "statement": "push/pop on the static linked list behave as a FIFO of capacity cachesize-1 for any history, and under every interleaving of one producer and one consumer.", "quantifier": "all sizes and histories", "why_tests_cant": "Tests sample a handful of thread schedules; the claim is about every interleaving of the individual shared-memory accesses.", "anchors": ["ff/staticlinkedlist.hpp"]}
{"id": "C28", "title": "svector behaves as a sequence", "statement": "push_back, pop_back, back, front, erase, insert, reserve, resize, clear and concatenation act as on a sequence with no access outside the allocated capacity.", "quantifier": "all operation histories and element values", "why_tests_cant": "Capacity boundary reached only by particular histories.", "anchors": ["ff/svector.hpp: svector"]}
{"id": "C29", "title": "Hash table is a finite map", "statement": "After any sequence of insert/update/delete, find returns the last value inserted for the key and not deleted; other keys are unaffected; the entry count equals the number of keys stored.", "quantifier": "all bucket counts >= 1, all hash functions, all equality-compatible keys, all histories", "why_tests_cant": "All hash collisions patterns.", "anchors": ["ff/icl_hash.h, ff/icl_hash.c: icl_hash_find, icl_hash_insert, icl_hash_update_insert, icl_hash_delete"]}
{"id": "C30", "title": "Allocator never hands out the same memory twice", "statement": "Blocks returned by malloc and not yet freed are pairwise disjoint, each block is at least as large as requested, freed blocks become reusable, and a slab segment is returned to the system only when none of its blocks is live.", "quantifier": "all histories of malloc/free by owner and other threads", "why_tests_cant": "Histories are unbounded and failure needs specific reuse order.", "anchors": ["ff/allocator.hpp: SlabCache::getitem, putitem, newslab, checkReclaim; ff_allocator::malloc, free, getslabs"]}
{"id": "C31", "title": "Aligned allocation and realloc", "statement": "posix_memalign returns an address that is a multiple of the alignment, lying with its `size` bytes inside the underlying block, free() of that address releases exactly the underlying block, and realloc of any live pointer yields at least newsize usable bytes with the old contents.", "quantifier": "all sizes, alignments, base addresses", "why_tests_cant": "Depends on arithmetic of all base addresses.", "anchors": ["ff/allocator.hpp: ff_allocator::posix_memalign, free, realloc"]}
{"id": "C32", "title": "Static allocator hands out each slot to one owner", "statement": "alloc never returns a slot that is currently allocated; every slot can be allocated when free; channels use disjoint slots.", "quantifier": "all slot/channel counts and histories", "why_tests_cant": "Unbounded histories with wrap-around of the probing index.", "anchors": ["ff/staticallocator.hpp: StaticAllocator::alloc, dealloc"]}
{"id": "C33", "title": "Macro data-flow scheduler respects program order of conflicting tasks, runs every task, and computes the sequential result", "statement": "For any program of tasks with declared input/output addresses and any number of workers: two tasks that touch a common address where at least one writes it are executed in program order without overlapping; no task runs twice; every task is eventually executed; and when the stream ends memory holds what the sequential execution of the program would leave.", "quantifier": "all task programs, all arrival times, all numbers of workers, all priorities and all interleavings of workers and scheduler", "why_tests_cant": "All programs times all completion orders.", "anchors": ["ff/task_internals.hpp: TaskFScheduler::insertTask, handleTask, handleCompletedTask, schedule_task", "ff/mdf.hpp: Scheduler::svc, TaskFWorker::svc"]}
{"id": "C34", "title": "A submitted task descriptor is not overwritten before it is executed", "statement": "AddTask may be called any number of times; each submitted task is executed with the arguments it was submitted with.", "quantifier": "all numbers of submitted tasks and all consumer speeds", "why_tests_cant": "Requires more submissions than the ring size before the consumer drains.", "anchors": ["ff/mdf.hpp: ff_mdf::AddTask, GD::alloc_and_send; ff/taskf.hpp: ff_taskf::AddTask; ff/farm.hpp: ff_farm constructor"]}
{"id": "C35", "title": "Thread-to-core mapping only returns existing cores and follows the given list", "statement": "getCoreId returns only ids from the configured list, cycling over the list in order as documented.", "quantifier": "all mapping lists and thread ids", "why_tests_cant": "All list lengths (power of two or not).", "anchors": ["ff/mapper.hpp: threadMapper::setMappingList, getCoreId"]}
{"id": "C36", "title": "stencil2D touches each cell once and stays in bounds", "statement": "For an X by Y matrix every interior cell is computed exactly once per iteration and all accesses stay inside the X*Y array.", "quantifier": "all X, Y sizes", "why_tests_cant": "All sizes; square matrices hide the defect.", "anchors": ["ff/stencilReduce.hpp: stencil2D svc"]}
{"id": "C37", "title": "Distributed batch framing round-trips", "statement": "The sequence of messages (source, destination, channel type, payload) delivered by the receiver equals the sequence handed to the sender for that connection, whatever the batch size, byte limit, message sizes and flush points, and the sender never writes past its batch buffer.", "quantifier": "all message sequences, batch limits and byte limits", "why_tests_cant": "All combinations of sizes versus limits.", "anchors": ["ff/distributed/ff_dsenderMTCL.hpp: uBuffer::push, flush; ff/distributed/ff_dreceiverMTCL.hpp: handleBatch"]}
{"id": "C38", "title": "Receiver buffers are always large enough", "statement": "Every incoming batch is received into a buffer at least as large as the batch.", "quantifier": "all sequences of batch sizes and shapes", "why_tests_cant": "Needs a specific three-message history.", "anchors": ["ff/distributed/ff_dreceiverMTCL.hpp: ff_dreceiverMTCL2::svc, handleBatch"]}
{"id": "C39", "title": "Full reads/writes complete despite partial transfers", "statement": "readn/writen/readvn/writevn transfer exactly the requested bytes in order into/from the given buffers whatever partial counts the operating system returns, or report failure.", "quantifier": "all buffer vectors and all sequences of partial transfer counts", "why_tests_cant": "Kernel decides the partial counts.", "anchors": ["ff/distributed/ff_network.hpp: readn, writen, readvn, writevn"]}
{"id": "C40", "title": "Node channel operations with retry", "statement": "Pop returning true means a data item was delivered; Push returning true means the item was enqueued.", "quantifier": "all retry counts and channel states", "why_tests_cant": "Requires exhaustion of retries.", "anchors": ["ff/node.hpp: ff_node::Push, Pop"]}
{"id": "C41", "title": "combine_nodes equals sequential composition", "statement": "The combination of two nodes produces for every input stream exactly the output of feeding the first node's outputs to the second node, including filtered items (GO_ON), early end-of-stream and several outputs per input.", "quantifier": "all node behaviours (as arbitrary stateful functions) and all streams", "why_tests_cant": "All node behaviours.", "anchors": ["ff/combine.hpp: ff_comb::svc, ff_send_out_comp"]}
{"id": "C42", "title": "Size rounding helpers", "statement": "nextPowerOf2(x) is the least power of two >= x; isPowerOf2 decides powers of two; nextMultipleOfIf rounds up.", "quantifier": "all machine-word inputs", "why_tests_cant": "2^64 inputs.", "anchors": ["ff/utils.hpp: nextPowerOf2, isPowerOf2, nextMultipleOfIf"]}
{"id": "C43", "title": "Divide and conquer computes the sequential recursion", "statement": "For any divide/combine/base functions the parallel divide-and-conquer returns the same value as the sequential recursion, whatever the completion order.", "quantifier": "all problem trees and completion orders", "why_tests_cant": "All trees and schedules.", "anchors": ["ff/dc.hpp"]}
{"id": "C44", "title": "parallel_for over an empty range", "statement": "A loop over an empty range (last <= first) runs no iteration and returns normally, whatever the scheduling policy.", "quantifier": "all last <= first, step >= 1, grains, numbers of workers", "why_tests_cant": "All parameter combinations; the failing policies need an empty range to show.", "anchors": ["ff/parallel_for_internals.hpp: setloop, init_data, init_data_static"]}
{"id": "C45", "title": "Chunk bound of dynamic parallel_for", "statement": "With dynamic scheduling and grain g no more than g iterations at a time are assigned to a worker, as the header documents.", "quantifier": "all ranges, steps, grains and numbers of workers", "why_tests_cant": "Arithmetic on four parameters; fails only for particular remainders.", "anchors": ["ff/parallel_for.hpp: file comment", "ff/parallel_for_internals.hpp: init_data, sendTask"]}
{"id": "C46", "title": "Unbounded MPMC queue is a linearizable FIFO", "statement": "For any number of threads calling push and pop on a uMPMC_Ptr_Queue, the history is linearizable with respect to an unbounded FIFO queue: every pushed value is returned at most once, none is invented, and values leave in the order in which their pushes took effect. push always returns true. pop returns false only if the queue is empty or some push has taken effect but not yet returned. Each internal single-producer single-consumer sub-queue is accessed by at most one producer and one consumer at a time, and is never popped while empty. An operation running alone ends in a bounded number of steps, and the operations in progress can always be completed.", "quantifier": "every number of sub-queues >= 2, every number of threads, every interleaving of their shared-memory accesses, every values", "why_tests_cant": "The claim ranges over all interleavings of an unbounded number of threads; a race needs a particular preemption between reading a sequence number and the CAS.", "anchors": ["ff/mpmc/MPMCqueues.hpp: uMPMC_Ptr_Queue::push", "ff/mpmc/MPMCqueues.hpp: uMPMC_Ptr_Queue::pop", "ff/mpmc/MPMCqueues.hpp: uMPMC_Ptr_Queue::init"]}
{"id": "C47", "title": "Any network of nodes: delivery, termination and absence of deadlock", "statement": "Threads connected by FIFO channels in any topology (nested pipelines, farms, all-to-alls) deliver every item sent on a channel once and in order; each channel carries one end-of-stream mark, after all its items; a node that reads its whole input ends only after the mark of each of its inputs; if the topology has no cycle every execution ends and, provided bounded channels feed nodes that read their whole input, never deadlocks, and when all threads have ended every item sent has been received. With feedback closed by unbounded channels, a state where nothing can move is one where the threads that have not ended wait on empty channels.", "quantifier": "every number of nodes and channels, every capacity, every user code (svc, eosnotify, initial sends, with state), every interleaving and every choice of the schedulers", "why_tests_cant": "a deadlock or a lost mark shows up for one interleaving of one topology and one set of queue lengths; the topologies and interleavings are infinitely many", "anchors": ["ff/node.hpp:thWorker::svc", "ff/lb.hpp:ff_loadbalancer::svc", "ff/lb.hpp:push_eos", "ff/gt.hpp:ff_gatherer::svc", "ff/pipeline.hpp", "ff/farm.hpp", "ff/all2all.hpp"]}
{"id": "C48", "title": "All-to-all delivers each item to the chosen node, in order, and ends", "statement": "In an all-to-all, output i of the j-th node of the first set is input j of the i-th node of the second set; what a second-set node reads on input j is exactly, in order, what first-set node j sent to it with ff_send_out_to or broadcast; with undirected sends the second set reads in total exactly what the first set sent; a second-set node ends after all the first-set nodes; the all-to-all always ends and never deadlocks.", "quantifier": "every size of the two sets, every capacity, every code of the nodes, every interleaving, inside any network", "why_tests_cant": "the number of channels is the product of the sizes and the interleavings grow with it; a wrong channel number or a mark lost on one channel only shows for some sizes and schedules", "anchors": ["ff/all2all.hpp:prepare", "ff/multinode.hpp:ff_monode,ff_minode", "ff/lb.hpp", "ff/gt.hpp"]}
{"id": "C49", "title": "Master-worker farm with feedback ends and returns every result", "statement": "In a farm with feedback from the workers to the emitter, the results coming back from a worker are, in order, those of the tasks sent to it, each once; if the emitter returns EOS once it has received as many results as it sent tasks, the farm never deadlocks and ends; the workers end only after the emitter closes.", "quantifier": "every number of workers, every capacity of the task channels, every worker and emitter code with state, every interleaving", "why_tests_cant": "the emitter, its queues and the workers form a cycle: a deadlock needs a particular fill of the queues and order of the results", "anchors": ["ff/farm.hpp:wrap_around", "ff/farm.hpp:prepare", "ff/lb.hpp:ff_loadbalancer::svc", "ff/lb.hpp:collect_task"]}
{"id": "C50", "title": "The static optimiser does not change what a pipeline computes", "statement": "Calling optimize_static on a pipeline of nodes, farms, ordered farms and all-to-alls, nested in any way, with OptLevel1 returns successfully, and the rewritten pipeline can deliver exactly the output streams the original could deliver on every input stream. With OptLevel2 (or any options other than the conversion of farms into all-to-alls) a successful call returns a pipeline that delivers only streams the original could have delivered.", "quantifier": "all skeletons (any nesting, widths, node functions with state) accepted by the well-formedness conditions, all input streams, all interleavings and routings", "why_tests_cant": "the optimiser rewrites arbitrary nested structures; tests run it on a handful of pipelines and compare one schedule's output", "anchors": ["ff/optimize.hpp: optimize_static(ff_pipeline), optimize_static(ff_farm), OptLevel", "ff/node.hpp: OptLevel, OptLevel1, OptLevel2", "ff/pipeline.hpp: flatten", "ff/farm.hpp: remove_collector, add_emitter", "ff/combine.hpp: ff_comb"]}
{"id": "C51", "title": "Dividing a program into distributed groups does not change what its nodes receive", "statement": "When the nodes of a program are assigned to distributed groups, each node is handed from each of its sources, in order and exactly once, its share of what that source sent, each value going to exactly one destination (the one asked for with ff_send_out_to, if one was), followed by one end of stream after the whole share; nothing is lost or misrouted, no process aborts; the runtime always drains, and an acyclic program whose sources have ended ends everywhere; with acknowledgements at most the configured number of batches per connection is unacknowledged.", "quantifier": "every program graph, every assignment of nodes to groups, every batch size, flush limit, acknowledgement mode and on-the-fly limit, every interleaving of nodes, senders, receivers, acknowledgements and network", "why_tests_cant": "batching, routing and acknowledgements interleave across processes and machines; tests run one topology on one host with one timing", "anchors": ["ff/distributed/ff_dsenderMTCL.hpp: ff_dsenderMTCL2::svc, waitAckFromAny, uBuffer::push", "ff/distributed/ff_dreceiverMTCL.hpp: ff_dreceiverMTCL2::handleBatch", "ff/distributed/ff_dadapters.hpp: SquareBox", "ff/distributed/ff_wrappers.hpp: WrapperINOUT", "ff/distributed/ff_dgroup.hpp"]}
{"id": "C52", "title": "Connecting the stages of a pipeline", "statement": "A pipeline made of nodes (standard, multi-input, multi-output or both), farms (with no, default or user collector, ordered or not) and all-to-alls is accepted by run() exactly when its adjacent stages fit together; once accepted, every pair of threads that must communicate gets exactly one channel of its own, output number j of a thread leads to its j-th successor and input number j comes from its j-th predecessor, no channel is shared, missing or left dangling, and the resulting threads never deadlock and always terminate whatever the nodes' code sends on a finite input.", "quantifier": "all pipelines of any length, all numbers of workers, all combinations of node kinds, all user code, all interleavings", "why_tests_cant": "there are unboundedly many pipelines; the connection code has sixteen cases per pair of adjacent stages that interact with the preparation of each stage, and a test checks one pipeline under one schedule", "anchors": ["ff/pipeline.hpp: ff_pipeline::prepare", "ff/farm.hpp: ff_farm::prepare, set_output, create_output_buffer, get_out_nodes", "ff/all2all.hpp: ff_a2a::prepare", "ff/multinode.hpp: ff_minode::set_input, ff_monode::set_output, create_input_buffer", "ff/node.hpp: create_input_buffer, create_output_buffer"]}
{"id": "C53", "title": "Accelerator: offload and load_result", "statement": "Used as an accelerator, a pipeline or farm returns through load_result exactly what the same network would deliver as a stream of the values offloaded: at any time the values loaded are a possible beginning of that output (for a pipeline of stages, the beginning, in order), and once EOS is loaded all of it, with EOS last. offload never blocks for ever even if the caller loads nothing before closing the stream (the output channel is unbounded); after offload(EOS), load_result never blocks for ever; the threads of the accelerator never run for ever between two actions of the caller, and when they stop before offload(EOS) nothing offloaded is held back. Without a limit on the attempts offload returns true, load_result returns true with a value and false with EOS; load_result_nb returns true with a value or EOS and false when there is none. With a limit of k attempts a call returns within k+1 steps of the caller, whatever the accelerator does.", "quantifier": "every acyclic network of internal threads with one input and one unbounded output channel, any stage code, any capacities, every sequence of calls of the calling thread, every interleaving", "why_tests_cant": "The order in which the caller's calls interleave with the threads, and how far ahead the caller offloads before loading, are unbounded; deadlocks appear only for particular capacities and call sequences.", "anchors": ["ff/pipeline.hpp: ff_pipeline::offload, load_result, load_result_nb, create_output_buffer", "ff/farm.hpp: ff_farm::offload, load_result, load_result_nb"]}
{"id": "C54", "title": "Blocking mode loses no message and no thread sleeps for ever", "statement": "With blocking mode on, the values each producer sends reach the consumer in order, once each, within the capacity of the channel; and under every schedule in which no thread is forgotten all of them are delivered in finite time, although signals can be lost, because every wait is timed: a thread asleep while it could go on wakes up by itself. (A producer asleep on a full channel is woken by nothing but the time-out, and without time-outs delivery fails.)", "quantifier": "any number of producers with one consumer, any channel capacities of at least one or unbounded, any values, every interleaving of pops, samples of empty(), pushes, signals and waits, every fair schedule", "why_tests_cant": "A lost wake-up needs the signal to fall between the failed pop and the wait of another thread; tests hit this window rarely, and see only a delay when they do.", "anchors": ["ff/node.hpp: ff_node::Push, Pop", "ff/gt.hpp: gather_task, push", "ff/lb.hpp: schedule_task, collect_task, pop", "ff/utils.hpp: timedwait_timeout"]}
{"id": "C55", "title": "Serialising a value hands over exactly its bytes", "statement": "The buffer a value is serialised into never writes outside its memory, and the block and size handed to the sender are exactly the bytes the serialisation produced, each value in a block of its own, whatever was serialised before on the same thread.", "quantifier": "all sequences of values, all byte contents, all lengths up to 2 GiB, all initial sizes of at least one byte", "why_tests_cant": "growth points depend on every length written before; the 2 GiB boundary is out of reach of unit tests", "anchors": ["ff/distributed/ff_serializationBuffer.hpp: serBuffer, deserBuff", "ff/node.hpp: serializeF, deserializeF"]}
{"id": "C56", "title": "Memory crossing the distributed runtime is released exactly once", "statement": "Every task given to the runtime and every payload it makes is released exactly once or handed to the user, never used afterwards, and released by the right means: free for runtime buffers, the user's freeTask for copied tasks, the user's hook with its own owner and size for lent bytes; nothing is left when no message is travelling, and recycled messages carry nothing over.", "quantifier": "all interleavings of any number of nodes, wrappers, senders and receivers; all answers of the user's serialize and deserialize; all pool states", "why_tests_cant": "double frees and leaks depend on which thread recycles which message when; hooks, zero-copy and pool reuse combine", "anchors": ["ff/distributed/ff_ddefines.hpp: message2_t", "ff/distributed/ff_messageAllocator.hpp: MessageAllocator", "ff/distributed/ff_dadapters.hpp: EmitterAdapter2::forward, CollectorAdapter2::svc", "ff/distributed/ff_wrappers.hpp: WrapperINOUT", "ff/distributed/ff_dsenderMTCL.hpp: uBuffer::push", "ff/distributed/ff_dreceiverMTCL.hpp: handleBatch"]}
{"id": "C57", "title": "Unbounded channel on TSO hardware without fences", "statement": "On a machine where each thread's stores wait in a store buffer and reach memory in order but late (x86-TSO), with no fence in the code, the unbounded single-producer single-consumer channel is still a correct queue: the values popped are always the first values pushed, in push order, each once; the payload the producer wrote before the push is what the consumer sees; no pushed value is ever lost, and once the store buffers have drained every pushed value can be popped; no thread ever touches an inner segment after it was freed, although segments are recycled between the two threads; push and pop end within a bounded number of the caller's own steps. A pop may report empty although a push has already returned.", "quantifier": "every segment size, every sequence of push and pop calls, every interleaving of the two threads and of the draining of the two store buffers", "why_tests_cant": "Store buffering is not under the control of a test; reorderings that break a queue appear once in many millions of operations and only on some processors, and the hand-over of a segment needs three delayed stores to interleave.", "anchors": ["ff/ubuffer.hpp: uSWSR_Ptr_Buffer::push, uSWSR_Ptr_Buffer::pop, BufferPool::next_w, BufferPool::next_r, BufferPool::release", "ff/buffer.hpp: SWSR_Ptr_Buffer::push, SWSR_Ptr_Buffer::pop", "ff/dynqueue.hpp: dynqueue::push, dynqueue::pop", "ff/sysdep.h: WMB"]}
{"id": "C58", "title": "Running a network again", "statement": "A pipeline, farm or other acyclic network can be run any number of times (run_then_freeze, then again): what its threads read and push, run after run, is what separate executions of the network would give, each starting on empty channels with every node in the state it had at the end of the previous run, even when some threads already began the next run while others are still finishing the previous one. No value of one run is ever read in another run, no run deadlocks whatever the channel capacities, all the runs end, and at the end every channel is empty. This holds for nodes that read their input to the end; a node whose svc returns EOS earlier leaves values in its channel that are read in the next run.", "quantifier": "every acyclic network, any node code that never returns EOS early, any channel capacities, any number of runs, every interleaving, including threads thawed at different times", "why_tests_cant": "The overlap of two runs depends on when each thread is thawed and on the channels that happen to be full; a test sees one overlap.", "anchors": ["ff/pipeline.hpp: ff_pipeline::run_then_freeze, thaw, wait_freezing", "ff/farm.hpp: ff_farm::run_then_freeze, thaw", "ff/lb.hpp: ff_loadbalancer::thaw", "ff/node.hpp: ff_thread::thread_routine, thaw, thWorker::svc"]}
{"id": "C59", "title": "Emitter with several input channels", "statement": "A farm's emitter that reads several channels (the feedback channels of its workers, other feedback channels, the nodes of the previous stage, an input queue) gives svc every value of every channel once, in the order it was sent on that channel. Unless svc returns EOS it ends exactly when it has read the end-of-stream mark of every channel, and then no message is left in any channel; once all marks have been sent it does end. No polled channel is starved, whatever the other channels carry; the input queue is read whenever all feedback channels were found empty for a round. get_channel_id() names the channel the value came from, and a value from the previous stage is never presented as the answer of a worker. An emitter that switches its input off is called with NULL when nothing waits on the feedback channels.", "quantifier": "any number of workers, feedback channels and input channels, any contents, any reactions of the user's code, every interleaving of senders and turns of the loop", "why_tests_cant": "Which channel is looked at next depends on the position left by all previous turns and on the channels removed so far; the wrong channel numbers appear only after a worker has ended before the others.", "anchors": ["ff/lb.hpp: ff_loadbalancer::collect_task, ff_loadbalancer::svc, get_channel_id", "ff/node.hpp: ff_node::input_active"]}
{"id": "C60", "title": "Combination of nodes behind several channels", "statement": "combine_nodes used as a multi-input stage or as the collector of a farm: the first node receives every item and is told the end of each channel; each later node receives the previous node's output as one stream and is told its end exactly once, after its last item; then exactly one end-of-stream mark is sent. The output does not depend on how the nodes are grouped into combinations.", "quantifier": "any tree of combinations, any node code that does not return EOS early, any number of channels, every order in which items and ends of channels arrive", "why_tests_cant": "The counting of ends is spread over the combinations of the tree; a wrong count shows only for particular groupings and orders of ends.", "anchors": ["ff/combine.hpp: ff_comb::eosnotify, set_multiinput, set_neos, push_comp_local", "ff/gt.hpp: ff_gatherer::svc, svc_init", "ff/farm.hpp: ff_farm::add_collector"]}
{"id": "C61", "title": "all_gather returns one task of every channel", "statement": "all_gather(task, V), called by svc of a collector, multi-input node or multi-input emitter, fills V with the given task at the entry of its channel and the next task of every other channel that has not ended, in channel order; the result is 0 unless some channel ended instead. If every channel carries the same number of tasks, the k-th call gives the k-th task of every channel; no task is lost; the node ends when all channels have ended.", "quantifier": "any number of channels, any streams, every interleaving of the producers with the loops of all_gather, any choice of svc to call it or not", "why_tests_cant": "Which channels are found empty in the first pass, and whether a channel's end is met inside all_gather or in the main loop, depends on the schedule; the hangs need a channel to end inside one call and another call later.", "anchors": ["ff/gt.hpp: ff_gatherer::all_gather, svc", "ff/lb.hpp: ff_loadbalancer::all_gather, svc", "ff/multinode.hpp: ff_minode_t::all_gather"]}
{"id": "C62", "title": "Index arithmetic of parallel_for", "statement": "For first < last, step >= 1 and grain >= 0 such that the range has fewer than 2^53 numbers and a few steps and grains beyond its end are still longs, neither the partition of the loop among the workers, nor the handing out and stealing of chunks in any schedule, nor the loop of the body overflows a 64-bit long, and the number of iterations and of chunks, computed in double, is exact. Every range of longs should be covered and no accepted call should overflow: both are false.", "quantifier": "every first, last, step, grain, number of workers up to 256, table left by previous loops, and every interleaving of the workers or of scheduler and workers", "why_tests_cant": "overflow and rounding happen at the far end of the 64-bit domain, for combinations of range, step, grain and interleaving that no test loop can iterate over", "anchors": ["ff/parallel_for_internals.hpp: setloop, init_data, init_data_static, sendTask, nextTask, nextTaskConcurrent", "ff/parallel_for.hpp: parallel_for"]}
{"id": "C63", "title": "Networks of nodes on TSO hardware", "statement": "A program made of nodes connected by channels, in any topology without a channel from a node to itself, run on a machine where each thread's stores reach memory late but in order, behaves as if every channel were an atomic queue of values: svc of the consumer is given, in order, the values the producer sent, with the contents the producer stored in the objects; it is never given a null pointer; each node pushes what its code asked for, once; the end of stream is sent once on every channel, after all items; a program without cycles ends on every schedule and every delay of the stores, and stops only when all nodes have ended, with everything delivered. A node does not touch an object after passing it on, and sends each object to one channel.", "quantifier": "any number of nodes and channels, bounded (any size >= 1) or unbounded, any user code, any choice of objects to send, every interleaving of the slot accesses and of the moments at which stores reach memory", "why_tests_cant": "whether a consumer sees a pointer before the contents of the object, or a producer re-uses a slot too early, depends on when each store buffer is drained, in any number of threads at once; no test controls that", "anchors": ["ff/buffer.hpp: SWSR_Ptr_Buffer::push, pop, inc", "ff/node.hpp: thWorker::svc", "ff/lb.hpp: ff_loadbalancer::svc", "ff/gt.hpp: ff_gatherer::svc"]}
{"id": "C64", "title": "Parallel graph search", "statement": "A search for all results of the parallel graph search returns, for every number of workers and every schedule, exactly the nodes reachable from the start node that match, each once, and reports whether there is one. A search for one result returns with a reachable node that matches, or reports that there is none.", "quantifier": "all graphs whose reachable nodes have distinct identifiers below the size of the mask, all start nodes, all matching predicates, all numbers of workers, all interleavings of emitter and workers and all choices of worker", "why_tests_cant": "The emitter and the workers share a flag and exchange nodes over feedback channels; what is found, and whether the search ends, depends on who reads the flag when, and on the shape of the graph.", "anchors": ["ff/gsearch.hpp:ff_graphsearch::search", "ff/gsearch.hpp:Emitter::svc", "ff/gsearch.hpp:Worker::svc", "ff/lb.hpp:ff_loadbalancer::svc", "ff/lb.hpp:absorb_eos"]}
{"id": "C65", "title": "Pool evolution", "statement": "The pool evolution pattern leaves in the caller's vector what the sequential algorithm 'while not t(P): N = e(s(P)); P += f(N,P)' computes with the user's functions, whatever the number of workers and their interleaving, and touches no other vector; populations of a stream are evolved independently.", "quantifier": "all types, selection, evolution, filter and termination functions, environments, populations, numbers of workers, interleavings of the workers' accesses to the elements, streams of populations", "why_tests_cant": "Workers rewrite the elements of one shared buffer; a wrong partition or a shared access shows up only under some interleavings, sizes and degrees.", "anchors": ["ff/poolEvolution.hpp:poolEvolution::svc", "ff/poolEvolution.hpp:setParEvolution", "ff/parallel_for.hpp:ParallelForReduce::parallel_for_thid"]}
{"id": "C66", "title": "A multi-input node knows which channel each message came from", "statement": "In a node with several input and feedback channels, registered in any order, every call of svc for a message and every end-of-stream notification of a channel is made with get_channel_id() = k and fromInput() true if the message is from the k-th channel given to set_input, with get_channel_id() = k and fromInput() false if it is from the k-th channel given to set_input_feedback; the calls of one channel are made in its order, and when the node ends each channel has had all of them. The call without a task that starts a node with skipfirstpop reports channel -1.", "quantifier": "all registration orders and numbers of channels, all contents, all arrival orders, all svc and eosnotify, all runs", "why_tests_cant": "the numbers depend on the round-robin position, the channels already ended and the registration order; a test fixes one arrival order and one topology", "anchors": ["ff/gt.hpp: ff_gatherer::svc, gather_task, get_channel_id, fromInput", "ff/multinode.hpp: ff_minode::set_input, set_input_feedback, eosnotify"]}
{"id": "C67", "title": "The queue of variable-size messages delivers every message intact and in order", "statement": "With one producer (enqueue_prepare, fill, enqueue_commit) and one consumer (dequeue_prepare, read, dequeue_commit) on a TSO machine, the consumer gets the messages in commit order, each once, with every word the producer wrote, never before the message is visible; it finds the queue empty only when it has taken all visible messages; no access ever touches memory outside the queue's allocated buckets, although passed buckets are freed or used again; both calls return.", "quantifier": "all bucket sizes and limits, message sizes, initial memory contents, interleavings and store-buffer delays", "why_tests_cant": "use of a bucket again while the other thread can still read it, and stores becoming visible late, need particular interleavings and machine states", "anchors": ["ff/ff_queue.hpp: ff_queue::enqueue_prepare, enqueue_commit, dequeue_prepare, dequeue_commit, enqueue_prepare_slow"]}
{"id": "C68", "title": "On x86 the bounded multi-producer multi-consumer queue stays a FIFO queue; its failures are exact up to stores not yet visible", "statement": "On a TSO machine, the pushes and pops that return true behave, at one moment inside each call, as on a FIFO queue of the given capacity: no value is lost, duplicated or invented. push reports full, and pop empty, only if that is so or an operation of the other kind by another thread took effect and its stores have not all reached memory; a thread running alone, after the others' stores have reached memory, gets exact answers. No thread blocks.", "quantifier": "all capacities of at least 2, numbers of threads, interleavings and store-buffer delays", "why_tests_cant": "the delays of store buffers and the interleavings of many threads cannot be enumerated by tests, and a late store shows only under load", "anchors": ["ff/mpmc/MPMCqueues.hpp: MPMC_Ptr_Queue::push, MPMC_Ptr_Queue::pop, MPMC_Ptr_Queue::init"]}
{"id": "C69", "title": "wrap_around() connects the last stage of a pipeline back to the first with exactly the feedback channels the stages call for", "statement": "run() of a pipeline of nodes, farms and all-to-alls with wrap_around() is accepted exactly when the stages fit together and the last fits the first. Once accepted, every pair of threads that should communicate, forward or back, shares one channel of its own; in the list of a multi-input or multi-output node the feedback channels come first, each group in the documented order; every channel has one writer and one reader. When the pipeline runs, whatever the nodes send, no thread is blocked for ever by a full channel.", "quantifier": "all pipelines of any number of stages of any kind and size; all codes of the nodes, capacities of the forward channels and schedules", "why_tests_cant": "the combinations of kinds and sizes of the first and the last stage are unbounded, and a missing feedback channel or a cycle of full channels shows only as a run that never ends", "anchors": ["ff/pipeline.hpp: ff_pipeline::prepare_wraparound, ff_pipeline::wrap_around, ff_pipeline::prepare", "ff/multinode.hpp: set_input_feedback, set_output_feedback, prepare", "ff/farm.hpp: set_output_feedback, set_input_feedback", "ff/node.hpp: set_output_feedback, set_input_feedback"]}
{"id": "C70", "title": "wrap_around() of a farm gives the emitter exactly the feedback that was asked for, whatever the order of the configuration calls", "statement": "After wrap_around() on a farm that has a collector, what the collector sends reaches the emitter on one channel; on a farm without a collector each worker gets a channel of its own to the emitter. The emitter listens to these channels and to nothing else, each is written by one thread, and this does not depend on the other configuration calls made before or after (add_workers, add_collector, remove_collector, set_ordered, setlb).", "quantifier": "all sequences of configuration calls that contain one wrap_around(), all numbers and kinds of workers, all collectors", "why_tests_cant": "the sequences of calls are unbounded; a lost feedback channel is silent until the emitter waits for ever, and a null output only shows when the collector first sends", "anchors": ["ff/farm.hpp: ff_farm::wrap_around, prepare, add_collector, remove_collector, set_ordered, setlb, set_output_buffer", "ff/lb.hpp: ff_loadbalancer::operator=, set_masterworker, set_input_feedback, svc", "ff/gt.hpp: set_output_buffer, push, svc, dryrun"]}
{"id": "C71", "title": "An all-to-all connects every node of its first set to every node of the second, and wrap_around() connects them back", "statement": "run() of an all-to-all is accepted exactly when its two sets fit. Once accepted, output number i of node j of the first set is a channel of its own to node i of the second set, whose input number j it is. With wrap_around() the second set is connected back: everyone to everyone if the second set has several outputs and the first several inputs, otherwise the i-th node to the i-th; these channels come first in each list. No thread has any other channel, and none is without a writer. This also holds when the nodes of a set are of different kinds.", "quantifier": "all sizes of the two sets, all kinds of each of their nodes, with and without wrap_around()", "why_tests_cant": "the sizes and the mixtures of kinds are unbounded; a missing channel is silent: a node waits for ever for an end-of-stream mark", "anchors": ["ff/all2all.hpp: ff_a2a::prepare, wrap_around, create_input_buffer, create_output_buffer", "ff/multinode.hpp: set_output, set_input, set_output_feedback, set_input_feedback, internal_mo_transformer, internal_mi_transformer", "ff/node.hpp: set_output, set_input"]}
{"id": "C72", "title": "A task farm runs every task exactly once before wait() returns, run after run", "statement": "A task farm (ff_taskf) may be used for any number of rounds, each made of run(), AddTask() calls and wait(), or of AddTask() calls and run_then_freeze(). Every task added in a round is executed exactly once, and its closure deleted, before the wait() or run_then_freeze() of that round returns; and that call always returns.", "quantifier": "every number of workers, capacity of the workers' channels, sequence of rounds of both kinds with any number of tasks and of workers to use, and every interleaving of the user's thread, the scheduler and the workers, including when threads fall asleep and are woken up", "why_tests_cant": "whether a worker is still asleep from the previous round when the next one begins depends on the operating system's scheduling; a test sees a few interleavings of a few rounds", "anchors": ["ff/taskf.hpp: ff_taskf::AddTask, run, wait, run_then_freeze, Scheduler::svc, Scheduler::eosnotify", "ff/lb.hpp: thaw, wait_lb_freezing, svc, collect_task, broadcast_task", "ff/node.hpp: ff_thread::thread_routine, thaw, wait_freezing"]}
{"id": "C73", "title": "The block reported for a node is the innermost one that contains it", "statement": "getBB(start, n) returns the innermost pipeline, farm, all-to-all or composition inside start that has n as a direct component, n itself when start is n, and null when n does not occur in start; so that change_node called on the result replaces n.", "quantifier": "every graph of building blocks, nested to any depth and with any number of components, and every node", "why_tests_cant": "the search recurses over graphs of unbounded depth and the result depends on where the node is and on the kinds of all the blocks met before it; tests build a few graphs", "anchors": ["ff/graph_utils.hpp: getBB", "ff/combine.hpp: ff_comb::getLeft, getRight, getFirst, getLast", "ff/farm.hpp: getEmitter, getCollector, add_emitter"]}
{"id": "C74", "title": "Replacing a node keeps its place and deletes each node as asked", "statement": "change_node(old, n, cleanup, remove_from_cleanuplist) called before the run on a pipeline, farm, all-to-all or composition that contains old returns true and puts n exactly in the place of old; n is deleted by the block if and only if cleanup was given; old is deleted as it would have been before, or not at all if the caller took it back with remove_from_cleanuplist; nothing else moves, and no node is deleted twice. If old is not in the block the call returns false and changes nothing.", "quantifier": "every pipeline, farm, all-to-all and composition with any number of nodes and any ownership of them, every old and new node, both flags", "why_tests_cant": "ownership is spread over several lists and flags and shows only when the block is destroyed; tests try a few combinations and a leak or an early delete may stay silent", "anchors": ["ff/pipeline.hpp: change_node, insert_stage, remove_stage, ~ff_pipeline", "ff/all2all.hpp: change_node, ~ff_a2a", "ff/farm.hpp: change_node, change_emitter, add_emitter, add_collector, ~ff_farm", "ff/combine.hpp: replace_first, replace_last, change_node, ~ff_comb"]}
{"id": "C75", "title": "Each kernel of a command string gets its own device and memory flags", "statement": "For a command string in the documented format, extractFlags(cmd, k) returns, for each argument of kernel k in order, whether to copy it (S or R), reuse it (U) and release it (F), and the device selected for kernel k is the one written for kernel k.", "quantifier": "every command string in the format, with any number of kernels, any kernel numbers, any number of arguments and any flags, any text before and after", "why_tests_cant": "the search works on raw text, so a wrong answer depends on how the numbers of the kernels and their order look in decimal; tests use one or two kernels", "anchors": ["ff/bitflags.hpp: extractFlags", "ff/repara/rprkernels.hpp: getDeviceID"]}
{"id": "C76", "title": "A node combined with the first or last stage acts as a stage before or after the whole pipeline", "statement": "combine_with_laststage(pipe, n) and combine_with_firststage(pipe, n) that return 0 leave a pipeline logically equivalent to pipe2(pipe, n) and pipe2(n, pipe): every item goes through exactly the nodes it went through before, in the same order, then (or before that) through n, whichever workers it takes. A call that returns -1 leaves the nodes every item goes through as they were.", "quantifier": "every pipeline of nodes, compositions, farms and all-to-alls nested to any depth, with any number of workers and of stages", "why_tests_cant": "the functions recurse over the nesting and treat the first worker and the others differently; tests combine with a few flat pipelines", "anchors": ["ff/optimize.hpp: combine_with_laststage, combine_with_firststage, combine_with_emitter, combine_with_collector, combine_right_with_farm, combine_right_with_a2a, combine_left_with_a2a", "ff/pipeline.hpp: flatten, get_and_remove_nodes"]}
{"id": "C77", "title": "Combining two farms keeps every stage in sequence", "statement": "combine_farms(farm1, node1, farm2, node2, mergeCE) gives back a pipeline in which every item goes through farm1's emitter, one of farm1's workers, node1 if given, node2 if given, one of farm2's workers and farm2's collector; with mergeCE, no nodes and as many workers in both farms, the i-th worker of farm1 is followed by the i-th of farm2. Ordered farms keep farm1's own collector and farm2's own emitter, or the call is refused with an error.", "quantifier": "all pairs of farms, with any number of workers (nested blocks included), with or without emitters and collectors, ordered or not; all choices of node1, node2 and mergeCE; all kinds of nodes", "why_tests_cant": "there are four cases times two modes times the kinds of nodes and farms, and tests run a few of them on fixed sizes; a node left out of the result changes no count of items", "anchors": ["ff/combine.hpp: combine_farms, combine_farms_a2a, combine_farms_nf, combine_ofarm_farm", "ff/farm.hpp: change_emitter, remove_collector, getCollector"]}
{"id": "C78", "title": "Two stages combined in a pipeline stay in sequence", "statement": "combine_nodes_in_pipeline(node1, node2) gives back a pipeline in which every item goes through node1 and then node2, whether they are nodes, compositions or farms, with or without emitters and collectors; a pair of stages it cannot combine is refused with an error and nothing is silently left out.", "quantifier": "all pairs of stages: nodes, nested compositions, farms (ordered or not) with any number of workers, any emitter and collector, all-to-alls, pipelines; all kinds of nodes", "why_tests_cant": "the merge depends on the presence and the kind of four filters, and tests run a few combinations; the combinations that abort or lose a stage are not among them", "anchors": ["ff/combine.hpp: combine_nodes_in_pipeline, combine_ofarm_farm, ff_comb", "ff/farm.hpp: add_emitter, change_emitter, add_collector, remove_collector"]}
{"id": "C79", "title": "Combining two farms respects ownership", "statement": "After combine_farms, every emitter, collector and worker the two farms had to delete is deleted exactly once, by the call, by a farm or by the pipeline given back, and no other node of the caller is deleted.", "quantifier": "all pairs of farms with any number of workers, all combinations of the cleanup flags, all choices of node1, node2 and mergeCE", "why_tests_cant": "a double delete or a leak shows only for some of the 64 combinations of flags in each of the nine cases, at destruction, and often without a crash", "anchors": ["ff/combine.hpp: combine_farms, combine_farms_a2a, combine_farms_nf, combine_ofarm_farm", "ff/farm.hpp: change_emitter, add_emitter, ~ff_farm, cleanup_workers, cleanup_all"]}
{"id": "C80", "title": "Combining two stages in a pipeline respects ownership", "statement": "After combine_nodes_in_pipeline(node1, node2, cleanup1, cleanup2), each stage given with cleanup and each node owned by a farm is deleted exactly once when the farms and the pipeline are destroyed, and no other node of the caller is deleted.", "quantifier": "all pairs of nodes and farms, with any number of workers, all combinations of the cleanup flags of the farms and of the two arguments", "why_tests_cant": "leaks and double deletes depend on the presence of the filters and on eight flags, and show only at destruction, often without a crash", "anchors": ["ff/combine.hpp: combine_nodes_in_pipeline, combine_ofarm_farm", "ff/farm.hpp: add_emitter, change_emitter, add_collector, cleanup_all, ~ff_farm", "ff/pipeline.hpp: add_stage"]}
