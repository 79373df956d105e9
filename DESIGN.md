# Machine-checked model of redGrapes: design

Source under study: `/repo` (redGrapes, C++). All paths below are relative to `/repo/redGrapes`.
The model is written in Rocq/Coq 8.16.1 under `rocq/theories` (logical name `Verif`).

## Trusted base

* The Coq 8.16.1 kernel (and `coqchk`, which re-checks the compiled files).
* What `Print Assumptions` lists for each theorem: nothing. It prints "Closed under the global
  context" for every theorem named in MANIFEST.json (checked one by one for all of them): no axiom of
  ours, no library axiom. Each `Properties*.v` ends with a `Print Assumptions` of all its theorems.
  `coqchk -o` lists seven constants of the standard library's `Coq.ssr.ssrunder.Under_rel` (`Under_rel`,
  `Under_rel_from_rel`, `Under_relE`, `Over_rel`, `over_rel`, `over_rel_done`, `under_rel_done`): they are in a
  sealed module that is loaded along with libraries used here. No theorem depends on them.
* The hand-written translation from C++ to Gallina. Each model definition cites file and lines.
* Sequential consistency of atomics, with three exceptions. C52 also has x86 store buffers for the
  plain store of `Event::waker_id`. C53 (spin lock) and C54 (condition variable of a worker) use
  views: a location is the list of all its values, a thread reads any value not older than what it
  knows, release/acquire pass knowledge on. In C54 the task queue stays linearizable. Weaker orderings
  elsewhere (bitfield `set`, `m_stop`) are *not* modelled.
* C61 adds acquire/release labels to the steps of the interleaved machine: which steps are labelled, and with
  what, is trusted (`HbModel.v` cites each), so is the promise of moodycamel's queue that `enqueue` happens
  before the `try_dequeue` that returns the element. Races on the runtime's own plain data are outside C61.
* `moodycamel::ConcurrentQueue` is taken as a bag, linearizable except in C58 (there a worker may miss a
  task until the pusher called `wake()`), `std::shared_ptr` /
  `std::atomic_load` as ideal references, `std::mutex` as an ideal mutex.

Not modelled: hwloc itself (C77 and C78 take from it what its calls are specified to do), tracing, logging
(apart from how accesses are printed, C76), boost context internals, CUDA/MPI library calls
(only their specified outcome), compile-time template plumbing, `util/` type traits.

## Structure

For each area there is a model file (`*Model.v` or the definition part of a file; definitions only,
with citations), proof files, and `Properties*.v`: statements with their examples, proofs are one-line
references. Specifications (what a property says) are written with small definitions of their own, not
with the model's helper functions.

`RepoTests.v` makes the 114 checks of the unit tests for accesses, resources and
resource users (`test/access.cpp`, `test/resource.cpp`, `test/resource_user.cpp`) on the
model. They test that the model agrees with the code; no property rests on them.

## Properties: what is modelled, how it is proved

| id | model | proof shape |
|----|-------|-------------|
| C01 | IO modes as an inductive type, `io_is_serial`; operations on an integer cell (read, write, add, mul) | case analysis; commutation of cell transformers |
| C02 | areas as pairs of N (64-bit) | linear arithmetic |
| C03 | policies as an inductive tree (IO, Area, Array And/Or, Combine And/Or); element operations ("touches") as a matching tree | nested induction on policies |
| C04 | same | induction |
| C05 | same, `is_superset_of` | induction |
| C06 | same, `is_synchronizing` | induction |
| C07 | `ResourceUser` as list of accesses | list reasoning |
| C08 | same with scope levels | list reasoning + C05 |
| C09 | builder functions on lists | induction; the argument path is refuted by a witness |
| C10 | guards as (area list, size), `make_area` partial | induction over call chains |
| C11 | `apply_patch` including the copy constructor that copies nothing | refutation + what does hold |
| C12 | `update_graph` on follower lists | refutation + partial theorem |
| C13 | interleaved small-step machine of the runtime: threads as stacks of frames, one step per atomic access; user lists with per-resource locks, event counters, follower lists, queues as bags | inductive invariant over reachable states |
| C14 | C13 machine with task bodies as programs over a memory | trace equivalence: conflicting operations keep submission order, others commute (uses C03) |
| C15 | C13 machine | invariant |
| C16 | C13 machine | invariant (counter accounting + acyclicity) |
| C17 | C13 machine | decreasing measure |
| C18 | C13 machine | invariant on edges |
| C19 | C13 machine | counter accounting invariant |
| C20 | C13 machine with external events | invariant |
| C21 | C13 machine with nested tasks | refuted with a run; partial under "children initialised before the body ends" |
| C22 | C13 machine, tasks may name a resource several times (self edges) | refuted with a run; invariant: who never starts; otherwise C16 |
| C23 | C13 machine with any number of submitting threads and an arbitrary order of the tasks instead of their names | refuted with runs; for orderly submissions (a lock around `emplace_task`, or one resource per task) the invariant of C13 with a rank built from the run |
| C24 | counters mod 2^16 | refuted beyond 65535, proved below |
| C25, C26 | C13 machine with frees recorded | invariant; C26 refuted with a run, partial otherwise |
| C27 | future as affine object, histories | invariant over histories |
| C28 | builder as affine object | invariant over histories |
| C29 | C13 machine / task counter | invariant; liveness part refuted for held futures |
| C30 | any number of tasks, events, workers; pause split at its atomic accesses | invariant for non-overlapping notifications; two windows refuted with runs |
| C31 | `TaskBase::operator()` loop | invariant for tasks with stack switching; refuted without |
| C32 | ChunkedList sequential, offsets and chunks explicit | refinement to a list |
| C33 | Item refcount protocol, any number of threads | invariant |
| C34 | concurrent push machine | invariant |
| C35 | push/remove machine | refuted with a run; partial for serialised pushes |
| C36 | AtomicList heap of nodes with prev pointers, all interleavings | invariant with history variables (rank, membership) |
| C37, C38, C39 | bump and chunked bump allocators over N addresses | invariants; hang refuted/characterised |
| C40, C41 | 64-bit words as N | bit reasoning; `set` refuted for bit >= 32 |
| C42, C43, C44 | thread machines | invariants |
| C45 | counters mod 2^32 | arithmetic |
| C46 | list search | induction |
| C47 | request pool lists | refinement over poll histories |
| C48 | pool, per-stream queues, recordings; dispatch and poll split at their notifications | invariant; order refuted for nested dispatches |
| C49 | fetch-and-add counter | invariant |
| C50 | parent chain | induction; wrap at depth 256 refuted |
| C51 | C13 machine with nested tasks | invariant when children are initialised before the body ends; refuted otherwise |
| C52 | one waiting thread, any number of notifying threads, condition variable, store buffer | invariant, measure; lost wake-up refuted with a run |
| C53 | spin lock with per-thread views of memory | invariant |
| C54 | condition variable with per-thread views | invariant; stale failing compare-exchange refuted with a run |
| C55 | arenas as lists of blocks, per-thread counters mod 2^32 | invariant; leak refuted for every number of workers above the number of units |
| C56 | loop with a 16-bit counter | induction; refuted beyond the range |
| C57 | main thread in finalize, workers, calls of free_task split at their accesses | invariant, measure; refuted for other threads |
| C58 | machine of C13-C26 with queues per worker, stealing, sleeping flags and pending wakes | refinement, invariant, measure |
| C59 | C13 machine, nested tasks; spec: run each task where it is emplaced | order of operations characterised, invariant on pairs of operations, exchange argument |
| C60 | C13 machine; spec: private state of a task in the sequential run | history followed by the open rest of the bodies, exchange argument |
| C61 | C13 machine; each step labelled with the objects it acquires and releases (`HbModel.v`) | invariant on histories: what a thread, a counter, a lock, a queue element knows |
| C62 | C13 machine with any number of submitting threads, all interleavings | the order of entry into each user list, recorded along the run, is the rank the invariants of C13 and C61 need; results: exchange of operations that do not conflict |
| C63 | C62 machine in which get() in a body suspends the task: store of the pre event's counter, test, push, count, up(), resumption by any worker (`PauseModel`) | tokens: who may resume a suspended task (sums over stacks, ready queue and follower lists); refinement of the C62 machine with one more thread per suspended task, which only stutters in suspension and resumption; potential for the stuttering steps; progress from that of C62 |
| C64 | C63 machine with one submitting thread; C13 and C58 machines for bodies that do not wait | what has been done is downwards closed, up to operations that do not conflict, in the order on the spot; the missing operations are appended and the whole is exchanged into that order (`NestValue`) |
| C65 | C63 and C62 machines with any number of submitting threads | as C64, for the program whose main body is the sequence of root tasks in the order their bodies were taken up (`FreeNest`) |
| C66 | the tasks of examples/cholesky.cpp for any number of tiles (`AppModel`), run by the C13 and C58 machines | programs of root tasks (`AppProof`): every maximal execution has the result of the calls one after another; the loops are solved column by column (`AppChol`); 16-bit counters by counting the calls per tile (`AppCount`, `AppMore`) |
| C67 | the tasks of examples/game_of_life.cpp for any sizes (`AppModel`), run by the C13 and C58 machines | as C66; effect of each task on the buffers, cell by cell; invariant over the generations (`AppLife`) |
| C68 | bodies that call barrier(), in the machines of C13, C58, C63 | the root of a running task is counted in the root space (`SchedBarrier`); the invariants of C13 need no assumption on barrier() (`wfa`, `wfc` in `SchedSpec`), so the results without progress are stated for programs with such calls (`wfp`, `wf_any`) |
| C69 | the C58 pool with the marks AVAILABLE/BUSY, each access to them and each step of a search (`MarkModel`) | refinement of the C58 pool, measure, an invariant per thread (`MarkProof`), invariant on sleeping workers and coverage of a search (`MarkSleep`) |
| C70 | C63 machine with acquire/release labels on every step, the assignment in sg_pause, and the accesses to continuations (`PauseHb`) | every step of the history is matched with one of the history of the C62 machine in which the waiting body has a thread of its own, or belongs to suspension or resumption; the order of that machine is carried over (`PauseHbProof`, `PauseHbThm`); joins inside bodies (`HbJoin`) |
| C71 | `test/random_graph.cpp` over the machine of C13-C17 and the pool of C58, with any hash (`RandModel`) | application theorems of C66 (`AppProof`), fold over the tasks of one resource, permutations of the calls |
| C72 | `examples/mpi.cpp` on all ranks, over the machine of C13-C17 and the pool of C58; MPI by a delivery condition (`RingModel`) | application theorems of C66 per rank (`RingProof`), induction over the turns of all ranks together, order of conflicting tasks (C13) for the tags |
| C73 | `ChunkedBumpAlloc::allocate`, `deallocate` by several threads at once (`AllocModel`, as for C38 and C39, without the condition that frees and allocations do not overlap) | invariant with a ghost count of the chunks each thread added, compared with the chunks some request was answered from (`AllocLive`) |
| C74 | `test_worker_utilization` (`UtilModel`) on the pool of C58, with the placement of `Context::emplace_task` | invariant: where each of the n tasks and its worker are, from the call of main to the body (`UtilProof`); witnesses by computation |
| C75 | `StdAllocator::allocate` (`AlignModel`) on the allocators of C37-C39 (`AllocModel`) | induction over the accesses; invariant: `next_addr` of every chunk, the sizes and addresses in every thread and every block are multiples of 2^k; witnesses by computation |
| C76 | the fmt formatters of accesses, access lists and task properties (`FormatModel`); JSON by a reader with a stack (`FormatSpec`) | induction on policy types and lists: reading a printed value from any state delivers it (`FormatProof`); injectivity |
| C77 | `StaticAlloc` and `HwlocAlloc` on pages (`HwModel`); the meaning of mapping and unmapping is that of hwloc on Linux, assumed | invariant: chunks in use are mapped and disjoint, and the mapped pages are counted; a family of histories for the leak |
| C78 | `emplace_workers`, `cpubind`, `membind`, `pin_cpu`, `unpin_cpu` (`PlaceModel`) | the loop in closed form; counting by induction on the number of workers |
| C79 | `BuildProperties`, the argument part of `TaskBuilder`, the guards of `IOResource` (`ArgModel`) on the access lists of C07-C11 (`UserModel`) | the access list in closed form; permutations; induction on the calls that lead to a guard |
| C80 | `emplace_task`, `Context::emplace_task`, `BindArgs` (`BindModel`): variables of the caller, copies, moves and references | induction on the program of the caller: variables that were not given away agree with the assignments |
| C81 | patch builders (`DemoModel`: every call returns a copy), `Context::update_properties`, `examples/5_access_demotion.cpp` | induction on the chain of calls; the characterisation of accepted patches (C11) |
| C82 | the request pool of C47 with null requests (`NullModel`: what `MPI_Testsome` may report) | induction on the history, with C47 for each poll |

## Findings

Defects of the code for which the faithful model gives a machine-checked witness
(`..._refuted`), with the theorem that says what does hold.

| finding | theorem |
|---------|---------|
| A task whose arguments name one resource twice waits for itself forever (`resource.hpp`/`task_builder.hpp` push duplicates into `unique_resources`; `graph.cpp:58` then meets the task's own older entry). | `C09_..._refuted`, `C22_every_submitted_task_runs_refuted`; exactly the tasks that also conflict with themselves: `C22_impatient_tasks_never_run`, `C22_patient_tasks_run` |
| `ResourceUser` copy constructor / patch application reject legal demotions and leave rejected ones applied. | C11 |
| `FieldResource` guard `operator->` bypasses the declared area. | C10 |
| `at()` of a field guard does not throw for the index 2^64 - 1: the end of its area wraps to 0 (`fieldresource.hpp:146-152`). | `C10_at_any_index_throws_outside_refuted` |
| The edge child.post -> parent.post is added only when the child is initialised (`graph.cpp:77-81`), which may happen after the body of the parent ended. The parent then completes, frees itself and releases its successors before its children ran; completing a second time it frees itself while the future is still held. One worker taking tasks in FIFO order suffices. `barrier()` may return with children pending. | `C21_..._refuted`, `C51_..._refuted`; guarded: `C21_..._partial`, `C51_..._partial` |
| Two threads submitting to one space push into the per-resource user lists in different orders: two tasks wait for each other. | `C23_submission_from_several_threads_refuted` |
| The same with three threads whose tasks share one resource pairwise. | `C23_sharing_one_resource_pairwise_refuted` |
| `Event::state` is 16 bit: a task with 65535 events is treated as complete while its body runs. | `C24_..._refuted`; below the bound: `C24_counters_do_not_overflow` |
| `EventPtr::notify` reads `waker_id` after the decrement that made the task runnable (or, with an outstanding event, completable); another worker may have run and freed the task. | `C26_..._refuted` |
| `barrier()` waits for released, not completed tasks: a held future blocks it forever. | `C29_..._refuted` |
| `AtomicBitfield::set` returns the old bit through a 32-bit variable: for bits 32..63 of a chunk it always reports 0. A worker with such an index can be made busy but its claim is reported as failed: with more than 32 workers `find_free_worker` misses free workers and leaves them marked busy. | `C41_..._refuted`; at most 32 workers: `C41_claimable_32` |
| `first_one_idx` negates a signed 64-bit number: undefined for the word 2^63, i.e. when worker 63 is the only match in its chunk. | `C40_first_one_refuted`, `C40_probe_undefined_refuted` |
| `probe_by_value` tries the indices below `start_idx` of the start chunk first, contrary to its comment, and `exclude_start` removes a bit that is not in the mask anyway. | `C40_order_refuted`, `C40_exclude_refuted` |
| `DefaultScheduler::activate_task` dereferences the null `current_worker` when a thread that is no worker makes a task ready while all workers are busy; at the wrap of its 32-bit counter it may choose the calling worker. | `C45_activate_from_any_thread_refuted`, `C45_fallback_across_wrap_refuted` |
| `TagMatch::task_dependency_type` takes `Task&` and does not override the interface function; the type of the sub-scheduler is never used. | `C46_dependency_type_of_matching_scheduler_refuted` |
| `dispatch_task` notifies the pre-event between `cudaEventRecord` and `events.push`: a task made ready by it and dispatched on the same stream is queued in front; the earlier task is not notified until the later one has finished. | `C48_notified_in_stream_order_refuted`, `C48_finished_oldest_is_notified_refuted` |
| `ResourceUser::scope_level` is 8 bit: in a task at depth 256 accesses of children to resources of scopes 1..256 are not checked. | `C50_scope_check_any_depth_refuted` |
| `ChunkedList::Item::acquire` reads the offset before the count: after a complete removal in between it reports success for a destroyed element; its release throws out of a destructor or destroys the value again. | `C33_no_holder_of_destroyed_refuted`, `C33_release_never_throws_refuted`, `C33_destroyed_once_refuted` |
| An `acquire` that loses against a removal takes its increment back without checking whether it was the last: the value is never destroyed and its chunk never released. | `C33_removed_is_destroyed_refuted` |
| An iteration of a `ChunkedList` that begins between the append of a new chunk and the first slot taken in it sees an empty list. | `C34_iteration_complete_refuted` |
| `ChunkedList::remove` beside a slot that is taken but not assigned stores an offset that leads over that slot for ever: the element pushed there is never visited. Concerns lists with concurrent pushes, such as `Event::followers`. | `C35_removal_hides_nothing_refuted` |
| `BumpAllocator` subtracts before it compares: a request larger than the remaining address (or enough refused ones) wraps `next_addr`; later requests are answered outside the region. | `C37_in_range_refuted`, `C37_refused_then_out_of_range_refuted` |
| `BumpAllocator::deallocate` returns the old count, its comment says the number of remaining blocks. | `C37_remaining_refuted` |
| `BumpAllocator::allocate` counts a block after taking its bytes: a concurrent free of the last counted block erases the exhausted chunk though a block of it was just handed out; the memory is given out again. | `C38_blocks_disjoint_refuted` |
| The block count of a chunk is 16 bit: a chunk of 128 KiB with 65537 one-byte blocks is erased at the first free. | `C38_chunk_of_block_kept_refuted` |
| A block of zero bytes at the upper limit belongs to no chunk: its free is ignored. A chunk emptied before it was exhausted is never erased (later blocks exhaust it without a free that would). | `C38_every_block_freed_refuted`, `C38_empty_chunk_given_back_refuted` |
| `ChunkedBumpAlloc::allocate` compares with the capacity, not with what a chunk can hold: requests of 32769 to 65536 bytes (default chunk size) allocate chunks for ever. | `C39_every_request_answered_refuted`, for all sizes `C39_too_large_for_a_chunk_hangs` |
| Requests above 2^63 bytes are rounded to 0 and answered; with a capacity that is no power of two, requests up to it may be refused. | `C39_huge_request_refuted`, `C39_up_to_capacity_refuted` |
| The copy constructor of `TaskBuilder` takes the task away from the original: submitting (or setting a property of) the original afterwards dereferences a null pointer. | `C28_copied_builder_usable_refuted` |
| A second `get()` of a future, or one on a moved-from future, notifies the result-get event again although the task may be destroyed. | `C27_any_use_refuted` |
| `followers.erase` in `update_graph` removes every equal entry but the follower is notified once: a task sharing two resources with the demoting task waits for ever. | `C12_every_follower_released_refuted` |
| `update_graph` between `followers.push` and `state++` of `add_follower`: the task is handed out before its initialisation is complete and once more afterwards. | `C12_ready_once_refuted` |
| `update_graph` treats the completion edge to the parent like a dependency: if child and parent do not conflict, any demotion of the child lets the parent complete before the child. | `C12_parent_edge_kept_refuted` |
| A task suspended on an event whose notification begins its iteration between `is_reached()` and `followers.push` of `add_follower` is never resumed. | `C30_lost_wakeup_refuted` |
| A notification that visits the edge between `state++` (event.cpp 75) and `pre_event.up()` (execute.cpp 44) hands the task over twice: two workers resume one continuation. | `C30_one_worker_refuted` |
| Without stack switching `TaskBase::event` is never reset: after one yield on an unreached event the task never ends, its body is run again and again. | `C31_marked_task_never_ends`, `C31_marked_body_repeats`, `C31_body_runs_once_refuted` |
| `Event::waker_id` is a plain variable: on x86 the store in `yield` (redGrapes.cpp 166) may still be in the store buffer when the notifying thread reads it, while the test of the event has already been made. The main thread then sleeps in `get()` for ever although the result is set. | `C52_get_returns_refuted`; `barrier()` is safe: `C52_barrier_returns` |
| `idle` is `thread_local` and set only for the thread that constructed the context: `get()` or `barrier()` of any other thread that is no worker throws `std::bad_function_call` unless there is nothing to wait for. | `C52_any_thread_may_wait_refuted` |
| `CondVar::notify` relies on a failing `compare_exchange` (release on success, hence relaxed on failure) to see the newest flag. Where it may be performed before the push of the task, a worker goes to sleep with the task in its queue. | `C54_no_sleep_on_work_refuted`, `C54_no_sleep_on_work_partial` |
| `free_task` gives a task back to `get_worker(arena_id).alloc`, the allocator of processing unit `arena_id % n_pus`, but it was taken from allocator `arena_id`. With more workers than units every task of a surplus worker leaks (the foreign allocator ignores the block). | `C55_all_returned_refuted`; otherwise `C55_memory_is_what_lives_partial` |
| `wake_all` counts in 16 bit and waker ids are signed 16 bit. | `C56_wakes_everybody_refuted`, `C56_wake_all_ends_refuted` |
| `free_task` uses the worker pool and the scheduler after its decrement of the task counter let `finalize()` pass: a thread that is no worker and destroys the last future uses destroyed workers. | `C57_nothing_used_after_teardown_refuted` |
| A body and the tasks it has emplaced are not ordered: what it does after the emplacement races with them, though both were accepted by the superset check. | `C59_parent_runs_on_the_spot_refuted` |
| A child initialised only after the body of its parent ended races, in the sense of the C++ memory model, with later tasks that conflict with both. | `C61_no_data_race_with_nested_tasks_refuted` |
| Two threads submitting at the same time: the outcome may be explained by no order of the tasks that keeps the order of each thread, though no deadlock occurs. | `C62_result_of_some_order_of_the_threads_refuted` |
| A task that waits with get() can be resumed by two workers at once, or stay suspended for ever, in the full runtime machine and with a program of two tasks. | `C63_one_place_in_every_execution_refuted`, `C63_no_deadlock_in_every_execution_refuted` |
| A body that touches data of a task it emplaced, before its get(), changes the result of the program, though it waits for the task. | `C64_any_body_that_waits_refuted` |
| `barrier()` waits for the root space, not for "the current task space" (comment redGrapes.cpp:134). In a task it never returns, even when the tasks it emplaced are done; on a worker the empty `idle` (its definition is commented out, worker.cpp:84-88) throws. | `C68_barrier_waits_for_the_current_space_refuted`, `C68_barrier_in_a_task_calls_idle` |
| With more than 32 workers `find_free_worker` marks a sleeping worker BUSY and goes on without it (the result of `fetch_and` is kept in a 32 bit `unsigned`, C41): the worker stays marked BUSY and is not found again until something else wakes it. | `C69_sleeping_worker_is_known_refuted` |
| A worker marks itself AVAILABLE again before it sleeps (worker.cpp:143, 183), also when it has just been claimed: two activations get the same worker while another one sleeps AVAILABLE. | `C69_claims_are_exclusive_refuted` |
| `emplace_task` and `activate_task` wake only the worker that gets the task: tasks wait in the queue of a worker that runs a long body while other workers sleep. | `C69_queued_tasks_wake_a_sleeping_worker_refuted` |
| A worker stays AVAILABLE while it initialises tasks; thieves look at BUSY workers only and do not see the rest of its emplacement queue. | `C69_new_task_is_seen_refuted` |
| Nothing but the counter of the pre event orders leaving a suspended body on one worker and taking it up on another (the mutex around `yield_cont` apart). | `C70_a_body_goes_on_without_the_counter_refuted` |
| The RandomGraph test cannot see a wrong order of tasks: `sha256_process` takes the value as `const` data and its `state` is thrown away, so `hash` only adds the number of the task to the first word. Any order of the calls gives the expected value, and task 0 is not checked at all. | `C71_the_check_does_not_see_the_order`, `C71_the_check_does_not_need_task_0`, `C71_the_check_sees_the_order_refuted` |
| `examples/mpi.cpp:140` computes the source as `(rank - 1) % size`, which is -1 for rank 0. In Open MPI -1 is `MPI_ANY_SOURCE` and the example works; in MPICH it is `MPI_PROC_NULL`: rank 0 receives nothing and zeros move into the field. | `C72_rank_0_asks_for_source_minus_1`, `C72_the_source_is_a_rank_refuted`, `C72_without_any_source_zeros_move_in`, `C72_the_ring_turns_with_every_mpi_refuted` |
| `ChunkedBumpAlloc::allocate` is not wait-free: a thread that adds a chunk may find it used up by others each time it looks again (`chunked_bump_alloc.hpp:93-110`). All threads together do make progress. | `C73_every_thread_is_answered_refuted`, `C73_executions_are_bounded` |
| A worker may sleep while a task waits in the queue of a busy worker: `DefaultScheduler::emplace_task` wakes only the worker that gets the task, the code that wakes an idle one too is switched off (`REDGRAPES_EMPLACE_NOTIFY_NEXT` is 0, `default_scheduler.cpp:41-62`). The task waits until the running body returns, forever if that body waits for it by other means than a future. | `C74_no_worker_sleeps_while_a_task_waits_refuted`, `C74_ex_nap` |
| The check of the test WorkerUtilization does not see whether every worker is used: it passes when one worker runs all tasks. | `C74_every_worker_gets_a_task_refuted`, `C74_ex_lone` |
| `StdAllocator<T>` ignores `alignof(T)`, and the allocator of a worker aligns a block only as all requests before it in the chunk allow: `IOResource<T>` or `FieldResource<T>` (they use `alloc_shared`) of a type with `alignas(64)` get memory at an odd multiple of 32, which is undefined behaviour. | `C75_aligned_to_the_type_refuted` |
| `StdAllocator<T>::allocate(n)` multiplies `sizeof(T) * n` without a check: beyond 2^64 bytes it returns a block that is too small instead of throwing. | `C75_room_for_any_number_refuted` |
| The text of the properties of a task is meant to be JSON and never is: `QueueProperty` and `GraphProperty` print nothing between their commas (`{ "id" : 4, "resources" : [], ,  }`). Labels are not escaped. | `C76_task_is_json_refuted`, `C76_any_label_refuted` |
| Memory leak: `StaticAlloc::deallocate` passes `sizeof(T) * n` on instead of the size its constructor allocated, so `hwloc_free` unmaps the first page of a chunk only. Every chunk given back (also at finalisation) leaves its other pages mapped, 16 of 17 for 64 KiB. | `C77_memory_is_bounded_refuted`, `C77_mapped_pages` |
| With more workers than processing units worker i is not allocated on arena i, as the comment in `emplace_workers` says, but on that of another worker. `unpin_cpu` (not called by redGrapes) allows the first 64 CPUs only. | `C78_own_arena_refuted`, `C78_unpinned_runs_anywhere_refuted` |
| A guard inside another argument (a vector of guards, a struct) is not registered, with a warning only; the member `obj` of every guard is public (`protected:` is commented out, resource.hpp:334) and not const, so a reader can write. | `C79_every_guard_counts_refuted`, `C79_readers_do_not_write_refuted` |
| The order in which a task enters the lists of its resources is the compiler's choice (`pass(build(args)...)`), not the order of the arguments; C23 shows that this order matters when several threads submit. | `C79_order_of_locks_refuted` |
| `emplace_task` uses `std::move(f)` where `std::forward` is meant: a callable given as a variable is moved from, and a second task emplaced with the same `std::function` (or lambda owning something) gets an empty one. | `C80_callable_is_kept_refuted` |
| Arguments given as temporaries are moved out of the closure when the body begins; a body that is begun again (C31) sees what is left. | `C80_second_run_refuted` |
| `examples/5_access_demotion.cpp` throws in `update_properties` instead of demoting: the copy `before` made by `apply_patch` has no elements. The access list is changed by then, but the graph is not updated. | `C81_the_example_demotes_refuted` |
| `RequestPool::get_status(MPI_REQUEST_NULL)` never returns: `MPI_Testsome` ignores null requests, so the event is never notified and the entry stays in the pool. | `C82_null_requests_wait_forever` |

Observed, without a theorem: `AtomicList::MutBackwardIterator::operator++` (`atomic_list.hpp:243`) reads
`prev` without `atomic_load` while others store it (a data race on a `shared_ptr`); `Item` assigns into raw
storage and destructs never-assigned slots (undefined for types with non-trivial assignment);
`iter_offset` is 16 bit, so chunks must have fewer than 65536 slots (a hypothesis of C32);
`HwlocAlloc` uses a null
result as an address; the counter in the constructor
of `Resource` (`resource.hpp:308`) is a plain static incremented by any thread; `StdAllocator` objects compare equal
though the memory of one arena cannot be given back to another; the output loops of `examples/game_of_life.cpp`
(105-107) leave out the last row and column, and the read areas of its chunks (130) are one cell wider than needed.
A guard passed as an lvalue does not compile: `BuildProperties<T&>` and the specialisation for types
convertible to `ResourceAccess` are ambiguous for `T&` (`emplace_task(f, g)` after `auto g = a.write();`).
`RequestPool::get_status` outside of a task dereferences the empty optional that `create_event` returns there
(`request_pool.hpp:88`, `redGrapes.cpp:78-84`).

## Partial results: what is missing

* C21, C51 (and C13, C15-C20, C24, C25, C58 for nested programs): schedules in which a body ends before
  its children are initialised. There the statements are false.
* C26: the reads of `waker_id` after a decrement to 1. There the statement is false.
* C14, C16, C18, C22, C58: tasks that name a resource twice and conflict with themselves never start, and what
  waits for them does not either. For programs with such tasks the statements are false.
* C24: programs that can exceed the bound. There the statement is false.
* C40, C41: the word 2^63; indices in the upper half of a chunk. There the statements are false.
* C45: the wrap of the counters and calls from other threads. There the statements are false.
* C48: the order for dispatches nested on one stream. There the statement is false.
* C50: tasks at depth 256 and deeper. There the statement is false.
* C33: runs with a stale `acquire()`. There the statement is false.
* C34: iterations beginning at an empty chunk, removals beside an unassigned slot. There the
  statement is false.
* C35: overlapping pushes. There the statement is false.
* C37: requests that wrap `next_addr`. There the statement is false.
* C38: allocations overlapping frees, requests rounded to 0 bytes, more than 65535 blocks per chunk.
  There the statement is false.
* C39: requests that round to more than a chunk can hold. Progress with other threads is C73
  (others may take every new chunk before it does).
* C28: uses of a builder after it gave its task away. There the behaviour is undefined.
* C12: tasks sharing two or more resources with the demoting task, a removal between the push of an
  edge and its count, a child that does not conflict with its parent. There the statement is false.
* C30: notifications overlapping the pause in one of the two windows. There the statement is false.
* C31: tasks without stack switching that yield on an unreached event. There the statement is false.
* C52: `get()` with store buffers, and waiting threads other than the one that constructed the context.
  There the statement is false.
* C54: failing compare-exchanges that read an old flag. There the statement is false.
* C55: more workers than processing units. There the statement is false.
* C56: 32768 workers and more. There the statement is false.
* C57: tasks released by threads that are neither the main thread nor workers. There the statement is false.
* C69: more than 32 workers (the upper halves of the words of marks). There the statement is false.
* C59: schedules in which a body ends before its children are initialised, bodies that conflict with tasks they
  emplaced before. There the statement is false.
* C23: submissions in which a task begins to enter user lists while another has entered some, but not all, of the
  lists both name. There the statement is false.
* C61: nested tasks outside the conditions of C59 (false there). Several threads: C61 has the schedules of C23,
  C62 all of them.
* C62: tasks that enter one user list twice.
* C63: executions with the two races (the statement is false there); bodies that wait for futures of tasks they did
  not emplace; tasks without stack switching (C31).
* C70: the executions C63 leaves out.
* C64, C65: the executions C63 leaves out; bodies that touch what their tasks use before having waited for them (the
  statement is false there); tasks that enter one user list twice.
* C80: a variable used again after it was emplaced as a callable. There the statement is false.
* C81: resources that are not deeper than the task. There the statement is false (and so it is for the example itself).
* C82: null requests. There the statement is false.
