{"id": "C01", "title": "Access modes: what runs in parallel commutes", "statement": "If the runtime lets two IO accesses (read, write, atomic-add, atomic-mul) to the same object run in parallel, then any operation the first mode permits commutes with any operation the second permits; and if it orders them, some pair of permitted operations really conflicts.", "quantifier": "for every pair of IO modes and every operation they permit", "why_tests_cant": "a test samples a few mode pairs and one memory effect each; it cannot show that no permitted operation conflicts", "anchors": ["redGrapes/resource/access/io.hpp:IOAccess::is_serial", "redGrapes/resource/access/io.hpp:IOAccess::is_superset_of"]}
{"id": "C02", "title": "Areas: parallel means disjoint", "statement": "Two index areas on one dimension are treated as parallel only if no index lies in both; non-empty areas that share an index are always ordered.", "quantifier": "for all pairs of areas with arbitrary 64-bit bounds", "why_tests_cant": "2^256 bound combinations", "anchors": ["redGrapes/resource/access/area.hpp:AreaAccess::is_serial"]}
{"id": "C03", "title": "Composite accesses are sound and exact", "statement": "For accesses composed with ArrayAccess/CombineAccess (And/Or, any nesting, in particular FieldAccess of any dimension) two accesses declared parallel permit no conflicting pair of element operations; and if all areas involved are non-empty, two accesses declared serial do permit one.", "quantifier": "for every access policy expression of any nesting depth and any dimension", "why_tests_cant": "infinitely many policy shapes; templates instantiate only a few in tests", "anchors": ["redGrapes/resource/access/combine.hpp:ArrayAccess", "redGrapes/resource/access/combine.hpp:CombineAccess", "redGrapes/resource/access/field.hpp:FieldAccess"]}
{"id": "C04", "title": "Conflict is symmetric", "statement": "Whether two accesses (and whether two tasks) must be ordered does not depend on which one is asked first.", "quantifier": "for every pair of accesses of any policy and every pair of access lists", "why_tests_cant": "pairs are unbounded", "anchors": ["redGrapes/resource/resource.hpp:ResourceAccess::is_serial", "redGrapes/resource/resource_user.cpp:ResourceUser::is_serial"]}
{"id": "C05", "title": "Superset accesses are sound", "statement": "'a is superset of b' is reflexive and transitive, implies that a permits every element operation b permits, and implies that whatever is ordered with b is ordered with a.", "quantifier": "for all accesses of any policy shape", "why_tests_cant": "unbounded family of accesses", "anchors": ["redGrapes/resource/access/io.hpp", "redGrapes/resource/access/area.hpp", "redGrapes/resource/access/combine.hpp", "redGrapes/resource/resource.hpp:ResourceAccess::is_superset_of"]}
{"id": "C06", "title": "A synchronising access separates everything before from everything after", "statement": "An access that reports itself as synchronising is ordered with every access of the same resource that could be ordered with anything at all, so that stopping the predecessor search at it loses no ordering.", "quantifier": "for every synchronising access and every pair of other accesses of any policy shape", "why_tests_cant": "the early break in dependency search is only right if this law holds for all policies", "anchors": ["redGrapes/resource/resource_user.cpp:ResourceUser::has_sync_access", "redGrapes/task/property/graph.cpp:GraphProperty::init_graph"]}
{"id": "C07", "title": "Tasks conflict exactly when two of their accesses to one resource conflict", "statement": "Two tasks are ordered iff there are accesses, one from each, to the same resource, of the same policy type and serial under the policy; tasks sharing no resource are never ordered.", "quantifier": "for every pair of access lists", "why_tests_cant": "unbounded lists", "anchors": ["redGrapes/resource/resource_user.cpp:ResourceUser::is_serial", "redGrapes/resource/resource.hpp:Resource::Access::is_serial"]}
{"id": "C08", "title": "Parent access lists protect outside tasks from children", "statement": "If a task's access list is accepted as subset of its parent's, then any task ordered with the child through a resource visible to the parent's scope is also ordered with the parent.", "quantifier": "for every parent, child and outside task", "why_tests_cant": "unbounded access lists; needs the universally quantified policy law", "anchors": ["redGrapes/resource/resource_user.cpp:ResourceUser::is_superset_of", "redGrapes/task/task_space.cpp:TaskSpace::submit"]}
{"id": "C09", "title": "Each resource is registered exactly once per task", "statement": "A task enters itself in the user list of each of its resources exactly once, however its accesses were given.", "quantifier": "for every list of accesses given to the builder by arguments or resources()", "why_tests_cant": "unbounded lists; the duplicate only shows as a hang", "anchors": ["redGrapes/resource/resource_user.cpp:ResourceUser::add_resource_access", "redGrapes/resource/resource_user.cpp:ResourceUser::build_unique_resource_list", "redGrapes/task/property/resource.hpp:ResourceProperty::Builder"]}
{"id": "C10", "title": "Field guards stay inside their declared area", "statement": "An element reachable through a field guard lies inside the area of the access that the guard registers; narrowing with area() or at() never widens it; an access outside throws; two guards whose accesses are parallel never reach the same element with one of them writing.", "quantifier": "for every chain of area()/at() calls with any bounds and every element index", "why_tests_cant": "unbounded chains and 64-bit indices", "anchors": ["redGrapes/resource/fieldresource.hpp:AreaGuard", "redGrapes/resource/fieldresource.hpp:ReadGuard", "redGrapes/resource/fieldresource.hpp:WriteGuard"]}
{"id": "C11", "title": "Access demotion is accepted exactly for subsets", "statement": "update_properties with a resource patch succeeds iff the resulting access list is covered by the list before the patch, and otherwise leaves the task unchanged.", "quantifier": "for every access list and every patch", "why_tests_cant": "patches and lists are unbounded", "anchors": ["redGrapes/task/property/resource.hpp:ResourceProperty::apply_patch", "redGrapes/resource/resource_user.cpp:ResourceUser::ResourceUser(ResourceUser const&)"]}
{"id": "C12", "title": "Demotion releases each follower exactly once", "statement": "After an access demotion, exactly the followers that no longer conflict are released, each edge is notified exactly once, and completion edges to the parent are untouched.", "quantifier": "for every follower list and every access list after demotion", "why_tests_cant": "follower lists are schedule dependent", "anchors": ["redGrapes/task/property/graph.cpp:GraphProperty::update_graph", "redGrapes/scheduler/event.cpp:Event::remove_follower"]}
{"id": "C13", "title": "Conflicting tasks run one at a time in submission order", "statement": "If two tasks of one task space conflict, the body of the later one does not start before the earlier one has completed.", "quantifier": "for every program whose tasks emplace no tasks, every number of workers and every interleaving of submission, dependency initialisation, execution and notification; for nested tasks, for the interleavings in which the children of a task have been initialised before its body ends (see C21, C51)", "why_tests_cant": "the interleavings cannot be enumerated or forced by a test", "anchors": ["redGrapes/task/property/graph.cpp:GraphProperty::init_graph", "redGrapes/task/property/graph.cpp:GraphProperty::add_dependency", "redGrapes/task/property/graph.cpp:GraphProperty::delete_from_resources", "redGrapes/scheduler/event.cpp:EventPtr::notify", "redGrapes/dispatch/thread/worker.cpp:Worker::init_dependencies", "redGrapes/dispatch/thread/execute.cpp:Context::execute_task"]}
{"id": "C14", "title": "Parallel execution equals sequential execution", "statement": "When all tasks have run, memory contents and every task's observed values are those of running the bodies one after another in submission order, provided each body touches only what its accesses permit.", "quantifier": "for every program whose tasks emplace no tasks, every semantics of the operations in which non-conflicting ones commute, every initial memory, number of workers and interleaving of individual operations; no task names a resource twice and conflicts with itself (see C22)", "why_tests_cant": "random-graph tests sample schedules only", "anchors": ["redGrapes/task/property/graph.cpp:GraphProperty::init_graph", "redGrapes/resource/resource_user.cpp:ResourceUser::is_serial", "redGrapes/scheduler/event.cpp:EventPtr::notify"]}
{"id": "C15", "title": "Every body is executed at most once and only after initialisation", "statement": "No task body is started twice, no task is handed to two workers, and no task starts before its dependencies were collected.", "quantifier": "for every program whose tasks emplace no tasks, every number of workers and every interleaving of submission, dependency initialisation, execution and notification; for nested tasks, for the interleavings in which the children of a task have been initialised before its body ends (see C21, C51)", "why_tests_cant": "double execution needs a rare interleaving", "anchors": ["redGrapes/scheduler/event.cpp:EventPtr::notify", "redGrapes/dispatch/thread/worker.cpp:Worker::gather_task", "redGrapes/scheduler/default_scheduler.cpp:DefaultScheduler::activate_task"]}
{"id": "C16", "title": "No deadlock: submitted tasks all complete", "statement": "As long as some submitted task is not complete, some thread of the runtime can take a step; every execution that cannot be continued has run every task.", "quantifier": "for every program submitted by one thread, every number of workers >= 1 and every interleaving; if tasks emplace tasks, the interleavings in which children are initialised before the body of their parent ends (see C21); no task names a resource twice and conflicts with itself (see C22)", "why_tests_cant": "absence of deadlock over all schedules", "anchors": ["redGrapes/task/property/graph.cpp", "redGrapes/scheduler/event.cpp", "redGrapes/dispatch/thread/worker.cpp"]}
{"id": "C17", "title": "Every execution terminates", "statement": "A finite program makes only finitely many runtime steps (not counting idle polling), so with C16 every maximal execution completes all tasks.", "quantifier": "for every program submitted by one thread, every number of workers >= 1 and every interleaving; if tasks emplace tasks, the interleavings in which children are initialised before the body of their parent ends (see C21)", "why_tests_cant": "termination over all schedules is not testable", "anchors": ["redGrapes/scheduler/event.cpp:EventPtr::notify", "redGrapes/task/property/graph.cpp"]}
{"id": "C18", "title": "Dependencies only between conflicting tasks", "statement": "A task waits only for earlier tasks of the same space that conflict with it: a task that conflicts with no earlier unfinished task becomes ready as soon as it is initialised.", "quantifier": "for every program whose tasks emplace no tasks, every number of workers and every interleaving of submission, dependency initialisation, execution and notification; for nested tasks, for the interleavings in which the children of a task have been initialised before its body ends (see C21, C51); for every task that does not both name a resource twice and conflict with itself (see C22)", "why_tests_cant": "over-serialisation is not visible in results", "anchors": ["redGrapes/task/property/graph.cpp:GraphProperty::init_graph", "redGrapes/task/property/graph.cpp:GraphProperty::add_dependency"]}
{"id": "C19", "title": "No notification is lost or duplicated", "statement": "At any time the counter of a task's start event equals the number of outstanding reasons it may not start (not yet initialised, predecessor edges whose notification has not arrived, not yet executed), so each edge is counted up once and down once.", "quantifier": "for every program whose tasks emplace no tasks, every number of workers and every interleaving of submission, dependency initialisation, execution and notification; for nested tasks, for the interleavings in which the children of a task have been initialised before its body ends (see C21, C51); including predecessor completion racing with dependency registration", "why_tests_cant": "needs an adversarial race between two threads", "anchors": ["redGrapes/scheduler/event.cpp:Event::add_follower", "redGrapes/scheduler/event.cpp:EventPtr::notify", "redGrapes/task/property/graph.cpp:GraphProperty::delete_from_resources"]}
{"id": "C20", "title": "Completion waits for external events", "statement": "A task for which events were created in its body does not count as complete, and releases no follower, before its body ended and each of these events was notified.", "quantifier": "for every program whose tasks emplace no tasks, every number of workers and every interleaving of submission, dependency initialisation, execution and notification; for nested tasks, for the interleavings in which the children of a task have been initialised before its body ends (see C21, C51); for every number of events and every order of notifications", "why_tests_cant": "orders are unbounded", "anchors": ["redGrapes/task/property/graph.cpp:GraphProperty::make_event", "redGrapes/redGrapes.cpp:Context::create_event"]}
{"id": "C21", "title": "A task completes only after all its children", "statement": "A parent task does not count as complete before every child task emplaced by its body is complete.", "quantifier": "for every nesting and interleaving", "why_tests_cant": "needs the child to be initialised late", "anchors": ["redGrapes/task/property/graph.cpp:GraphProperty::init_graph", "redGrapes/dispatch/thread/execute.cpp:Context::execute_task", "redGrapes/task/task_space.cpp:TaskSpace::submit"]}
{"id": "C22", "title": "Which submitted tasks run: naming a resource twice", "statement": "A task that is given several accesses to the same resource runs to completion like any other. Where this fails exactly: a task never starts if it names a resource twice and conflicts with itself; conflicting later tasks of its space and the barrier then wait for ever; if there is no such task, every submitted task runs.", "quantifier": "for every program, argument list, number of workers and interleaving (nested tasks as in C16)", "why_tests_cant": "a hang of one specific shape; that nothing else hangs is a statement about all schedules", "anchors": ["redGrapes/resource/resource_user.cpp:ResourceUser::add_resource_access", "redGrapes/task/property/graph.cpp:GraphProperty::init_graph"]}
{"id": "C23", "title": "Concurrent submission into one space is safe", "statement": "When two threads submit conflicting tasks to one task space at the same time, the tasks are still ordered one way or the other and both complete.", "quantifier": "for every interleaving of the two submissions", "why_tests_cant": "narrow race window", "anchors": ["redGrapes/task/task_space.cpp:TaskSpace::submit", "redGrapes/task/property/graph.cpp:GraphProperty::init_graph", "redGrapes/util/chunked_list.hpp:ChunkedList::push"]}
{"id": "C24", "title": "Event counters do not wrap", "statement": "The 16-bit counter of an event represents its number of outstanding predecessors.", "quantifier": "for every number of predecessors", "why_tests_cant": "needs 65535 live predecessors", "anchors": ["redGrapes/scheduler/event.hpp:Event::state", "redGrapes/scheduler/event.cpp:Event::add_follower"]}
{"id": "C25", "title": "Task memory is released exactly once, never early", "statement": "A task object is destroyed exactly once, after its completion and after its result was taken or its future dropped.", "quantifier": "for every program whose tasks emplace no tasks, every number of workers and every interleaving of submission, dependency initialisation, execution and notification; for nested tasks, for the interleavings in which the children of a task have been initialised before its body ends (see C21, C51)", "why_tests_cant": "depends on the relative order of two threads", "anchors": ["redGrapes/scheduler/event.cpp:EventPtr::notify", "redGrapes/task/task_space.cpp:TaskSpace::free_task", "redGrapes/task/task.hpp:Task::removal_countdown"]}
{"id": "C26", "title": "No use of a task after its release", "statement": "No runtime thread reads or writes a task object after it was destroyed.", "quantifier": "for every interleaving", "why_tests_cant": "use-after-free windows are a few instructions wide", "anchors": ["redGrapes/scheduler/event.cpp:EventPtr::notify", "redGrapes/task/property/graph.cpp:GraphProperty::init_graph"]}
{"id": "C27", "title": "A future releases its task exactly once", "statement": "Over any history of moving, at most one get(), and destroying a future, the task's result-taken event is notified exactly once, and get() returns the value the body computed.", "quantifier": "for every sequence of future operations", "why_tests_cant": "unbounded move chains", "anchors": ["redGrapes/task/future.hpp:Future"]}
{"id": "C28", "title": "A task builder submits its task exactly once", "statement": "However a task builder is copied, moved, submitted or dropped, its task is submitted exactly once, in the space that was current when it was created.", "quantifier": "for every sequence of builder operations", "why_tests_cant": "unbounded copy/move chains", "anchors": ["redGrapes/task/task_builder.hpp:TaskBuilder"]}
{"id": "C29", "title": "barrier() waits for all root tasks", "statement": "barrier() returns only when all tasks of the root space have been completed and released; it can hang only while the caller still holds a future.", "quantifier": "for every program whose tasks emplace no tasks, every number of workers and every interleaving of submission, dependency initialisation, execution and notification; for nested tasks, for the interleavings in which the children of a task have been initialised before its body ends (see C21, C51)", "why_tests_cant": "liveness and all schedules", "anchors": ["redGrapes/redGrapes.cpp:Context::barrier", "redGrapes/task/task_space.cpp:TaskSpace::empty", "redGrapes/task/task_space.cpp:TaskSpace::free_task"]}
{"id": "C30", "title": "A suspended task is resumed exactly once", "statement": "A task that yields on an event is handed to a worker again exactly once after the event was reached.", "quantifier": "for every interleaving of the yield with the event's notification", "why_tests_cant": "race window", "anchors": ["redGrapes/dispatch/thread/execute.cpp:Context::execute_task", "redGrapes/task/property/graph.hpp:GraphProperty::sg_pause", "redGrapes/scheduler/event.cpp:Event::add_follower"]}
{"id": "C31", "title": "A body without stack switching runs once", "statement": "A task body runs to its end exactly once even if it calls yield() without stack switching.", "quantifier": "for every number of yields in the body", "why_tests_cant": "shows only as repeated side effects", "anchors": ["redGrapes/task/task_base.hpp:TaskBase::operator()", "redGrapes/task/task_base.hpp:TaskBase::yield"]}
{"id": "C32", "title": "Chunked list iteration yields the live elements, newest first", "statement": "After any history of push, remove and erase, reverse iteration visits exactly the elements pushed and not removed, each once, newest first, across any number of chunks.", "quantifier": "for every operation history and every chunk size", "why_tests_cant": "histories are unbounded; the unit tests of this container are commented out", "anchors": ["redGrapes/util/chunked_list.hpp:ChunkedList"]}
{"id": "C33", "title": "An element is not destroyed while an iterator holds it", "statement": "An element of the chunked list is destroyed at most once, only after it was removed and while no iterator that successfully acquired it holds it.", "quantifier": "for every interleaving of acquire, release and remove by any number of threads", "why_tests_cant": "atomic interleavings", "anchors": ["redGrapes/util/chunked_list.hpp:ChunkedList::Item::acquire", "redGrapes/util/chunked_list.hpp:ChunkedList::Item::release"]}
{"id": "C34", "title": "Concurrent pushes lose nothing", "statement": "Any number of threads pushing at once get pairwise distinct slots, each overflow allocates exactly one new chunk, and once all pushes are done an iteration visits every pushed element.", "quantifier": "for every number of threads, pushes and every interleaving", "why_tests_cant": "atomic interleavings", "anchors": ["redGrapes/util/chunked_list.hpp:ChunkedList::push", "redGrapes/util/atomic_list.hpp:AtomicList::append_item"]}
{"id": "C35", "title": "Removal never hides another element", "statement": "Removing one element concurrently with a push never makes another, unremoved element invisible to later iterations.", "quantifier": "for every interleaving of one push with one remove", "why_tests_cant": "window between slot allocation and assignment", "anchors": ["redGrapes/util/chunked_list.hpp:ChunkedList::remove", "redGrapes/util/chunked_list.hpp:ChunkedList::push"]}
{"id": "C36", "title": "Atomic list: iteration sees the non-erased chunks in order", "statement": "In any history of appends and erases interleaved with any number of iterations and prev-compactions, iteration from the head visits every chunk that was appended and not erased, newest first, and no chunk twice; concurrent first-chunk allocations install exactly one.", "quantifier": "for every history and interleaving", "why_tests_cant": "unbounded histories", "anchors": ["redGrapes/util/atomic_list.hpp:AtomicList"]}
{"id": "C37", "title": "Bump allocation gives disjoint in-range blocks", "statement": "All blocks handed out by a bump allocator since its last reset are pairwise disjoint and lie in its region; it reports out-of-memory otherwise.", "quantifier": "for every sequence of request sizes and every interleaving of allocating threads", "why_tests_cant": "unbounded histories, 64-bit sizes", "anchors": ["redGrapes/memory/bump_allocator.cpp:BumpAllocator::allocate"]}
{"id": "C38", "title": "Arena chunks are recycled only when empty", "statement": "The chunked allocator never hands out overlapping live blocks and never gives back or resets a chunk that still contains a live block.", "quantifier": "for every history of allocations and frees", "why_tests_cant": "unbounded histories", "anchors": ["redGrapes/memory/chunked_bump_alloc.hpp:ChunkedBumpAlloc", "redGrapes/memory/bump_allocator.cpp"]}
{"id": "C39", "title": "Every allocation request is answered", "statement": "For every request size up to the chunk capacity, allocate() returns a block of at least that size.", "quantifier": "for every request size and capacity", "why_tests_cant": "only particular sizes hang", "anchors": ["redGrapes/memory/chunked_bump_alloc.hpp:ChunkedBumpAlloc::allocate", "redGrapes/memory/chunked_bump_alloc.hpp:roundup_to_poweroftwo"]}
{"id": "C40", "title": "Bit search is exact", "statement": "The lowest set bit of a 64-bit word is found for every word, and probing the worker bitfield calls the acceptor only with indices below the size whose bit has the wanted value, and reaches every such index before giving up.", "quantifier": "for all 64-bit words, sizes and start indices", "why_tests_cant": "2^64 words", "anchors": ["redGrapes/util/bitfield.hpp:AtomicBitfield::first_one_idx", "redGrapes/util/bitfield.hpp:AtomicBitfield::probe_by_value"]}
{"id": "C41", "title": "Claiming a free worker is exclusive and always possible", "statement": "set() reports the previous value of a bit, so that of several threads claiming the same free worker exactly one succeeds, and a free worker can be claimed.", "quantifier": "for every worker index and interleaving", "why_tests_cant": "needs more than 32 workers", "anchors": ["redGrapes/util/bitfield.hpp:AtomicBitfield::set", "redGrapes/dispatch/thread/worker_pool.cpp:WorkerPool::find_free_worker"]}
{"id": "C42", "title": "Spin locks exclude", "statement": "At most one thread is between lock() and unlock() of a spin lock, and a free lock can be taken.", "quantifier": "for any number of threads and every interleaving", "why_tests_cant": "atomic interleavings", "anchors": ["redGrapes/sync/spinlock.hpp:SpinLock"]}
{"id": "C43", "title": "A notify is never lost", "statement": "A notification of a worker's condition variable that arrives before or during wait() makes that wait() return.", "quantifier": "for every interleaving of one waiter and any number of notifiers", "why_tests_cant": "lost-wakeup windows", "anchors": ["redGrapes/sync/cv.cpp:CondVar::wait", "redGrapes/sync/cv.cpp:CondVar::notify"]}
{"id": "C44", "title": "No worker sleeps on work", "statement": "When a task was put in a worker's queue and the worker was notified, then it or a stealing worker takes the task; a stopped worker leaves its loop.", "quantifier": "for every interleaving of producers and the worker loop", "why_tests_cant": "lost-wakeup windows", "anchors": ["redGrapes/dispatch/thread/worker.cpp:Worker::work_loop", "redGrapes/scheduler/default_scheduler.cpp:DefaultScheduler::emplace_task", "redGrapes/dispatch/thread/worker.cpp:Worker::stop"]}
{"id": "C45", "title": "Round-robin placement is in range and fair", "statement": "Every task is placed in the queue of an existing worker; consecutive placements cycle through all workers until the counter wraps.", "quantifier": "for every number of workers and every counter value", "why_tests_cant": "2^32 counter values", "anchors": ["redGrapes/scheduler/default_scheduler.cpp:DefaultScheduler::emplace_task", "redGrapes/scheduler/default_scheduler.cpp:DefaultScheduler::activate_task"]}
{"id": "C46", "title": "Tag matching picks the first scheduler that supports all tags", "statement": "A task is routed to the first registered sub-scheduler whose tag set contains all tags of the task; a task no sub-scheduler supports is rejected.", "quantifier": "for every registration list and tag set", "why_tests_cant": "unbounded lists", "anchors": ["redGrapes/scheduler/tag_match.hpp:TagMatch"]}
{"id": "C47", "title": "MPI requests notify exactly their own event, once, with their own status", "statement": "Polling with whatever subset of requests MPI reports as complete notifies each completed request's event exactly once with its own status, keeps all others, and mixes up none.", "quantifier": "for every set of pending requests, every reported subset and order, over any number of polls", "why_tests_cant": "subsets and histories are unbounded", "anchors": ["redGrapes/dispatch/mpi/request_pool.hpp:RequestPool::poll", "redGrapes/dispatch/mpi/request_pool.hpp:RequestPool::get_status"]}
{"id": "C48", "title": "Accelerator events are not shared and complete in order", "statement": "The event pool never hands out an event that is in use; polling a stream notifies exactly the finished prefix of recorded events, each once, in order.", "quantifier": "for every history of alloc/free/record/poll", "why_tests_cant": "unbounded histories", "anchors": ["redGrapes/dispatch/cuda/event_pool.hpp:EventPool", "redGrapes/dispatch/cuda/scheduler.hpp:CudaStreamDispatcher::poll"]}
{"id": "C49", "title": "Identifiers are unique", "statement": "Task and resource ids handed out to any threads are pairwise different as long as fewer than 2^32 were handed out.", "quantifier": "for every number of threads and interleaving", "why_tests_cant": "2^32 ids", "anchors": ["redGrapes/task/property/id.hpp:IDProperty", "redGrapes/resource/resource.cpp:ResourceBase::generateID"]}
{"id": "C50", "title": "Scope depth and backtrace follow the nesting", "statement": "scope_depth() of a task body is its nesting depth, a resource created in it is local to exactly the deeper scopes, and backtrace() lists exactly the ancestors.", "quantifier": "for every nesting depth", "why_tests_cant": "depth 256 wraps the stored level", "anchors": ["redGrapes/redGrapes.cpp:Context::scope_depth", "redGrapes/redGrapes.cpp:Context::backtrace", "redGrapes/resource/resource_user.hpp:ResourceUser::scope_level"]}
{"id": "C51", "title": "Nested work is ordered like its parent", "statement": "If a task conflicts with an earlier task of its space, its body does not start before everything the earlier task emplaced, directly or through other tasks, is complete.", "quantifier": "for every nesting, number of workers and interleaving", "why_tests_cant": "The failing interleaving needs a child whose dependencies are collected after the body of its parent ended; whether a test sees it depends on queue order and timing.", "anchors": ["redGrapes/task/property/graph.cpp: init_graph", "redGrapes/dispatch/thread/worker.cpp: init_dependencies", "redGrapes/dispatch/thread/execute.cpp: execute_task", "redGrapes/task/task_space.cpp: submit"]}
{"id": "C52", "title": "A waiting thread is woken", "statement": "The main thread in future.get() / yield(event) or barrier() returns exactly when the event is reached or no task is left: no notification is lost between its test and its sleep, and it never returns early.", "quantifier": "for every number of tasks, events and notifying threads and every interleaving of their atomic accesses", "why_tests_cant": "The lost wake-up needs the store of waker_id to stay in a store buffer while another thread decrements the counter and reads it; tests hit this rarely and then hang.", "anchors": ["redGrapes/redGrapes.cpp:Context::yield", "redGrapes/redGrapes.cpp:Context::barrier", "redGrapes/scheduler/event.hpp:Event::waker_id", "redGrapes/scheduler/event.cpp:EventPtr::notify", "redGrapes/sync/cv.cpp:CondVar::wait", "redGrapes/task/task_space.cpp:TaskSpace::free_task"]}
{"id": "C53", "title": "Data protected by a spin lock is current", "statement": "With the memory orders of the code (acquire compare-exchange, relaxed spinning load, release store) at most one thread holds the spin lock and every read under it returns the value written last under it.", "quantifier": "for every number of threads and variables and every execution of the release/acquire memory model", "why_tests_cant": "Wrong memory orders are invisible on x86, where the tests run.", "anchors": ["redGrapes/sync/spinlock.hpp:SpinLock::lock", "redGrapes/sync/spinlock.hpp:SpinLock::unlock"]}
{"id": "C54", "title": "No worker sleeps on a task, with the memory orders of the code", "statement": "When a worker sleeps in its condition variable and no notification is under way, its queue is empty, also when the release/acquire operations of wait() and notify() may read old values.", "quantifier": "for every number of notifying threads and every execution of the release/acquire memory model", "why_tests_cant": "Needs a processor on which the failing compare-exchange of notify() is performed before the push of the task becomes visible; x86 never does that.", "anchors": ["redGrapes/sync/cv.cpp:CondVar::wait", "redGrapes/sync/cv.cpp:CondVar::notify", "redGrapes/dispatch/thread/worker.hpp:WorkerThread::emplace_task", "redGrapes/dispatch/thread/worker.cpp:WorkerThread::work_loop"]}
{"id": "C55", "title": "Task memory goes back to the arena it came from", "statement": "The memory in use in each arena is exactly that of the live tasks and objects assigned to it; it is all free when nothing lives. Tasks of one thread are spread over the workers in turn, and no index is out of range.", "quantifier": "for every number of workers, processing units and threads and every sequence of emplacements and releases", "why_tests_cant": "A block given to the wrong allocator is ignored silently; the leak shows only with more workers than processing units and long runs.", "anchors": ["redGrapes/task/task_space.cpp:TaskSpace::free_task", "redGrapes/task/task_builder.hpp:TaskBuilder", "redGrapes/redGrapes.hpp:Context::emplace_task", "redGrapes/dispatch/thread/worker_pool.cpp:WorkerPool::emplace_workers", "redGrapes/memory/allocator.cpp:Allocator"]}
{"id": "C56", "title": "wake_all wakes everybody", "statement": "wake_all() ends and wakes the main thread and every worker exactly once, and the waker id of a worker leads to that worker.", "quantifier": "for every number of workers", "why_tests_cant": "The 16-bit counter and the signed 16-bit ids matter only for numbers of workers no test uses.", "anchors": ["redGrapes/scheduler/default_scheduler.cpp:DefaultScheduler::wake_all", "redGrapes/scheduler/default_scheduler.cpp:DefaultScheduler::wake", "redGrapes/scheduler/scheduler.hpp:WakerId", "redGrapes/dispatch/thread/worker.hpp:Worker::get_waker_id"]}
{"id": "C57", "title": "finalize() waits for whoever uses what it takes down", "statement": "finalize() returns once every task is released, and workers, scheduler and root space are not used after it has taken them down.", "quantifier": "for every number of workers, tasks and releasing threads and every interleaving", "why_tests_cant": "The window lies between the decrement of the task counter and the deallocation in another thread.", "anchors": ["redGrapes/redGrapes.cpp:Context::finalize", "redGrapes/task/task_space.cpp:TaskSpace::free_task", "redGrapes/dispatch/thread/worker_pool.cpp:WorkerPool::stop", "redGrapes/dispatch/thread/worker.cpp:WorkerThread::stop"]}
{"id": "C58", "title": "Queues per worker, stealing and sleeping lose no task", "statement": "The pool of workers, each with its own two queues, stealing from others and sleeping on its condition variable, has only the histories of the runtime in which all workers share their queues. A worker that sleeps and is not about to be woken has empty queues; when everybody sleeps or is blocked, every task is complete; every execution ends; order, at-most-once and the final result hold as for shared queues.", "quantifier": "for every program without nested tasks and, with nested tasks, for the schedules in which children are initialised before the body of their parent ends; for every number of workers and outside threads, every choice of the queue a task is put into, every order of probing and every interleaving; no task names a resource twice and conflicts with itself (see C22)", "why_tests_cant": "A lost wakeup needs a push between the last look into a queue and the sleep of its worker, and shows as a hang that a later wakeup hides.", "anchors": ["redGrapes/dispatch/thread/worker.cpp:WorkerThread::work_loop", "redGrapes/dispatch/thread/worker.cpp:Worker::gather_task", "redGrapes/dispatch/thread/worker.cpp:Worker::init_dependencies", "redGrapes/dispatch/thread/worker.hpp:Worker::emplace_task", "redGrapes/scheduler/default_scheduler.cpp:DefaultScheduler::activate_task", "redGrapes/scheduler/default_scheduler.cpp:DefaultScheduler::steal_task", "redGrapes/task/task_space.cpp:TaskSpace::free_task"]}
{"id": "C59", "title": "Nested tasks give the result of running each on the spot", "statement": "When all tasks of a program with nested tasks have run, memory and every task's observed values are those of running each task at the point where it is emplaced, to its end, before its parent goes on; at any moment no operation is done before a conflicting one that comes first in that order.", "quantifier": "for every program whose bodies do what their accesses permit, whose children are accepted by the superset check, keep inner resources inside, and whose bodies do not conflict with tasks they have emplaced before; every nesting depth, semantics of the operations, number of workers and interleaving in which children are initialised before the body of their parent ends (see C21); shared queues or queues per worker", "why_tests_cant": "Needs all interleavings of operations at all nesting depths; tests compare one run.", "anchors": ["redGrapes/task/task_space.cpp:TaskSpace::submit", "redGrapes/resource/resource_user.cpp:ResourceUser::is_superset_of", "redGrapes/task/property/graph.cpp:GraphProperty::init_graph", "redGrapes/scheduler/event.cpp:EventPtr::notify"]}
{"id": "C60", "title": "get() gives the value of the sequential run", "statement": "get() returns only after the body of its task has ended and the result was set, and from the end of the body on everything the task has seen is what it sees when the tasks submitted before it, and it, run one after another - also while other tasks are still running or have not started.", "quantifier": "for every program without nested tasks whose bodies do what their accesses permit, every semantics of the operations, number of workers, moment and interleaving; that get() waits also with nested tasks under the schedules of C21; with several submitting threads under the schedules of C23, for one order that keeps the order of each thread", "why_tests_cant": "A test sees one value of one run; a value that depends on work still in flight shows only in rare schedules.", "anchors": ["redGrapes/task/future.hpp:Future::get", "redGrapes/redGrapes.cpp:Context::yield", "redGrapes/scheduler/event.cpp:EventPtr::notify", "redGrapes/task/property/graph.cpp:GraphProperty::init_graph"]}
{"id": "C61", "title": "No data race between task bodies; waiting and freeing are ordered too", "statement": "Two conflicting operations of task bodies are ordered by happens-before of the C++ memory model, as created by the event counters, the resource locks and the task queues alone. What a thread did before it submitted a task happens before everything the task and its descendants do; the steps of one body are made by one thread; what a body did happens before get() on it returns; what every task did happens before barrier() returns; the memory of a task is freed after all uses.", "quantifier": "for every program without nested tasks whose bodies do what their accesses permit, every number of workers and interleaving; with nested tasks under the conditions of C59; with several submitting threads under the schedules of C23", "why_tests_cant": "On x86 a missing release or acquire is invisible to tests, and race detectors see only the schedules that were run.", "anchors": ["redGrapes/scheduler/event.hpp:Event", "redGrapes/scheduler/event.cpp:EventPtr::notify", "redGrapes/task/property/graph.cpp:GraphProperty::init_graph", "redGrapes/task/property/graph.cpp:GraphProperty::delete_from_resources", "redGrapes/sync/spinlock.hpp:SpinLock", "redGrapes/task/queue.hpp:Queue", "redGrapes/task/task_space.cpp:TaskSpace::free_task"]}
{"id": "C62", "title": "Threads that submit at the same time, in any interleaving", "statement": "When several threads emplace tasks into the root space at the same time, then of two conflicting tasks one is complete before the body of the other is handed out, conflicting tasks of one thread keep their order, no body runs twice, executions are finite, conflicting operations are ordered by happens-before, and get(), barrier() and the freeing of memory are ordered after the bodies. The outcome is that of running the bodies one after another in the order in which they were handed out. Threads can only block each other if the user lists disagree on an order of the tasks. That some order keeping the order of each thread explains the outcome is false.", "quantifier": "for every number of submitting threads and workers, every interleaving of programs without nested tasks (with nested tasks: those in which children have collected their dependencies before the body of the parent ends), all tasks that enter every user list at most once", "why_tests_cant": "The interleavings of several submitting threads inside the loop over the user lists are far too many, and the bad ones need a preemption between two pushes.", "anchors": ["redGrapes/task/task_space.cpp:TaskSpace::submit", "redGrapes/task/property/graph.cpp:GraphProperty::init_graph", "redGrapes/redGrapes.hpp:emplace_task", "redGrapes/scheduler/event.cpp:EventPtr::notify"]}
{"id": "C63", "title": "Tasks that wait for futures in their body", "statement": "A task body that calls get() on a task it emplaced is suspended and resumed later, perhaps by another worker. If the result is not set between the count of the edge and up(), and its followers are not visited between the test and the push of the edge, then every execution has the history of one in which the waiting body blocks a thread of its own: bodies are at one place and run once, conflicting tasks are ordered and keep the order of their thread, get() returns after the body of the task it waits for, parents complete after their children, executions are finite, and already with one worker everything gets done unless the user lists disagree on an order. In programs whose bodies wait for all tasks they emplace, children are always in place when the body ends. Without the two conditions a task can be resumed twice, or never.", "quantifier": "for every number of submitting threads and workers (progress: at least one), every program whose tasks enter every user list at most once and whose bodies wait only for tasks they emplaced, every schedule subject to the two conditions", "why_tests_cant": "Suspension has five steps that race with the completion of the other task; tests see few of the interleavings, and a lost wake-up looks like a slow run.", "anchors": ["redGrapes/task/future.hpp:Future::get", "redGrapes/redGrapes.cpp:yield", "redGrapes/task/task_base.hpp:TaskBase::operator()", "redGrapes/dispatch/thread/execute.cpp:execute_task", "redGrapes/task/property/graph.hpp:GraphProperty::sg_pause", "redGrapes/scheduler/event.cpp:Event::add_follower"]}
{"id": "C64", "title": "What a program of tasks that wait for futures computes", "statement": "If a body, between emplacing a task and having waited for it, does nothing that conflicts with what that task and its descendants do, then a program with nested tasks that call get() gives the result of running every task to its end where it is emplaced, and a task whose body has ended has seen the values it sees there, at any time and whatever the other tasks have done so far; so get(), in a body or in the thread that submits, gives that value. For programs whose bodies wait for all tasks they emplace, children need not be in place when bodies end. The same holds for the values of nested tasks that do not wait, with the shared ready queue and with one queue per worker. A body that touches the data of a task before having waited for it can change the result.", "quantifier": "for every program with one submitting thread whose tasks enter every user list at most once and whose children use only what their parents may use, every number of workers (result: at least one), every state of every schedule subject to the conditions of C63, every meaning of the operations under which those that do not conflict commute", "why_tests_cant": "The value seen depends on the interleaving of suspended bodies, their children and unrelated tasks; a test sees a few interleavings of one program.", "anchors": ["redGrapes/task/future.hpp:Future::get", "redGrapes/redGrapes.cpp:yield", "redGrapes/task/task_base.hpp:TaskBase::operator()", "redGrapes/dispatch/thread/execute.cpp:execute_task", "redGrapes/task/task_space.cpp:TaskSpace::submit", "redGrapes/resource/resource_user.cpp:ResourceUser::is_superset_of"]}
{"id": "C65", "title": "What programs of several submitting threads with nested and waiting tasks compute", "statement": "With several submitting threads, nested tasks and tasks that wait in get(), every execution has the result of running the root tasks one after another, in the order in which workers took up their bodies, with every nested task run to its end where it is emplaced. That order keeps the order of every thread for root tasks that conflict. A task whose body has ended has seen the values it sees in that sequence, at any time, so get() gives that value; what has been done so far can be completed to the sequence. Bodies that wait for all the tasks they emplace need no condition on when children are in place; nested tasks that do not wait are covered by the machine of C62.", "quantifier": "for every program with any number of submitting threads whose tasks enter every user list at most once, whose children use only what their parents may use and whose bodies keep clear of tasks they emplaced and have not waited for; every number of workers; every state of every schedule subject to the conditions of C63; every meaning of the operations under which those that do not conflict commute", "why_tests_cant": "Both the interleaving of the submitting threads and the interleaving of suspended bodies, children and unrelated tasks vary; a test sees a few of them, and no single expected value exists to compare with.", "anchors": ["redGrapes/task/future.hpp:Future::get", "redGrapes/redGrapes.cpp:yield", "redGrapes/task/task_base.hpp:TaskBase::operator()", "redGrapes/dispatch/thread/execute.cpp:execute_task", "redGrapes/task/task_space.cpp:TaskSpace::submit", "redGrapes/task/property/graph.cpp:GraphProperty::init_graph", "redGrapes/resource/resource_user.cpp:ResourceUser::is_superset_of"]}
{"id": "C66", "title": "The Cholesky example factorises its matrix", "statement": "Every execution of the program examples/cholesky.cpp ends, with main behind finalize() and every task executed and released, and the matrix is then that of the same loops with direct calls of the kernels. If the kernels do their job on the tiles they are given, the lower part times its transpose is the original matrix, and the tiles above the diagonal are unchanged. This holds with ideal counters, with 16-bit counters up to 21844 rows of tiles, and in the pool with queues per worker, stealing and sleeping. Each tile on or below the diagonal is named by exactly nb calls.", "quantifier": "for every number of tiles, every number of workers, every schedule, every matrix and every type of tiles with kernels", "why_tests_cant": "The number of tasks grows with the cube of the number of tiles; a run checks one size, one matrix and one of a huge number of schedules, and a missing dependency shows only in some of them.", "anchors": ["examples/cholesky.cpp:main", "redGrapes/redGrapes.hpp:emplace_task", "redGrapes/redGrapes.cpp:finalize", "redGrapes/resource/ioresource.hpp:IOResource", "redGrapes/task/property/graph.cpp:GraphProperty::init_graph"]}
{"id": "C67", "title": "The game of life example computes the generations", "statement": "Every execution of the program examples/game_of_life.cpp ends, with main behind finalize() and every task executed and released. Buffer n mod 4 then holds generation n of the game of life on a torus, and the output of turn g showed generation g. This holds with ideal counters, with 16-bit counters for the sizes in the file (500 generations of 32 times 32 cells in chunks of 4 times 4) and for all sizes below a stated bound, and in the pool with queues per worker, stealing and sleeping.", "quantifier": "for every size of the field, every size of chunks that divides it, every number of generations and workers, every schedule and all initial cells", "why_tests_cant": "The program has 33001 tasks on four buffers, chunks of successive generations overlap in time; a run shows one of a huge number of schedules for one size.", "anchors": ["examples/game_of_life.cpp:main", "examples/game_of_life.cpp:next_state", "redGrapes/resource/fieldresource.hpp:FieldResource", "redGrapes/resource/access/area.hpp:AreaAccess", "redGrapes/redGrapes.hpp:emplace_task", "redGrapes/redGrapes.cpp:finalize"]}
{"id": "C68", "title": "barrier() in a task never returns", "statement": "When a task calls barrier(), the test of the root task space finds it not empty, whatever the state, so idle() is called (on the thread of a worker it is an empty function and throws). The task never ends and never completes, nor do the tasks it is nested in; later conflicting tasks never start, get() on it does not return, and no barrier() of any thread returns after its submission. The documented behaviour, waiting for the tasks of the current task space, is refuted: the call also hangs when that space is empty. All results that need no progress (C13-C15, C17-C23, C25, C26, C29, C51, C58-C63, C65) hold for programs with such calls.", "quantifier": "for every program in which some body calls barrier(), with one or several submitting threads, nested and waiting bodies, every number of workers, every execution, and in the pool of workers", "why_tests_cant": "A test sees one execution not return within its time limit; that it returns in no schedule of any program, and that no task slips past it, is a statement about all executions.", "anchors": ["redGrapes/redGrapes.cpp:Context::barrier", "redGrapes/task/task_space.cpp:TaskSpace::empty", "redGrapes/task/task_space.cpp:TaskSpace::free_task", "redGrapes/task/task_space.cpp:TaskSpace::submit", "redGrapes/dispatch/thread/worker.cpp:WorkerThread::run"]}
{"id": "C69", "title": "The marks of the workers steer, and only steer", "statement": "The pool with the marks AVAILABLE/BUSY and the searches that use them refines the pool of C58 in which any worker may be chosen; no thread waits for a mark, executions are bounded, when nothing moves everything is done and the result is that of running the tasks on the spot. A worker is BUSY all the time a body runs on it. With at most 32 workers a sleeping worker is AVAILABLE, claimed, or about to be woken. A search for a free worker that fails has seen every worker BUSY during the search; a thief that finds nothing has seen every worker AVAILABLE or with nothing to steal. A ready task lies with a worker that is being woken, about to look, or BUSY. Refuted: a sleeping worker is known with 33 workers; claims are exclusive; a queued task wakes a sleeping worker; tasks not yet initialised are seen by thieves.", "quantifier": "for every program, number of workers and outside threads, every execution with the accesses to the marks interleaved one by one with everything else", "why_tests_cant": "A wrong mark delays work and loses none, so no test fails; whether a sleeping worker can be forgotten depends on the interleaving of its own marks with the claims of others and, beyond 32 workers, on the width of an int.", "anchors": ["redGrapes/dispatch/thread/worker_pool.cpp:WorkerPool::find_free_worker", "redGrapes/dispatch/thread/worker_pool.hpp:WorkerPool::set_worker_state", "redGrapes/util/bitfield.hpp:AtomicBitfield::probe_by_value", "redGrapes/util/bitfield.hpp:AtomicBitfield::set", "redGrapes/scheduler/default_scheduler.cpp:DefaultScheduler::activate_task", "redGrapes/scheduler/default_scheduler.cpp:DefaultScheduler::steal_task", "redGrapes/dispatch/thread/worker.cpp:Worker::work_loop", "redGrapes/dispatch/thread/worker.cpp:Worker::gather_task"]}
{"id": "C70", "title": "A suspended body goes on where it was left, on any thread, without a data race", "statement": "When get() inside a task suspends the body and another worker takes it up again, everything the body does and every access to its continuation (yield, resume) is ordered by happens-before, through the counter of the pre event although sg_pause assigns it. With that, conflicting tasks of one thread, with all their descendants, happen one before the other; programs whose tasks keep to their accesses and leave alone what their unfinished children use have no data race; what a body did on any thread before emplacing a task happens before that task; get() and barrier() return after the bodies waited for; a task's memory is freed after its last use. Refuted: the two parts of a body are ordered if the counter of the pre event is accessed relaxed.", "quantifier": "for every program, number of submitting threads and workers, every execution of the machine with waiting bodies without the two races of C30, every pair of steps", "why_tests_cant": "Tests run on strongly ordered hardware and rarely move a task between threads at the moment it is suspended; a missing synchronisation edge shows only on weakly ordered hardware in one interleaving.", "anchors": ["redGrapes/task/task_base.hpp:TaskBase::yield", "redGrapes/task/task_base.hpp:TaskBase::operator()", "redGrapes/task/property/graph.hpp:GraphProperty::sg_pause", "redGrapes/dispatch/thread/execute.cpp:Context::execute_task", "redGrapes/scheduler/event.cpp:EventPtr::notify", "redGrapes/scheduler/event.cpp:Event::add_follower", "redGrapes/task/future.hpp:Future::get", "redGrapes/redGrapes.cpp:yield"]}
{"id": "C71", "title": "The random graph test passes in every execution, and what its check sees", "statement": "With any access pattern in which no task names a resource twice, and any hash in place of the one in the file, the program of test/random_graph.cpp ends: every execution is bounded, and when nothing moves main is behind the barrier, all tasks are done and every resource holds the hash over the tasks that name it in the order of submission, which is what the test expects. The check itself is weaker than that: sha256_process does not change the value, the hash only adds the number of the task, so any order of the calls gives the expected values, and task 0 may be left out; one other call left out or made twice is seen. Refuted: the check fails when tasks on one resource run in the wrong order.", "quantifier": "for every access pattern, hash function, initial contents, number of workers and execution; for the check every permutation of the calls, every call left out or repeated", "why_tests_cant": "It is about a test: with the hash it uses the test cannot fail because of a wrong order, however often it is run; and it runs one pattern and a few schedules.", "anchors": ["test/random_graph.cpp:hash", "test/random_graph.cpp:generate_access_pattern", "test/random_graph.cpp:TEST_CASE(\"RandomGraph\")", "redGrapes/resource/ioresource.hpp:IOResource", "redGrapes/redGrapes.cpp:barrier"]}
{"id": "C72", "title": "The MPI example turns the ring, where source -1 means any source", "statement": "With any number of ranks, cells per rank (3 in the file) and turns (1 in the file), every execution of examples/mpi.cpp on every rank is bounded, and when nothing moves main is behind the barrier of finalize() and all tasks are done. If a receive delivers what its source sent to this rank in that turn, and source -1 stands for any source, then what rank r shows in turn k is the ring of the numbers 1..w*N turned by k places, its cell 0 the last cell of the left neighbour; with the numbers of the file this is the picture in its head comment. Messages with one tag are posted in the order of the turns. The source rank 0 computes, (rank - 1) % size, is -1, not the last rank; refuted: it is a rank, and refuted: the ring turns with every MPI. Where -1 is MPI_PROC_NULL, rank 0 never receives and zeros move into the line of the ranks, one per turn.", "quantifier": "for every number of ranks, cells, turns, workers on each rank, and every combination of executions of the ranks; for every behaviour of receives that satisfies the delivery condition", "why_tests_cant": "The example is not run by the tests, and what it does depends on a constant of the MPI library it is built with: it is right with Open MPI (MPI_ANY_SOURCE is -1) and wrong with MPICH (MPI_PROC_NULL is -1). Combinations of schedules on several ranks cannot be enumerated.", "anchors": ["examples/mpi.cpp:main", "redGrapes/resource/fieldresource.hpp:WriteGuard::at", "redGrapes/resource/fieldresource.hpp:ReadGuard::at", "redGrapes/resource/ioresource.hpp:IOResource", "redGrapes/dispatch/mpi/request_pool.hpp:RequestPool::get_status", "redGrapes/redGrapes.cpp:finalize"]}
{"id": "C73", "title": "Requests for memory of several threads do not keep each other from being answered", "statement": "When any number of threads allocate and free at the same time, each request of at least one byte whose rounded size fits into a chunk besides its management objects, every execution with finitely many calls is bounded: by 4 steps per request, 3 per free and 4 per chunk, and there are at most T*(R+1) chunks for R requests of T threads. A thread inside a call can always take a step, if memory for one chunk is left. When no step is left but new calls, all threads have returned and for every size there are as many blocks handed out as requests, but for those freed. Refuted: every thread is answered whatever the others do; for every k there is an execution of two threads in which one thread, after one request, has added k+1 chunks that the other one took, and is still asking.", "quantifier": "for every number of threads, chunk size, sequence of requests and frees, placement of the chunks in memory, and every interleaving of the atomic accesses, including frees concurrent to allocations", "why_tests_cant": "Whether the retry loop of allocate() ends depends on what all other threads do between a refused request and the next look at the head of the list; a test sees a few of these interleavings, and cannot tell a long wait from one without end.", "anchors": ["redGrapes/memory/chunked_bump_alloc.hpp:ChunkedBumpAlloc::allocate", "redGrapes/memory/chunked_bump_alloc.hpp:ChunkedBumpAlloc::deallocate", "redGrapes/memory/bump_allocator.cpp:BumpAllocator::allocate", "redGrapes/util/atomic_list.hpp:AtomicList::allocate_item"]}
{"id": "C74", "title": "As many tasks as workers occupy all workers; a later task may wait behind a busy worker while another one sleeps", "statement": "In the test WorkerUtilization with any number n of workers: if emplace_task gives each worker one of the n tasks, as it does from any value of next_worker that does not wrap, then in every state in which no body has returned and nothing is possible but the return of bodies, each of the n workers is in the body of the task it was given, and count is n. With any number of workers, any placement and any stealing, executions are bounded, count never exceeds n and is n at the end. For any program: when nothing is possible but the return of bodies, a task is in a queue only if the worker of this queue is itself in a call. Refuted: no worker sleeps then while a task waits in a queue (a new task wakes only the worker it is given to, three tasks and two workers suffice); every worker gets a task in the test (one worker may run all of them by stealing, and the check passes).", "quantifier": "for every number of workers and of threads outside, every start value of the placement counter (for the test), every program (for the queues), and every interleaving, including stealing and late wake-ups", "why_tests_cant": "The test waits ten seconds for a counter, with a few numbers of workers and one interleaving each; it does not look at which worker ran what, and cannot meet the order of events in which a worker goes to sleep just before a task is put behind a busy one.", "anchors": ["test/scheduler.cpp:test_worker_utilization", "redGrapes/redGrapes.hpp:Context::emplace_task", "redGrapes/scheduler/default_scheduler.cpp:DefaultScheduler::emplace_task", "redGrapes/scheduler/default_scheduler.cpp:DefaultScheduler::steal_task", "redGrapes/dispatch/thread/worker.cpp:Worker::work_loop", "redGrapes/dispatch/thread/worker.cpp:Worker::gather_task"]}
{"id": "C75", "title": "Blocks are aligned as all the requests together allow, not as the type they are for demands", "statement": "A block of a bump allocator starts at the end of the region less all requests since the last reset (mod 2^64); it is 2^k-aligned, if the end is, exactly if the sum of the requests is a multiple of 2^k. In every execution of the allocator of a worker in which every request is for more than half of 2^k bytes (in particular all are for objects whose type has alignment 2^k) and every chunk ends at a multiple of 2^k, every block starts at a multiple of 2^k. With other requests in between this fails: alignof(T) is not passed on, an object of 128 bytes and alignment 64 may lie at an odd multiple of 32. StdAllocator::allocate(n) asks for enough room for n objects of at most 2^63 bytes in total; beyond 2^64 bytes the product wraps and a small block is returned.", "quantifier": "all sequences of atomic accesses of one allocator; all executions, of any number of threads, of the chunked allocator; all k up to 64; all object sizes and numbers", "why_tests_cant": "which addresses come out depends on all requests before, of all threads; the types in the tests need at most 16 bytes, and a misaligned access goes unnoticed on x86 until a vector instruction is used", "anchors": ["redGrapes/memory/bump_allocator.cpp:BumpAllocator::allocate", "redGrapes/memory/chunked_bump_alloc.hpp:ChunkedBumpAlloc::allocate", "redGrapes/memory/chunked_bump_alloc.hpp:roundup_to_poweroftwo", "redGrapes/memory/allocator.hpp:StdAllocator::allocate", "redGrapes/memory/allocator.hpp:alloc_shared", "redGrapes/resource/ioresource.hpp:IOResource", "redGrapes/resource/fieldresource.hpp:FieldResource"]}
{"id": "C76", "title": "Accesses print as JSON that determines them; the properties of a task never do", "statement": "The text fmt produces for an access policy of any type, for an access and for the access list of a task is a JSON value, namely the one made of exactly the modes, bounds, resource ids and scope levels; two accesses (access lists) of the same policy types with the same text are equal. A property list whose members all print something, with a label that needs no escapes, is a JSON object of these members. The properties of a task, in contrast, are JSON for no task: QueueProperty and GraphProperty print nothing, the commas around them stay; and a label is not escaped, so it can imitate further properties.", "quantifier": "all policy types (nested to any depth), all values, all access lists, all ids and labels, any further task properties", "why_tests_cant": "the texts appear in log messages only and no test reads them; the policy types are an infinite family of templates", "anchors": ["redGrapes/resource/access/io.hpp:fmt::formatter<IOAccess>", "redGrapes/resource/access/area.hpp:fmt::formatter<AreaAccess>", "redGrapes/resource/access/combine.hpp:fmt::formatter<ArrayAccess>", "redGrapes/resource/access/combine.hpp:fmt::formatter<CombineAccess>", "redGrapes/resource/resource.hpp:fmt::formatter<ResourceAccess>", "redGrapes/resource/resource_user.hpp:fmt::formatter<ResourceUser>", "redGrapes/task/property/inherit.hpp:fmt::formatter<TaskProperties1>", "redGrapes/task/property/queue.hpp:fmt::formatter<QueueProperty>", "redGrapes/task/property/label.hpp:fmt::formatter<LabelProperty>"]}
{"id": "C77", "title": "The memory of a chunk in use stays mapped; that of a chunk given back is unmapped only in part", "statement": "Whatever chunks the allocator obtains from HwlocAlloc and gives back: the pages of every chunk in use stay mapped, and the mapped pages are exactly as many as those of the chunks in use plus, for every chunk given back, the pages beyond those of its control block, since StaticAlloc passes on sizeof(T) instead of the size it allocated. Nothing is mapped in the end exactly if no chunk was given back or the control block covers all pages of a chunk. With chunks of 64 KiB and pages of 4 KiB, giving back n chunks leaves 16 n pages mapped while no chunk is in use: there is no bound.", "quantifier": "all histories of successfully obtaining and of giving back chunks, at all free addresses; all page sizes, chunk sizes and control block sizes not larger than the chunk; for the leak all n", "why_tests_cant": "a test that ends soon does not notice memory that stays mapped, and its answers are not affected", "anchors": ["redGrapes/util/atomic_list.hpp:AtomicList::StaticAlloc", "redGrapes/util/atomic_list.hpp:AtomicList::allocate_item", "redGrapes/util/atomic_list.hpp:AtomicList::get_chunk_allocsize", "redGrapes/memory/hwloc_alloc.hpp:HwlocAlloc::allocate", "redGrapes/memory/hwloc_alloc.hpp:HwlocAlloc::deallocate"]}
{"id": "C78", "title": "A worker, its thread and its memory are on one processing unit; the units share the workers evenly", "statement": "On a machine with at least one processing unit every number of workers can be emplaced without an index out of range, and for every worker i the unit its thread is bound to is the unit of arena i, of the arena its WorkerThread object lies in and of the arena it refers to. Each of p units has n / p of n workers, or one more. The warning about too many workers is given exactly if two workers share a unit. Worker i lies on arena i (comment in emplace_workers) for all i exactly if there are not more workers than units. pin_cpu allows exactly the CPU asked for, if less than CPU_SETSIZE; unpin_cpu allows the first 64 CPUs and no other.", "quantifier": "all numbers of workers and of processing units; all CPU numbers", "why_tests_cant": "a test runs on one machine, with the units it has, and does not observe where memory lies", "anchors": ["redGrapes/dispatch/thread/worker_pool.cpp:WorkerPool::emplace_workers", "redGrapes/dispatch/thread/worker.cpp:WorkerThread::cpubind", "redGrapes/dispatch/thread/worker.cpp:WorkerThread::membind", "redGrapes/dispatch/thread/worker_pool.hpp:WorkerPool::get_alloc", "redGrapes/memory/allocator.cpp:Allocator::Allocator", "redGrapes/dispatch/thread/cpuset.cpp:pin_cpu", "redGrapes/dispatch/thread/cpuset.cpp:unpin_cpu"]}
{"id": "C79", "title": "Arguments of a task become exactly the accesses of the guards they give to its body, in whatever order they are evaluated", "statement": "The access list of a task holds exactly the accesses of the guards among its arguments (also behind std::reference_wrapper, to any depth) and those named by resources(), provided no argument hides a guard in another object; every argument that could is warned about, and only those. Conflicts, accepted demotions, synchronising accesses and the number of entries per resource do not depend on the order in which the compiler evaluates the arguments; the order of the entries does. A guard obtained from an IOResource by any calls of read() and write() registers write exactly if its get(), operator* and operator-> give a mutable object, and read otherwise; no call leads from reading back to writing. Not so for hidden guards and for the public member obj of a guard: both let a body write without a conflict.", "quantifier": "all argument lists and their permutations, all accesses of all policy types, all sequences of calls to read() and write()", "why_tests_cant": "the evaluation order is the compiler's; a task with an unregistered access runs correctly as long as nothing runs beside it", "anchors": ["redGrapes/task/property/trait.hpp:trait::BuildProperties", "redGrapes/resource/resource.hpp:trait::BuildProperties", "redGrapes/resource/resource.hpp:SharedResourceObject", "redGrapes/resource/ioresource.hpp:ioresource::ReadGuard", "redGrapes/resource/ioresource.hpp:ioresource::WriteGuard", "redGrapes/resource/ioresource.hpp:IOResource", "redGrapes/task/task_builder.hpp:PropBuildHelper", "redGrapes/task/task_builder.hpp:TaskBuilder"]}
{"id": "C80", "title": "A task keeps its callable and its arguments as they were when it was emplaced", "statement": "Whatever the caller does afterwards, the body of a task sees the callable and every argument other than a std::ref with the values they had when emplace_task was called, and emplacing changes no variable of the caller but that of the callable. In every program that does not use a variable again after emplacing it as a callable (unless its type is trivial or it got a new value) these are the values the assignments of the caller have left. Without this condition it is false: emplace_task moves from a callable also when it is given as a variable, so that a second task emplaced with it has an empty callable. A body begun a second time sees the same arguments exactly as far as those given as temporaries have not been moved from.", "quantifier": "all programs of assignments and emplacements, all types of values, all argument lists, all later states of the caller", "why_tests_cant": "the tests and examples emplace temporaries (lambda expressions) only, for which moving and copying cannot be told apart", "anchors": ["redGrapes/redGrapes.hpp:emplace_task", "redGrapes/redGrapes.hpp:Context::emplace_task", "redGrapes/task/task_builder.hpp:TaskBuilder::BindArgs", "redGrapes/task/task_builder.hpp:TaskBuilder"]}
{"id": "C81", "title": "The access demotion example throws", "statement": "A chain of add_resources and remove_resources on a patch builder makes the patch with all their changes in order, though each call works on another copy of the builder; a builder that is kept has the changes of the calls made on itself only. The patch of examples/5_access_demotion.cpp is a demotion: it leaves exactly the read access, with which the task no longer conflicts with the second task. But update_properties throws on it, for every resource that is not deeper than the task, as in the example itself, and does so with the access list already changed and the graph not updated. In general update_properties returns exactly if it is called by a task and the patch leaves it only accesses to resources deeper than the task.", "quantifier": "all chains of builder calls, all tasks, all resources, all depths below 256", "why_tests_cant": "no test calls update_properties; the example is not run by the tests, and running it shows one resource at one depth", "anchors": ["redGrapes/task/property/inherit.hpp:TaskProperties1::Patch::Builder", "redGrapes/task/property/resource.hpp:ResourceProperty::Patch", "redGrapes/redGrapes.cpp:Context::update_properties", "examples/5_access_demotion.cpp:main"]}
{"id": "C82", "title": "get_status returns for requests that are not null, and never for null requests", "statement": "In every history of get_status and poll, with every answer MPI_Testsome may give (which ignores null requests), each request is pending or was completed once; a pending request that is not null may be completed by the next poll, with its own event and status, whatever null requests are in the pool. But no null request is ever completed: get_status with MPI_REQUEST_NULL, for which MPI_Wait returns at once, never returns, and its entry stays in the pool.", "quantifier": "all histories of registrations and polls, all reports of MPI_Testsome", "why_tests_cant": "that something never happens cannot be seen in a run; the tests have no MPI, the example passes no null request", "anchors": ["redGrapes/dispatch/mpi/request_pool.hpp:RequestPool::poll", "redGrapes/dispatch/mpi/request_pool.hpp:RequestPool::get_status"]}
