{"id": "C01", "title": "Live shared page allocations never overlap and stay inside the segment", "statement": "For a page allocator managing N pages, after any sequence of successful allocations and matching frees, the page ranges of any two live allocations are disjoint and every live range lies inside [0,N).", "quantifier": "every capacity N, every finite history of alloc/free calls with arbitrary sizes", "why_tests_cant": "the bit search has separate branches for one-chunk, straddling and many-chunk requests whose behaviour depends on the exact fragmentation left by the whole earlier history", "anchors": ["src/utils/bitmap.c: utils_bitmap_alloc_bits, find_start_small, find_start_big, find_end_small, utils_bitmap_free_bits", "src/alloc/dlmalloc/alloc.c: arax_mmap, arax_ummap"]}
{"id": "C02", "title": "Page accounting is exact", "statement": "After any history, the 'used' figure equals the number of pages actually marked allocated and equals the sum of the sizes of the live allocations, and used + free = size; an allocation that fails changes no page and no figure.", "quantifier": "every capacity, every finite alloc/free history", "why_tests_cant": "drift would only show after particular fragmentation histories; the invariant must survive every branch", "anchors": ["src/utils/bitmap.c: utils_bitmap_used, utils_bitmap_free, utils_bitmap_count_allocated, utils_bitmap_alloc_bits, utils_bitmap_free_bits"]}
{"id": "C03", "title": "An allocation fails only when no free run is long enough", "statement": "If N pages contain a run of k consecutive free pages then a request for k pages succeeds (arax_mmap aborts the process when it fails).", "quantifier": "every capacity, every allocation state, every k", "why_tests_cant": "a miss needs a specific fragmentation pattern relative to 64-page chunk boundaries", "anchors": ["src/utils/bitmap.c: find_start_small:98-134, find_start_big, utils_bitmap_alloc_bits"]}
{"id": "C04", "title": "Freeing releases exactly the named pages, and freeing something not allocated is rejected", "statement": "Freeing a live range clears exactly the pages of that range and no other page, after which the same range can be allocated again; freeing a range that is not completely allocated aborts instead of corrupting the accounting.", "quantifier": "every allocation state, every (start,length)", "why_tests_cant": "depends on the pair (start mod 64, length) and on what is in the interior chunks; unit tests free only what they allocated", "anchors": ["src/utils/bitmap.c: utils_bitmap_free_bits:255-296", "src/alloc/dlmalloc/alloc.c: arax_ummap"]}
{"id": "C05", "title": "Allocator metadata never overlaps the pages handed out and all pages lie inside the shared segment", "statement": "For any segment base and size large enough to hold the headers, the page area is page aligned, starts after the allocator header and its page bitmap, and ends at or before the end of the segment; hence every address returned by arax_mmap is 4096-aligned, inside the segment and disjoint from the bitmap.", "quantifier": "every base address and segment size", "why_tests_cant": "pointer rounding at every residue modulo 4096 and every bitmap size", "anchors": ["src/alloc/dlmalloc/alloc.c: arch_alloc_init_once:27-55, arax_mmap, arax_ummap", "src/core/arax_pipe.c: arax_pipe_init:35-37"]}
{"id": "C06", "title": "A queue is a bounded FIFO", "statement": "For any sequence of push/pop/peek/used_slots calls on one queue, the results are those of an ideal bounded FIFO of the configured capacity: pops return pushed values in push order, push returns NULL exactly when capacity items are stored (and then changes nothing), pop/peek return NULL exactly when empty, and used_slots is the exact length, including after the 16-bit indices wrap around.", "quantifier": "every power-of-two capacity below 65536, every operation sequence of any length", "why_tests_cant": "index wrap-around occurs only after 65536 operations and at each alignment of the wrap with the capacity", "anchors": ["src/utils/queue.c: utils_queue_init, utils_queue_push, utils_queue_pop, utils_queue_peek, utils_queue_used_slots", "src/utils/queue.h: struct queue"]}
{"id": "C07", "title": "Every documented queue capacity works", "statement": "The build option promises capacities up to and including 65536; with any allowed capacity the queue never loses or overwrites an element.", "quantifier": "every capacity the option allows", "why_tests_cant": "needs 65536 outstanding pushes at one particular build configuration", "anchors": ["src/utils/queue.c: utils_queue_push:89-124", "cmake/Options.cmake: UTILS_QUEUE_CAPACITY"]}
{"id": "C08", "title": "Concurrent pushes and pops neither lose nor duplicate nor reorder elements", "statement": "With any number of threads pushing and popping one queue concurrently, the sequence of successfully popped values is a prefix of the sequence of successfully pushed values in their commit order: no element is lost, duplicated, invented or reordered, and a failed operation has no effect.", "quantifier": "every number of threads, every interleaving of their individual memory accesses (sequentially consistent)", "why_tests_cant": "the number of interleavings is unbounded; races show up rarely under test schedules", "anchors": ["src/utils/queue.c: utils_queue_push, utils_queue_pop", "src/utils/spinlock.h: utils_spinlock_lock, utils_spinlock_unlock"]}
{"id": "C09", "title": "Spinlock mutual exclusion", "statement": "At any moment at most one thread is between a return of lock and the following call of unlock, the lock word is 1 exactly while some thread is inside, and a free lock can always be taken.", "quantifier": "every number of threads, every interleaving", "why_tests_cant": "mutual exclusion is a statement about all schedules", "anchors": ["src/utils/spinlock.h: utils_spinlock_lock, utils_spinlock_unlock"]}
{"id": "C10", "title": "Intrusive lists behave as sequences", "statement": "For any history of list calls that respects the ownership rule (insert only unlinked nodes, delete only members), the list behaves as an abstract sequence: add puts the element first, delete removes exactly that element keeping the order of the rest, pop_head/pop_tail return first/last or NULL when empty, to_array and iteration yield the sequence in order, length is exact, and nodes of other lists are untouched.", "quantifier": "every list length, every operation history, every set of other lists sharing the heap", "why_tests_cant": "pointer surgery must be right for every aliasing pattern of neighbours (empty, singleton, head, tail, interior)", "anchors": ["src/utils/list.c: utils_list_init, utils_list_add, utils_list_del, utils_list_pop_head, utils_list_pop_tail, utils_list_to_array, utils_list_node_linked"]}
{"id": "C11", "title": "The key/value store is a bounded map", "statement": "After any sequence of set calls, get returns the last value set for that key and NULL for a key never set; the store never holds a key twice; only inserting a new key into a full store is refused, by aborting, and existing keys can still be updated when full.", "quantifier": "every capacity, every sequence of set/get calls", "why_tests_cant": "the property ranges over all histories and key coincidences", "anchors": ["src/utils/Kv.c: utils_kv_init, utils_kv_set, utils_kv_get"]}
{"id": "C12", "title": "Enforced throttling never over-commits", "statement": "With throttle enforcement on, for any number of threads reserving and releasing space: available + reserved-and-not-released = capacity at every point where the throttle is unlocked, available never exceeds capacity nor wraps below zero, and a reservation returns only after its space was really available.", "quantifier": "every number of threads, every interleaving, every request size", "why_tests_cant": "schedules are unbounded", "anchors": ["src/core/arax_throttle.c: arax_throttle_init, arax_throttle_size_inc, arax_throttle_size_dec", "src/async/spin/async.c: async_condition_*", "src/async/mutex/async.c: async_condition_*"]}
{"id": "C13", "title": "A throttled caller whose request fits is eventually admitted", "statement": "No reachable state in which nobody is running leaves a caller asleep in a reservation although the available space already covers its request.", "quantifier": "every number of threads and request sizes, every interleaving, for both the mutex and the spin back-end", "why_tests_cant": "lost wake-ups need a particular order of waits and notifies", "anchors": ["src/core/arax_throttle.c: arax_throttle_size_dec:87-91", "src/async/spin/async.c: async_condition_wait, async_condition_notify", "src/async/mutex/async.c: async_condition_wait, async_condition_notify"]}
{"id": "C14", "title": "Throttle accounting without enforcement", "statement": "Without enforcement reservations never block; after any history of reservations and releases the available figure equals the initial figure minus outstanding reservations modulo 2^64, and it is the true figure whenever the total reserved never exceeded the available space.", "quantifier": "every history of inc/dec with any sizes", "why_tests_cant": "unsigned wrap-around and compensation over arbitrary histories", "anchors": ["src/core/arax_throttle.c: arax_throttle_size_inc, arax_throttle_size_dec"]}
{"id": "C15", "title": "Waiting for a completion returns only after it was completed, one waiter per completion", "statement": "async_completion_wait returns only after a complete call that has not already released another waiter; the number of returned waits never exceeds the number of completes; complete is idempotent until consumed; check tells whether a wait would succeed now.", "quantifier": "every number of threads, every interleaving", "why_tests_cant": "schedules are unbounded", "anchors": ["src/async/spin/async.c: async_completion_init, async_completion_complete, async_completion_wait, async_completion_check"]}
{"id": "C16", "title": "Every wait on a finished task returns", "statement": "Any thread that waits for a task that has completed returns, no matter how many waits were made on the task before.", "quantifier": "every task history, every number of waiters", "why_tests_cant": "quantifies over number and order of waits relative to completion", "anchors": ["src/core/arax_task.c: arax_task_wait_done, arax_task_mark_done", "src/async/spin/async.c: async_completion_wait", "src/arch/shm/impl.c: arax_task_wait"]}
{"id": "C17", "title": "Waiting for a task reports how it ended", "statement": "arax_task_wait returns the state the controller gave the task, task_completed or task_failed, and task_failed is reported rather than crashing the caller.", "quantifier": "every order of mark_done and wait, every end state", "why_tests_cant": "the outcome depends on whether the failure is marked before or after the waiter arrives", "anchors": ["src/core/arax_task.c: arax_task_wait_done:77-81, arax_task_mark_done", "src/arch/shm/impl.c: arax_task_wait, arax_task_issue_sync"]}
{"id": "C18", "title": "Objects live exactly as long as they are referenced", "statement": "After any history, an object is registered (visible in its type's registry exactly once) if and only if its reference count is positive; the call that drops the last reference destroys it exactly once and changes no unrelated object; using or releasing it afterwards is flagged as an error, never silently accepted.", "quantifier": "every history of register/inc/dec calls over any number of objects", "why_tests_cant": "histories are unbounded", "anchors": ["src/core/arax_object.c: arax_object_register, arax_object_ref_inc, arax_object_ref_dec, arax_object_ref_dec_pre_locked, arax_object_repo_exit"]}
{"id": "C19", "title": "Shared memory accounting returns to its initial value", "statement": "At every moment available shared memory plus the sizes of all live objects equals the initial figure, so when the last object dies the available figure is back to the initial one (the check made by arax_exit).", "quantifier": "every API history", "why_tests_cant": "one unbalanced path anywhere would break it only for histories using that path", "anchors": ["src/core/arax_object.c: arax_object_register, arax_object_ref_dec", "src/core/arax_pipe.c: arax_pipe_size_inc, arax_pipe_size_dec", "src/arch/shm/impl.c: arax_exit"]}
{"id": "C20", "title": "References held by the runtime are exact", "statement": "At every moment the reference count of every object equals the references owned by clients plus one for each live task argument naming it, one for each submitted live task's accelerator and one for each buffer assigned to the accelerator; hence an object in use by a task or buffer is never destroyed and releasing everything leaves nothing behind.", "quantifier": "every history of acquire/release, buffer create/free, task issue/complete/free by clients that release only what they own", "why_tests_cant": "ranges over all interleavings of object lifetimes", "anchors": ["src/core/arax_task.c: arax_task_alloc, arax_task_submit, dtor", "src/core/arax_data.c: arax_data_input_init, arax_data_output_init, arax_data_migrate_accel, arax_data_set, dtor", "src/arch/shm/impl.c: arax_task_issue, arax_accel_release, arax_task_free"]}
{"id": "C21", "title": "Tasks of one virtual accelerator start in issue order", "statement": "For every virtual accelerator the tasks handed to its accelerator are exactly the tasks issued to it, in issue order, each exactly once, whatever happens on other accelerators and however it is re-assigned between physical accelerators.", "quantifier": "every history of issue, assign, unassign, and execution steps over any number of accelerators", "why_tests_cant": "all histories and interleavings", "anchors": ["src/core/arax_vaccel.c: arax_vaccel_add_task", "src/utils/queue.c", "src/core/arax_accel.c: arax_accel_add_vaccel, arax_accel_del_vaccel", "controller/src/Schedulers/RoundRobinScheduler.cpp: selectTask"]}
{"id": "C22", "title": "The pending-work counter of a physical accelerator is exact", "statement": "The pending task count plus the permits its worker holds equals the number of tasks queued on the virtual accelerators assigned to it, so a worker that was granted work always finds a task and none is forgotten.", "quantifier": "every history of submit, assign, unassign, wait and pop", "why_tests_cant": "drift accumulates only over particular histories", "anchors": ["src/core/arax_accel.c: arax_accel_wait_for_task, arax_accel_add_task, arax_accel_add_vaccel, arax_accel_del_vaccel, arax_accel_pending_tasks", "src/core/arax_vaccel.c: arax_vaccel_add_task"]}
{"id": "C23", "title": "A virtual accelerator is in exactly one place", "statement": "Every live virtual accelerator is either on the list of the physical accelerator it is assigned to, exactly once, or unassigned; unassigned ones are on the orphan list or handed to the balancer; assigning to the current accelerator is a no-op and assigning while assigned elsewhere is refused; the revision of an accelerator changes exactly when its set of virtual accelerators does.", "quantifier": "every history of acquire, release, assign and unassign", "why_tests_cant": "histories are unbounded", "anchors": ["src/core/arax_accel.c: arax_accel_add_vaccel, arax_accel_del_vaccel, arax_accel_get_assigned_vaccels, arax_accel_get_revision", "src/core/arax_pipe.c: arax_pipe_add_orphan_vaccel, arax_pipe_get_orphan_vaccel, arax_pipe_remove_orphan_vaccel", "src/core/arax_vaccel.c: arax_vaccel_init, dtor"]}
{"id": "C24", "title": "A worker never sleeps while work is pending", "statement": "If tasks were submitted to a physical accelerator and no submitter is in the middle of a call, its worker thread is not left asleep: it is running or will be woken without any further submission.", "quantifier": "every number of submitter threads, every interleaving, both condition variable back-ends", "why_tests_cant": "lost wake-ups are schedule dependent", "anchors": ["src/core/arax_accel.c: arax_accel_wait_for_task, arax_accel_add_task", "src/async/spin/async.c", "src/async/mutex/async.c"]}
{"id": "C25", "title": "Buffers are correctly laid out", "statement": "For every size and alignment a created buffer's data area has the requested alignment, is inside the memory reserved for the buffer, does not overlap the buffer's header or the back pointer, and the back pointer leads from the data address to its buffer.", "quantifier": "every size, every non-zero alignment, every placement address", "why_tests_cant": "address residues are unbounded", "anchors": ["src/core/arax_data.c: arax_data_init_aligned:21-50, arax_data_deref, arax_data_ref", "src/core/arax_data.h: ARAX_BUFF_ALLOC_SIZE"]}
{"id": "C26", "title": "Interior pointers resolve to the owning buffer", "statement": "Looking up an address inside a live buffer's data area yields that buffer and an address outside all data areas yields none.", "quantifier": "every set of live buffers, every address, every memory contents", "why_tests_cant": "depends on arbitrary memory contents just before the address", "anchors": ["src/core/arax_data.c: arax_data_ref, arax_data_ref_offset"]}
{"id": "C27", "title": "Data read back is the data last written", "statement": "After writing a buffer through an accelerator and reading it back through the same accelerator with no other writer in between, the reader gets exactly the bytes written, whatever other tasks are queued on other buffers and accelerators; the source may be modified as soon as the write call returns.", "quantifier": "every buffer size and contents, every queue state, every interleaving with other work", "why_tests_cant": "contents, sizes and histories are unbounded", "anchors": ["src/core/arax_data.c: arax_data_set, arax_data_get", "controller/src/Cpu/CpuBuiltins.cpp: arax_data_set, arax_data_get handlers", "src/arch/shm/impl.c: arax_task_issue"]}
{"id": "C28", "title": "Task argument block is private and intact", "statement": "The argument bytes given at issue are what the executing side reads, they lie inside the task's own memory after its buffer table, and asking with a size different from the issue size is refused.", "quantifier": "every number of buffers, every argument size and contents", "why_tests_cant": "layout arithmetic must hold for all sizes", "anchors": ["src/core/arax_task.c: arax_task_alloc, arax_task_host_data", "src/arch/shm/impl.c: arax_task_issue:482-483"]}
{"id": "C29", "title": "Buffer re-assignment keeps accelerator references balanced", "statement": "Assigning a buffer to an accelerator, moving it between two virtual accelerators of the same device, and freeing it leave every accelerator's reference count equal to the references owned by others plus the buffers currently assigned to it; moving across devices is refused without side effects.", "quantifier": "every history of assignments of any number of buffers", "why_tests_cant": "leaks appear only for particular assignment sequences", "anchors": ["src/core/arax_data.c: arax_data_migrate_accel, arax_data_set_accel, arax_data_set_remote, dtor"]}
{"id": "C30", "title": "Accelerator type names round-trip", "statement": "Every valid type has a name, converting the name back (in any letter case) gives the type, distinct types have distinct names, and any other string gives the invalid marker.", "quantifier": "every type value, every string", "why_tests_cant": "all strings and all case variants", "anchors": ["src/core/arax_accel_types.c: arax_accel_valid_type, arax_accel_type_to_str, arax_accel_type_from_str"]}
{"id": "C31", "title": "Kernel lookup tells the truth", "statement": "A registered procedure reports it can run on an accelerator type if and only if a kernel was set for that type, setting returns the previous kernel, setting one type does not affect others, and lookup by name finds a procedure iff one with that name is registered, returning the same object on repeated registration.", "quantifier": "every sequence of set/get/register calls, every type", "why_tests_cant": "histories are unbounded", "anchors": ["src/core/arax_proc.c: arax_proc_get_functor, arax_proc_set_functor, arax_proc_can_run_at", "src/core/arax_pipe.c: arax_pipe_find_proc", "src/arch/shm/impl.c: arax_proc_register, arax_proc_get, arax_proc_put"]}
{"id": "C32", "title": "Each successful procedure registration owns a reference", "statement": "Every arax_proc_register / arax_proc_get call takes a reference that the matching arax_proc_put returns, so a procedure stays usable while any of its users has not put it back.", "quantifier": "every number of users, every order of register/get/put", "why_tests_cant": "premature destruction requires a particular sharing pattern between independent clients", "anchors": ["src/arch/shm/impl.c: arax_proc_register:384-398, arax_proc_get, arax_proc_put"]}
{"id": "C33", "title": "Issue accepts exactly valid argument lists", "statement": "Argument checking accepts a task's buffers if and only if every input and output is a non-NULL buffer object; anything else aborts before any task is created.", "quantifier": "every number of inputs and outputs, every content", "why_tests_cant": "lists are unbounded", "anchors": ["src/arch/shm/impl.c: check_semantics, arax_task_issue"]}
{"id": "C34", "title": "Accelerator listing is a faithful snapshot", "statement": "Listing physical or virtual accelerators of a type returns the number of live ones of that type, the array holds exactly those once each followed by NULL, takes one reference on each, and freeing the list returns those references; lookup by name/type returns a live match iff there is one.", "quantifier": "every population of accelerators and every type filter", "why_tests_cant": "populations are unbounded", "anchors": ["src/arch/shm/impl.c: arax_accel_list, arax_accel_list_free", "src/core/arax_pipe.c: arax_pipe_find_accel"]}
{"id": "C35", "title": "Process mapping table", "statement": "A process is told to map the segment exactly when it is not currently recorded; after marking it unmapped it is no longer recorded and every other recorded process still is.", "quantifier": "every number of processes up to the table size, every order of map/unmap", "why_tests_cant": "the failure needs more than a hundred simultaneous processes", "anchors": ["src/core/arax_pipe.c: arax_pipe_have_to_mmap, arax_pipe_mark_unmap"]}
{"id": "C36", "title": "Exactly one process initialises and exactly one tears down the segment", "statement": "With any number of processes attaching and detaching, exactly the first to attach initialises, and detaching reports 'last' exactly once per period in which the segment is in use, when no process remains.", "quantifier": "every number of processes, every interleaving of attach/detach", "why_tests_cant": "schedules are unbounded", "anchors": ["src/core/arax_pipe.c: arax_pipe_init, arax_pipe_exit, arax_pipe_add_process, arax_pipe_del_process"]}
{"id": "C37", "title": "No process sees a half-initialised segment", "statement": "A process whose attach call returned successfully uses a segment whose allocator, registries and accounting have been fully initialised.", "quantifier": "every interleaving of first and later processes", "why_tests_cant": "race window", "anchors": ["src/core/arax_pipe.c: arax_pipe_init:12-55"]}
{"id": "C38", "title": "Clients waiting for the controller are released when it is ready", "statement": "Every client blocked in arax_init returns once the controller has announced readiness, however many clients there are and whenever they arrive.", "quantifier": "every number of clients, every interleaving", "why_tests_cant": "lost wake-ups are schedule dependent", "anchors": ["src/arch/shm/impl.c: _arax_init:116-121, arax_controller_init_done:143-147"]}
{"id": "C39", "title": "Configuration lookup returns the first setting", "statement": "Looking up a key returns the value of the first line with that key; writing a new key makes it readable without affecting other keys; numeric lookups return the stored number only when it parses and is in range and otherwise the default.", "quantifier": "every configuration text, every key/value free of blanks", "why_tests_cant": "all texts and number strings", "anchors": ["src/utils/config.c: _utils_config_get_str, utils_config_get_str, utils_config_get_int, utils_config_get_bool, utils_config_get_long, utils_config_get_size, utils_config_write_str"]}
{"id": "C40", "title": "Round robin is work conserving and fair", "statement": "When some assigned virtual accelerator has a queued task, the round-robin selection picks a task; a virtual accelerator that stays non-empty is served within a number of selections bounded by the number of assigned virtual accelerators; only the head task of one queue is taken.", "quantifier": "every number of virtual accelerators, every queue contents, every arrival pattern", "why_tests_cant": "all arrival patterns", "anchors": ["controller/src/Schedulers/RoundRobinScheduler.cpp: selectTask"]}
{"id": "C41", "title": "Heterogeneous selection only runs what the device supports", "statement": "The heterogeneous scheduler hands an accelerator only tasks whose procedure can run on that accelerator's type, and never drops or reorders tasks.", "quantifier": "every queue contents and kernel support table", "why_tests_cant": "all contents", "anchors": ["controller/src/Schedulers/HeterogeneousScheduler.cpp: checkForRunnableTask, selectTask"]}
{"id": "C44", "title": "Submitting to a full queue only delays the submitter", "statement": "A client that submits to a virtual accelerator whose queue is full waits until there is room; it does not stop the controller from assigning that virtual accelerator to a device, and once a device serves it the submission completes.", "quantifier": "every queue capacity, number of threads and interleaving, both condition variable back-ends", "why_tests_cant": "needs a queue filled before the first assignment, and never happening is not observable in finite time", "anchors": ["src/core/arax_vaccel.c: arax_vaccel_add_task", "src/core/arax_accel.c: arax_accel_add_vaccel", "src/utils/queue.c"]}
{"id": "C43", "title": "The leak check of the last process is truthful", "statement": "When the last process leaves, arax_exit aborts (leak check) exactly when shared memory taken since the segment was set up was not given back.", "quantifier": "every number of processes, every history of attaching, taking and giving back memory, and leaving", "why_tests_cant": "depends on who attached when, over all histories", "anchors": ["src/arch/shm/impl.c: _arax_init:106, arax_exit:160-171", "src/core/arax_throttle.c: arax_throttle_get_available_size"]}
{"id": "C46", "title": "Reads are ordered after earlier writes across virtual accelerators", "statement": "If a buffer is written through one virtual accelerator and later used through another virtual accelerator of the same device, a read issued after the write still returns the written bytes.", "quantifier": "every interleaving of clients, workers and assignments; every buffer and number of virtual accelerators", "why_tests_cant": "needs a particular interleaving of two queues served by one device", "anchors": ["src/core/arax_data.c: arax_data_get, arax_data_migrate_accel", "src/arch/shm/impl.c: arax_task_issue", "controller/src/Core/accelThread.cpp: workFunc"]}
{"id": "C47", "title": "Path expansion is exact and stays in bounds", "statement": "Expanding a configuration path replaces every ~ by the home directory and returns exactly that string when it fits; otherwise it returns NULL or aborts, and it never writes outside its buffer.", "quantifier": "every path and home directory", "why_tests_cant": "all strings, including exact buffer boundaries", "anchors": ["src/utils/config.c: utils_config_alloc_path"]}
{"id": "C48", "title": "Processes sharing a configuration do not disturb each other", "statement": "When several processes look up and write settings of the same configuration file, every written setting is kept and no lookup misses a setting that is present.", "quantifier": "every number of processes and interleaving of their calls", "why_tests_cant": "depends on the interleaving", "anchors": ["src/utils/config.c: conf_get, conf_set, utils_config_write_str"]}
{"id": "C42", "title": "Every new virtual accelerator is handed to the controller exactly once", "statement": "A virtual accelerator that was created and not destroyed is handed to the controller's balancer exactly once; no wake-up is lost, and the controller is never handed a null one.", "quantifier": "every number of clients creating and destroying virtual accelerators, every interleaving with the balancer, both synchronisation back-ends", "why_tests_cant": "depends on how creations, destructions and the balancer's wake-ups interleave", "anchors": ["src/core/arax_pipe.c: arax_pipe_add_orphan_vaccel, arax_pipe_get_orphan_vaccel, arax_pipe_remove_orphan_vaccel", "controller/src/Core/VacBalancerThread.cpp: balancer loop", "src/async/spin/async.c: async_condition_wait, async_condition_notify"]}
{"id": "C45", "title": "Each new virtual accelerator is assigned to a usable device", "statement": "Every virtual accelerator handed to the controller's scheduler is assigned to a configured device (one whose type supports its first task, for the heterogeneous scheduler), and no request of a client takes the controller down.", "quantifier": "every configured set of devices and every sequence of requests", "why_tests_cant": "all device sets and request histories, including empty device sets and unsupported kernels", "anchors": ["controller/src/Schedulers/RoundRobinScheduler.cpp: assignVac", "controller/src/Schedulers/ElasticScheduler.cpp: assignVac", "controller/src/Schedulers/HeterogeneousScheduler.cpp: assignVac"]}
{"id": "C49", "title": "References keep a shared object alive across processes", "statement": "Any number of threads and processes may take, list, look up by name, pass on and release references to the same object at once: as long as anybody holds a reference the object stays registered, undestroyed and its memory allocated, and after the last reference was released it is destroyed, released and accounted for exactly once.", "quantifier": "every number of threads, every distribution of references and every interleaving of the individual memory accesses of the calls", "why_tests_cant": "the races are between single instructions of ref_inc, ref_dec, the listing walk and the lookup by name", "anchors": ["src/core/arax_object.c: arax_object_ref_inc, arax_object_ref_dec, arax_object_ref_dec_pre_locked", "src/arch/shm/impl.c: arax_accel_list, arax_accel_list_free, arax_proc_get", "src/core/arax_pipe.c: arax_pipe_find_proc"]}
{"id": "C50", "title": "Copying a buffer copies its contents", "statement": "arax_data_memcpy makes the destination buffer hold what the source buffer holds once everything issued on the source before it has run, leaves the source as it was, refuses buffers of different sizes, does nothing when both are the same buffer, and when blocking returns only after the copy.", "quantifier": "every pair of buffers of every size and content, every history of writes issued before", "why_tests_cant": "all sizes, contents and pending histories; no caller of the function exists in the repository's tests", "anchors": ["src/core/arax_data.c: arax_data_memcpy, arax_data_get, arax_data_set", "include/core/arax_data.h: arax_data_memcpy"]}
{"id": "C51", "title": "A task and what it needs stay valid until it was executed", "statement": "From the issue of a task until its handler and the worker are through with it, the task, its procedure and its results may be touched by the worker and by the waiting client without use after free, whatever the client and other processes release meanwhile within the documented rules; afterwards the task is destroyed exactly once.", "quantifier": "every interleaving of the client, the worker, the handler and other users of the procedure, for handlers that mark the task done, release it, or both", "why_tests_cant": "depends on which side releases last, at the granularity of single accesses", "anchors": ["src/arch/shm/impl.c: arax_task_issue, arax_task_wait, arax_task_free, arax_proc_put", "src/core/arax_task.c: arax_task_mark_done, arax_task_wait_done", "controller/src/Core/accelThread.cpp: workFunc", "controller/src/Cpu/CpuBuiltins.cpp: handlers"]}
{"id": "C52", "title": "Attaching and detaching within a process", "statement": "arax_init and arax_exit may be called by any number of threads of a process, nested: the process is attached to the shared segment exactly while some arax_init has not been undone by an arax_exit; the first call attaches, the last one detaches, and no call made in between touches an unmapped segment.  Asking whether a pointer is valid changes nothing, and an arax_exit without an arax_init does no harm.", "quantifier": "every number of threads and every interleaving of their calls", "why_tests_cant": "the windows between counting, mapping and detaching are a few instructions wide and depend on how the threads interleave", "anchors": ["src/arch/shm/impl.c: _arax_init, arax_init, arax_exit", "src/core/arax_ptr.c: arax_ptr_valid"]}
{"id": "C53", "title": "Every attached process sees the whole segment at the same address", "statement": "Two processes that are attached to a segment see it at the same address, and each can use every byte of its configured size at any time while attached; a process that cannot attach reports why and exits with status 1.", "quantifier": "every number of processes, every interleaving of their attachments, exits and deaths, every answer of the kernel and of the configuration", "why_tests_cant": "depends on where the kernel places mappings, on process id reuse, on death at arbitrary points and on interleaving; tests run one process in one layout", "anchors": ["src/arch/shm/impl.c: _arax_init, arax_exit", "src/utils/system.c: system_mmap", "src/core/arax_pipe.c: arax_pipe_mmap_address, arax_pipe_have_to_mmap, arax_pipe_init"]}
{"id": "C54", "title": "The controller starts and stops", "statement": "With accelerators that can be initialised the controller announces itself, with one that cannot it gives up; after an interrupt every worker returns, every accelerator is released, no released accelerator is used, tasks already issued are not silently dropped, and the process detaches from the segment, however often it is interrupted.", "quantifier": "every number of accelerators, every interleaving of main, workers, clients and balancer, every moment of the interrupt", "why_tests_cant": "depends on where each worker is when the interrupt arrives and on fairness, not on inputs", "anchors": ["controller/src/Core/arax_controller.cpp: main, spawnThreads, deleteThreads, deRegisterAccel, signal_callback_handler", "controller/src/Core/accelThread.cpp: workFunc, terminate, setJobPreference", "src/core/arax_accel.c: arax_accel_wait_for_task, arax_accel_add_task, arax_accel_del_vaccel", "src/core/arax_ptr.c: arax_ptr_valid"]}
{"id": "C55", "title": "Kernel libraries are loaded", "statement": "After the controller has started it knows a kernel for a name and an accelerator type exactly if some kernel library below a configured folder offers one, and calls that library's function for it; a library that cannot be used does not affect the others; a library put into a folder later is loaded too; stopping the loader always succeeds, and after unloading no function of an unloaded library is handed out.", "quantifier": "every folder tree and library, every kernel and type name, every order in which files arrive while the loader runs", "why_tests_cant": "the set of folders, libraries, symbol names and arrival times is unbounded; tests load one builtin library once", "anchors": ["controller/src/Core/araxLibMgr.cpp: loadFolder, loadLibrary, unloadLibraries, rtld_handler, ~AraxLibMgr", "include/arax.h: ARAX_HANDLER", "controller/src/Core/arax_controller.cpp: main"]}
{"id": "C56", "title": "Registering one procedure from several threads", "statement": "However many threads or processes register a procedure name and set kernels on it at the same time, they all get one procedure, every kernel that was set stays set, and the procedure is reported runnable for every type that has a kernel.", "quantifier": "every number of threads and every interleaving of their registrations and kernel settings", "why_tests_cant": "the windows between lookup and creation, between publication and initialisation, and within the read-modify-write of the runnable mask depend on the schedule", "anchors": ["src/arch/shm/impl.c: arax_proc_register", "src/core/arax_object.c: arax_object_register", "src/core/arax_proc.c: arax_proc_init, arax_proc_set_functor, arax_proc_can_run_at", "src/core/arax_pipe.c: arax_pipe_find_proc"]}
{"id": "C57", "title": "Waiting between virtual machines (ivshmem back-end)", "statement": "With the ivshmem back-end, waiting for a task returns only after the task was completed, and always does then, in whatever order completion and waiting happen and whatever other interrupts arrive; a condition's lock is held by one thread at a time and can be taken when it is free; a semaphore can be decremented while it is positive.", "quantifier": "every number of threads and machines, every interleaving of their calls, of the interrupt threads and of unrelated interrupts", "why_tests_cant": "needs several machines and depends on the interleaving of a store, a doorbell and an interrupt thread", "anchors": ["src/async/ivshmem/async.c: async_thread, async_completion_wait, async_completion_complete, async_semaphore_dec, async_condition_init, async_condition_lock"]}
{"id": "C58", "title": "The controller's configuration", "statement": "The controller starts with exactly the well formed configurations, and then runs exactly the accelerators described, each once, with the name, type, cores, job preference and group written there or the documented default; none is dropped or misread silently.", "quantifier": "every JSON configuration, number of groups and accelerators, every name and list of cores", "why_tests_cant": "the space of configurations is unbounded and the failures are collisions between entries", "anchors": ["controller/src/Core/Config.cpp: Config, GroupConfig, AccelConfig, CpuSet, fromString, operator >>", "controller/include/Utilities.h: jsonGetSafe, jsonGetSafeOptional"]}
{"id": "C59", "title": "Blocks of the shared heap", "statement": "Every allocation from the shared heap either returns a block of at least the size asked for that is aligned to 16 bytes, lies in pages of the segment, shares no byte with any other block held or with anything the allocator itself reads or writes, or aborts because no run of pages is free (or returns NULL for a size near 2^64). What a program stores in a block stays there until it frees it, and every block held can be freed, in any order.", "quantifier": "every sequence of allocations of any sizes, frees in any order and stores, every placement of the pages, every memory content before", "why_tests_cant": "the layouts a heap can reach are unbounded: corruption shows only for particular sequences of splits, merges, new and released segments", "anchors": ["src/alloc/dlmalloc/alloc.c: arch_alloc_init_once, arch_alloc_allocate, _arch_alloc_free", "src/alloc/dlmalloc/malloc.c: mspace_malloc, mspace_free, sys_alloc, mmap_alloc, prepend_alloc, add_segment, sys_trim, release_unused_segments, create_mspace"]}
{"id": "C60", "title": "The shared heap gives pages back and reuses them", "statement": "Every page the heap took is in a segment of the heap or in a block the program holds; destroying a heap without blocks gives all pages back. Free neighbours are merged, a request takes new pages only if no free chunk is large enough, and pages of segments without blocks are given back once more than 2 MB are free.", "quantifier": "every sequence of allocations, frees and stores, every placement of pages, whether or not mremap succeeds", "why_tests_cant": "leaks and fragmentation depend on the whole history of sizes and placements", "anchors": ["src/alloc/dlmalloc/malloc.c: sys_trim, release_unused_segments, has_segment_link, destroy_mspace, mspace_free, mspace_malloc", "src/alloc/dlmalloc/alloc.c: arax_mmap, arax_ummap, arch_alloc_exit"]}
{"id": "C61", "title": "The search for a large free chunk", "statement": "For every request the allocator finds a free chunk of 256 bytes or more that is large enough whenever there is one, and takes a smallest one.", "quantifier": "every sequence of chunks becoming free and being taken, of every size below 2^64, every request", "why_tests_cant": "the shape of the bitwise tries depends on the order of all insertions and removals", "anchors": ["src/alloc/dlmalloc/malloc.c: compute_tree_index, leftshift_for_tree_index, insert_large_chunk, unlink_large_chunk, tmalloc_large, tmalloc_small"]}
{"id": "C62", "title": "A process that dies does not take the others with it", "statement": "A process may be killed at any point of any call. The others keep working: no task another process issued is lost, reordered or run twice, tasks already queued can still be taken, calls of live processes on the same queues, lists and heaps return, waits return, and what the dead process held is given back, so that the last process to leave still cleans the segment up.", "quantifier": "every interleaving, any number of processes, every set of processes dying between any two of their accesses to shared memory", "why_tests_cant": "the crash point is one access among thousands and what matters is every continuation after it", "anchors": ["src/utils/spinlock.h: utils_spinlock_lock, utils_spinlock_unlock", "src/utils/queue.c: utils_queue_push, utils_queue_pop", "src/core/arax_object.c: arax_object_ref_dec", "src/core/arax_pipe.c: arax_pipe_init, arax_pipe_exit", "src/core/arax_task.c: arax_task_wait_done"]}
{"id": "C63", "title": "The heap statistics and the inspection tell the truth", "statement": "arch_alloc_stats and arch_alloc_inspect may be called at any time. They return; used and free bytes add up to what the heap has taken from the page allocator; used covers every block the program holds; total is at least used; when every block was freed, used is only the allocator's own records. The inspection reports every block held once, with its address and at least its size, reports as used nothing but blocks and the allocator's records, and reports as free nothing that overlaps a block, and it leaves out no part of the heap: everywhere but in the last 80 bytes of a segment, at most 64 bytes in a row are not reported.", "quantifier": "every history of allocations, frees and stores, every size, every placement of the pages", "why_tests_cant": "the walk follows the tags of every chunk of every segment, and any history may have made them", "anchors": ["src/alloc/dlmalloc/malloc.c: internal_mallinfo, internal_inspect_all", "src/alloc/dlmalloc/alloc.c: arch_alloc_stats, arch_alloc_inspect", "vdf/Views/Allocations.cpp: viewAllocations"]}
{"id": "C64", "title": "The heap and the page bitmap of a segment stay in step", "statement": "From the initialisation of a segment on: allocating either returns a block, or aborts because the segment has no run of free pages for it; freeing a block that is held never fails; the page bitmap marks exactly the pages the heap has; every block lies behind the allocator's own structures and inside the segment; the number of pages in use is the heap's footprint; tearing the allocator down never fails and, once everything was freed, leaves no page in use.", "quantifier": "every segment address and size, every history of allocations, frees and stores, every answer of mremap", "why_tests_cant": "the heap and the bitmap are two programs that only agree through the sequence of page requests that a history makes", "anchors": ["src/alloc/dlmalloc/alloc.c: arch_alloc_init_once, arch_alloc_allocate, _arch_alloc_free, arch_alloc_exit, arax_mmap, arax_ummap", "src/alloc/dlmalloc/malloc.c: create_mspace, sys_alloc, sys_trim, destroy_mspace", "src/utils/bitmap.c: arax_bitmap_alloc_bits, arax_bitmap_free_bits"]}
{"id": "C65", "title": "Everything submitted is eventually executed", "statement": "While the virtual accelerators stay assigned to accelerators that have a worker, every task submitted is taken by the worker of that accelerator, and every submitter returns, in every fair execution, also when submitters wait for room in a full queue; the number of rounds depends only on the state and on the number of spurious wake-ups.", "quantifier": "every number of clients, accelerators and virtual accelerators, every reachable state, every fair interleaving of single memory accesses, every order in which workers look at their virtual accelerators, both back-ends, any number of spurious wake-ups", "why_tests_cant": "liveness over every fair schedule; a lost wake-up or a lock cycle needs one particular interleaving", "anchors": ["src/core/arax_vaccel.c: arax_vaccel_add_task", "src/core/arax_accel.c: arax_accel_wait_for_task, arax_accel_add_task", "controller/src/Core/accelThread.cpp: workFunc", "src/async/spin/async.c: async_condition_wait", "src/async/mutex/async.c: async_condition_wait"]}
{"id": "C66", "title": "The memory a device reports as available is what it has left", "statement": "The available size reported for a device is its memory minus the buffers resident on it, whichever way the buffers came to be resident; once all buffers are freed it is back at its initial value; the devices of the CPU, which hold no buffers, never change theirs.", "quantifier": "every number of buffers, sizes, clients, virtual accelerators and devices, every interleaving of arax_data_set, arax_data_get, arax_data_allocate_remote, arax_data_set_remote, arax_data_free, assignment of virtual accelerators and execution by the devices", "why_tests_cant": "the charge is made in one process and the credit in another, after arbitrary interleavings of allocation, use, migration and release", "anchors": ["src/core/arax_data.c: arax_data_allocate_remote, arax_data_set_remote, arax_data_migrate_accel, destructor of arax_data_s", "controller/src/Cuda/CUDABuiltins.cu: alloc_data, arax_data_set, free", "controller/src/Cuda/CUDAaccelThread.cpp: cuda_alloc_no_throttle", "controller/src/OpenCL/OpenclBuiltins.cpp: alloc_no_throttle, alloc_data, free", "src/core/arax_accel.c: arax_accel_size_inc, arax_accel_size_dec, arax_accel_get_available_size"]}
{"id": "C67", "title": "A copy or a fill on a device touches exactly the bytes asked for", "statement": "A \"memcpy\" task copies the requested bytes from the one buffer to the other and changes nothing else, whatever device executes it; a \"memset\" task sets the requested bytes to the value and changes nothing else; a request that reaches outside its buffers is refused; the task is completed and disposed of so that a client that waits is woken and finds its task, and one that does not wait leaves nothing behind.", "quantifier": "every size and contents of the buffers, every offset, size and value that fits the argument structures, both kinds of client, every kind of device", "why_tests_cant": "all offsets and sizes up to 2^64, including those where unsigned subtraction wraps or a conversion to int truncates; most of them need a GPU to be tried at all", "anchors": ["controller/include/AraxLibUtilsMemOps.h: memcpyArgs, memsetArgs", "controller/src/Cpu/CpuBuiltins.cpp: memcpy, memset", "controller/src/Cuda/CUDABuiltins.cu: memcpy, memset", "controller/src/OpenCL/OpenclBuiltins.cpp: memcpy, memset", "controller/include/CLHelper.h: _clMemcpyD2D, _clMemset"]}
{"id": "C68", "title": "Allocations and releases of any number of threads and processes behave as if they came one after the other", "statement": "Threads of any number of processes that allocate and release blocks of the shared heap at the same time, while the program reads and stores in the blocks it holds, get the answers they would get one after the other in some order: no two blocks that are held, being released or being handed over share a byte; what the program last stored in a block is what it reads, even in the middle of another thread's call; and nothing the program stores in its blocks changes what the allocator does.", "quantifier": "every number of threads and processes, every interleaving of their steps and of the program's stores, every history of the heap, every size", "why_tests_cant": "all schedules of unboundedly many callers over all heap states; a test sees a few of them", "anchors": ["src/alloc/dlmalloc/alloc.c: arch_alloc_allocate, _arch_alloc_free", "src/alloc/dlmalloc/malloc.c: CAS_LOCK, spin_acquire_lock, ACQUIRE_LOCK, RELEASE_LOCK, PREACTION, POSTACTION, mspace_malloc, mspace_free"]}
{"id": "C69", "title": "Calls on the shared tables from many threads and processes take effect one at a time", "statement": "Any number of threads and processes may set and get keys of a key/value store, and take and give back ranges of pages, at the same time: each call takes effect at one moment between its call and its answer, and the answers are those of the calls one after the other in the order of these moments (linearizability). A get answers a pointer exactly for the keys that were set before it in that order, the pointer stays good and what it shows is the last value set or the one being set; a set is refused exactly if the key is new and the store full. At every moment the ranges callers hold, give back or are being handed share no page, their pages are marked except in the middle of their own release, and while nobody is inside the marks and the count are exactly theirs. No call reads or writes out of bounds or fails an assertion.", "quantifier": "every number of threads, every interleaving of their steps inside and outside the lock, every history of calls, every capacity and every number of pages below 2^63", "why_tests_cant": "all schedules of unboundedly many callers; a test sees a few", "anchors": ["src/utils/Kv.c: utils_kv_set, utils_kv_get", "src/utils/bitmap.c: utils_bitmap_alloc_bits, utils_bitmap_free_bits, utils_bitmap_used", "src/utils/spinlock.h: utils_spinlock_lock, utils_spinlock_unlock"]}
{"id": "C70", "title": "The locks, the shared tables and the task queues keep their promises on processors that delay stores or reorder loads", "statement": "On a processor where a thread's stores reach memory later than the thread goes on, and may be read by the thread itself before that (x86), one thread at a time is inside a lock, the calls on the key/value stores and the page bitmap still take effect one at a time between call and answer with the same answers, the memory is exactly theirs whenever the lock is free, and a task queue with any number of pushing and popping threads neither loses, duplicates nor reorders tasks, also if stores to different words change order. The same on processors that reorder loads.", "quantifier": "every number of threads, every interleaving, every moment at which each store reaches memory, every history, every queue capacity up to 32768", "why_tests_cant": "all schedules and all delays of the memory system; a test runs on one machine and cannot choose them", "anchors": ["src/utils/spinlock.h: utils_spinlock_lock, utils_spinlock_unlock", "src/utils/queue.c: utils_queue_push, utils_queue_pop", "src/utils/Kv.c: utils_kv_set, utils_kv_get", "src/utils/bitmap.c: utils_bitmap_alloc_bits, utils_bitmap_free_bits"]}
{"id": "C71", "title": "An object keeps the name it was given and consists of exactly its two heap blocks", "statement": "Every shared object (accelerator, procedure, buffer, task, virtual accelerator) reads back exactly the name it was registered under or last renamed to; a lookup by name and accelerator type answers the newest live object that matches, and none only if none matches; the fields of a new object start as zero; the heap holds exactly two blocks per live object, both given back with the last reference, and never more; no call reads or writes beyond a name or a released name. The same while any number of threads register, release, look up and rename objects at the same time, and for every format given to rename.", "quantifier": "every history of registrations, renamings, references, releases and lookups, every name, every content of recycled memory; every interleaving of any number of threads", "why_tests_cant": "all histories, names and schedules; a test sees one content of recycled memory and hardly ever the moment between the release of a name and the new one", "anchors": ["src/core/arax_object.c: arax_object_register, arax_object_rename, arax_object_ref_inc, arax_object_ref_dec", "src/core/arax_pipe.c: arax_pipe_find_accel, arax_pipe_find_proc", "src/core/arax_accel.c: arax_accel_init", "src/core/arax_data.h: ARAX_DATA_ANNOTATE"]}
{"id": "C72", "title": "What a client reads back from a GPU is what its tasks computed in order, although the device works behind the completions", "statement": "Handlers on CUDA and OpenCL devices only queue their operations on their worker's stream and go on; several workers may share a device. Reading a buffer back (arax_data_get) brings exactly the bytes that the tasks issued before the read, performed one after the other, leave in the buffer, however late and in whatever order across streams the device performs the operations; a read or write is reported (or its task released) only after the device has performed it; a worker that waits for the device goes on once its stream is empty; a task reported as completed has been performed; all this also when the scheduler moves virtual accelerators between workers.", "quantifier": "every number of clients, virtual accelerators, workers and buffers, every kernel, every interleaving of issuing, taking, device progress, waiting and moves", "why_tests_cant": "the device's progress relative to the host is not controllable in a test, and it nearly always keeps up; all kernels and interleavings", "anchors": ["controller/src/Cuda/CUDABuiltins.cu: memcpy, memset, init_phys, arax_data_set, arax_data_get", "controller/src/Cuda/CUDAaccelThread.cpp: executeOperation, acceleratorInit", "controller/src/OpenCL/OpenclBuiltins.cpp", "controller/src/Core/accelThread.cpp: workFunc", "controller/src/Schedulers/ElasticScheduler.cpp: assignVac"]}
{"id": "C73", "title": "What one side stored before handing a task over is what the other side reads, although processors delay and reorder stores", "statement": "Client and workers are different processes that share memory without locking the task. A worker that takes a task reads exactly the arguments and the state stored before the task was issued; a thread whose arax_task_wait returned reads the state the worker marked it with and every result stored before that; in general whoever holds a task reads the last value stored to each of its words. A client that polls arax_task_stat instead of waiting and sees task_completed can also read the results.", "quantifier": "every number of threads, tasks and words, every history of stores, issues, takes, completions and waits, every moment and order in which delayed stores reach memory", "why_tests_cant": "store buffers are drained within nanoseconds and x86 keeps stores in order, so no test shows a missing fence; all schedules and all processors that delay stores", "anchors": ["src/core/arax_task.c: arax_task_submit, arax_task_mark_done, arax_task_wait_done", "src/utils/queue.c: utils_queue_push, utils_queue_pop", "src/async/spin/async.c: async_completion_complete, async_completion_wait", "src/arch/shm/impl.c: arax_task_stat, arax_task_wait"]}
{"id": "C74", "title": "Calls of the library never wait for each other's locks in a circle", "statement": "However many threads of however many processes call the library, in any order and at any moment, they never end up all waiting for locks: as long as somebody has not returned, somebody can go on, and every call can return. No call returns, sleeps on a condition or waits for a task while it owns a lock; only waiting for room in a full queue happens with the lock of that virtual accelerator, and no other, owned. Handing a list of one kind of accelerators to arax_accel_list for the other kind is safe too.", "quantifier": "every number of threads, every sequence of calls of every thread, every schedule, every outcome of every branch and number of loop iterations", "why_tests_cant": "a circular wait needs a particular interleaving of three or more calls, or the last reference to be dropped at a particular place; all schedules and all call sequences", "anchors": ["src/core/arax_object.c: arax_object_ref_dec, arax_object_ref_dec_pre_locked, arax_object_register", "src/core/arax_accel.c: arax_accel_add_vaccel, arax_accel_del_vaccel, arax_accel_wait_for_task", "src/core/arax_vaccel.c: arax_vaccel_add_task", "src/core/arax_pipe.c: arax_pipe_get_orphan_vaccel, arax_pipe_delete_accel", "src/core/arax_data.c: dtor of arax_data_s", "src/arch/shm/impl.c: arax_accel_list, arax_task_issue"]}
{"id": "C75", "title": "Releasing buffers never stops a device", "statement": "When the last reference to a buffer is dropped, its memory on the device is released, once, and never while somebody still references the buffer. The release goes through a queue of the device; a worker that drops the last reference itself (after a write whose buffer the client has dropped already) can always queue the release and goes on with other tasks, whatever the clients issue and the scheduler selects.", "quantifier": "every number of clients, buffers and virtual accelerators, every queue capacity, every history of creating, writing and dropping buffers and of what the worker takes", "why_tests_cant": "it takes hundreds of releases that pile up while the worker is busy; every capacity, every history and every selection", "anchors": ["src/core/arax_data.c: arax_data_set, dtor of arax_data_s", "src/core/arax_vaccel.c: arax_vaccel_add_task", "controller/src/Core/accelThread.cpp: workFunc", "controller/src/Cuda/CUDABuiltins.cu: free, arax_data_set", "controller/src/Schedulers/RoundRobinScheduler.cpp: selectTask"]}
{"id": "C76", "title": "Releasing a virtual accelerator never disturbs the controller", "statement": "arax_accel_release may be called at any time: the virtual accelerator stays valid as long as somebody references it or one of its tasks is unfinished, and is destroyed when nobody does; after that neither a worker that is looking for its next task nor the balancer that assigns new virtual accelerators uses its memory.", "quantifier": "every number of clients, workers, balancers, devices and virtual accelerators, every interleaving of creating, submitting, executing, assigning and releasing", "why_tests_cant": "the window lies between the worker's list of virtual accelerators and its look at their queues; every interleaving and every number of threads", "anchors": ["src/core/arax_vaccel.c: arax_vaccel_init, arax_vaccel_add_task, dtor of arax_vaccel_s", "src/core/arax_accel.c: arax_accel_add_vaccel, arax_accel_del_vaccel, arax_accel_get_assigned_vaccels, arax_accel_wait_for_task", "src/core/arax_pipe.c: arax_pipe_get_orphan_vaccel, arax_pipe_remove_orphan_vaccel", "src/arch/shm/impl.c: arax_accel_release", "controller/src/Core/accelThread.cpp: updateVirtAccels, workFunc", "controller/src/Schedulers/RoundRobinScheduler.cpp: selectTask"]}
{"id": "C77", "title": "A virtual accelerator placed from several threads is on exactly one device", "statement": "arax_accel_set_physical puts a virtual accelerator on the device the caller chose. Whatever clients, the balancer and the schedulers do at the same time, each virtual accelerator is in the list of the device it reports and in no other list, the lengths of the lists are the numbers of virtual accelerators in them, and no call aborts.", "quantifier": "every number of threads, devices and virtual accelerators, every interleaving of placing, taking, removing and putting back", "why_tests_cant": "the tests of the placement are made before the lock is taken; which windows matter depends on the interleaving", "anchors": ["src/core/arax_accel.c: arax_accel_add_vaccel, arax_accel_del_vaccel", "src/core/arax_pipe.c: arax_pipe_add_orphan_vaccel, arax_pipe_get_orphan_vaccel, arax_pipe_remove_orphan_vaccel", "src/arch/shm/impl.c: arax_accel_set_physical", "controller/src/Core/VacBalancerThread.cpp: thread"]}
{"id": "C78", "title": "The elastic scheduler spreads virtual accelerators over the devices", "statement": "With the elastic scheduler the k-th new virtual accelerator is put on device k modulo the number of devices; at most one other virtual accelerator is moved for it, from that device to the next one, and never the one a device uses for releasing buffers; all others stay. Every virtual accelerator is always on exactly one device, and the controller neither aborts nor uses one that was released.", "quantifier": "every number of devices, every history of arrivals, releases and worker wake-ups", "why_tests_cant": "what goes wrong depends on which worker woke up between which arrivals; every history and every number of devices", "anchors": ["controller/src/Schedulers/ElasticScheduler.cpp: assignVac", "controller/src/Core/accelThread.cpp: updateVirtAccels, getAssignedVACs", "src/core/arax_accel.c: arax_accel_add_vaccel, arax_accel_del_vaccel"]}
{"id": "C79", "title": "Times reported are the times that passed", "statement": "A timer's duration in nanoseconds is exactly the difference of the two clock readings, in microseconds it is off by less than one and never negative for readings in order. arax_task_stat tells when a task was issued, so that the time since then is exactly the time that passed, and for a task that ended it tells how long it took.", "quantifier": "every pair of clock readings, every history of allocating, submitting and finishing tasks, of passing time and of setting the clock", "why_tests_cant": "clock readings of every magnitude, every history; a test sees a few", "anchors": ["src/utils/timer.h: utils_timer_tv_time, utils_timer_get_duration_ns, utils_timer_get_elapsed_ns", "src/core/arax_task.c: arax_task_alloc, arax_task_submit, arax_task_mark_done", "src/arch/shm/impl.c: arax_task_stat"]}
{"id": "C80", "title": "What an accelerator tells about itself is true", "statement": "arax_accel_type answers the type the accelerator was created with; the getters of a virtual accelerator's client id, job priority, metadata and ordering answer the last value any thread set, or the initial one (no client, no priority, no metadata, sequential), and a setter answers the value it set; arax_accel_stat answers whether the physical or virtual accelerator is idle, busy or failed; all of this for every accelerator that can be listed.", "quantifier": "every interleaving of any number of threads creating, placing, taking away, setting and reading", "why_tests_cant": "what is read depends on which store of which thread came last; every interleaving", "anchors": ["src/core/arax_vaccel.c: arax_vaccel_init, arax_vaccel_set_cid, arax_vaccel_get_cid, arax_vaccel_set_job_priority, arax_vaccel_set_meta, arax_vaccel_set_ordering, arax_vaccel_get_stat", "src/core/arax_accel.c: arax_accel_get_stat", "src/arch/shm/impl.c: arax_accel_type, arax_accel_stat"]}
