# Formal model of CARV-ICS-FORTH/arax in Rocq (Coq 8.16.1)

## Method

* One group of files per component under `rocq/theories/`. Small components are one file (model, specification, proofs,
  property theorems in that order); large ones are split: `XModel.v` (Gallina transcription of the C code, every
  definition citing the lines it models), `XInv.v`/`XProof.v` (lemmas), `XProps.v` (property theorems, each with an
  `Example` of a concrete state or history that meets its hypotheses).
* C failures are explicit outcomes (`Base.v`): `Abort` (an `arax_assert`/`abort` fired), `UB` (out-of-bounds,
  use after free, null dereference), `Block` (the call would spin or sleep for ever in a sequential context).
* Fixed-width arithmetic (`uint16_t` queue indices, `uint64_t` chunks, `size_t` counters and sizes) is modelled with
  explicit `mod 2^16` / `mod 2^64`.
* Concurrency is the interleaving of individual shared-memory accesses (sequential consistency) of an unbounded number
  of threads, each with a program counter. Properties over schedules quantify over every finite execution of such a
  transition system; invariants are inductive, never bounded.
* Specifications are kept apart from the model: bounded FIFO lists, finite maps, sets of live ranges, observers that
  only look at the calls and returns of client threads (`ThrottleObs.v`, `WorkObs.v`, the `*_is_observed` theorems, which
  tie the ghost histories used by the other theorems to program-counter changes).
* Where the code violates the English property, the theorem is named `..._refuted` (a concrete execution inside the
  faithful model) and the strongest true statement is proved beside it, named `..._partial`. The manifest then says
  `partial`.
* `tools/mutate.py` seeds bugs in a scratch copy and records in `seeded/LOG.jsonl` which theorems stop proving.

## Plan per property

| id | files | what is modelled, how it is proved |
|----|-------|------------------------------------|
| C01 C02 C04 | `BitmapModel` `BitmapProof` `BitmapHist` `BitmapProps` | chunks as 64-bit words, all search branches, `free_p` cursor; invariant over histories with a ghost set of live ranges; per-bit specs by `N.testbit`; refuted for sizes that are not a multiple of 64 and for freeing unallocated bits |
| C03 | same | completeness of the search; refuted for small straddling requests, proved for >64 pages and runs inside one group |
| C05 | `AllocModel` `AllocProps` | pointer rounding of `arax_mmap`/`arax_ummap` and segment layout, on top of the bitmap histories |
| C06 C07 | `QueueModel` `QueueProps` | ring buffer with 16-bit indices refines a bounded FIFO list for every power of two up to 32768; refuted at 65536 |
| C08 | `QueueConc` | threads, lock, compare-and-swap, one access per step; inductive invariant with unbounded ghost counters; condition: no pop overtaken by 65536 others (refuted without it) |
| C09 | `Spinlock` | inductive invariant over interleavings |
| C10 | `ListModel` `ListProps` | heap of nodes with next/prev/owner pointers refines sequences |
| C11 | `Kv` | refinement to a finite map |
| C12 C13 C14 | `Throttle` `ThrottleObs` | threads over both condition back-ends; inductive invariants, an observer of the calls; C13 refuted for the spin back-end |
| C15 | `Async` | completions of both back-ends against an atomic counter |
| C16 C17 | `TaskWait` | task states and waits; refutations |
| C18-C23 C29 C31-C34 | `CoreModel` `CoreInv` `CoreStep` `CoreDec` `CoreOps` `CoreIssue` `CorePlace` `CoreMain` `CoreSyn` `CoreWorld` `CoreProps` `CoreProps2` | one heap of objects (physical and virtual accelerators, procedures, buffers, tasks) with the API calls as atomic steps and ghost ownership; one global invariant by induction over legal API histories |
| C24 C44 (and concurrent C21, C22) | `WorkModel` `WorkInv` `WorkProof` `WorkProps` `WorkObs` | submitters, workers, assignment and removal interleaved on both async back-ends; permit accounting |
| C25 C26 C28 | `DataLayout` | placement arithmetic mod 2^64, byte memory; C26 refuted (the back-pointer guess reads user bytes) |
| C27 C46 | `DataPath` | clients, workers and CPU handlers: buffer contents through the queues |
| C30 | `AccelTypes` | table of names, `strcasecmp` |
| C31 (kernels) | `ProcFn` | functor table of a procedure |
| C35 | `ProcMap` | table of 8-byte cells with the byte-count `memmove` |
| C36 C37 C43 | `PipeInit` | attach, initialise, detach and tear-down of the shared segment by any number of processes |
| C38 | `CtrlReady` | controller start-up notification, both back-ends |
| C39 C47 C48 | `Config` `ConfigPath` `ConfigConc` | configuration file parser on strings, `~` expansion in a 4096-byte array, unlocked read-truncate-write |
| C40 C41 | `Sched` | accelerator-side selection loops |
| C42 C45 | `Balancer` | orphan hand-over and the schedulers' placement of new virtual accelerators |
| C49 | `ObjConc` | one object, any number of threads taking, listing, looking up and releasing references, one memory access per step |
| C50 | `DataCopy` | arax_data_memcpy, get and set over buffer contents and the pending writes of each virtual accelerator |
| C51 | `TaskLife` | one task: its client, its worker, its handler and the other users of its procedure, one access per step |
| C52 | `ProcThreads` | the threads of one process calling arax_init, arax_exit and arax_ptr_valid, one access per step; invariant on the thread count |
| C53 | `Mapping` | any number of processes attaching to one file, with the kernel's and the configuration's answers in the schedule; invariant per process |
| C54 | `Shutdown` | main, its workers, clients and the balancer, one access per step; liveness by a measure that every fair round decreases |
| C55 | `LibLoad` | folders as trees, paths as strings, symbol names split as the regular expression does; induction on the tree for start-up, histories of events for the run-time loader |
| C56 | `ProcReg` | threads registering a name and setting kernels, one access per step; invariants over all interleavings, traces for the refutations |
| C57 | `Ivshmem` | one completion, any threads on any machines with doorbells; invariants over all interleavings |
| C58 | `CtrlConfig` | parsed JSON to accelerators, function by function; induction on the groups and on the text of core lists |
| C59 | `DlModel` … `DlHist`, `DlProps` | boundary tags word by word in memory, segments, bins as lists; invariant: every segment is tiled by chunks whose tags agree, bins and dv are exactly the free chunks; preserved by every path of malloc and free; histories with stores of the program |
| C60 | `DlProps`, `DlEx` | the same invariant with pages; refutations are executed histories |
| C61 | `DlTree` | tries of chunks with rings; invariant by intervals of sizes; the search against a specification on the list of chunks |
| C62 | `Crash` | the concurrent models of the lock, the queue, the objects, the segment and the wait, with processes dying between any two steps; invariants of those models; the refuted parts quantify over every continuation |
| C63 | `DlInfo` | the two walks over the heap of `DlModel`; they follow the tiling that is the invariant of C59; sums over tiles are compared with sums over blocks by address |
| C64 | `PageMap`, `DlPages`, `DlPagesEx` | the calls the heap of `DlModel` makes are logged (ghost) and replayed on the bitmap of `AllocModel`; simulation relation between the heap's page set and the bitmap's bits |
| C65 | `Drain` | the system of `WorkModel` under fair rounds; a measure that every step that changes something decreases, and a proof that nobody can move only when nothing is left |
| C66 | `DevMem` | buffers, queues, devices and waiting callers; invariant: available + resident + queued frees + second charges = initial + uncharged, modulo 2^64 |
| C67 | `DevCopy` | handlers as functions from buffer contents and arguments to contents, task events or abort / undefined; characterised exactly, for all lists and numbers |
| C68 | `DlSim`, `DlConc` | the functions of `DlModel` are blind to the words of live blocks; any number of threads around a test-and-set lock, calls as sequences of steps, stores of the program at any moment; an invariant that replays the history without the pending call |
| C69 | `Locked`, `KvConc`, `BitmapConc` | any number of threads around a spin lock, a call being any number of steps inside; invariant: the state is that of the calls that took effect plus some steps of the one inside; the store one access per step, the bitmap one step per chunk and per count |
| C70 | `Tso`, `QueueTso` | a store buffer per thread; locked instructions and fences wait for it; simulation by the machine without delays, in which a waiting store has not been made; for loads, a run in which the entry is read early |
| C71 | `ObjName`, `ObjNameConc` | heap blocks of bytes, C strings read and stored byte by byte, va_list consumed; refinement to a list of named objects; for threads one byte, one list operation or one lock operation per step, an invariant on who may touch which block |
| C72 | `DevAsync` | streams as queues of operations on a shared memory of buffers; invariant: the operations not yet performed, in the order taken, replayed on the memory give the sequential result; operations of different streams do not conflict and commute |
| C73 | `Handover` | a store buffer for each thread, stores to different words leave in any order or in order; fences and locked instructions wait for an empty buffer; invariant: only the holder of a task has stores to it waiting, and its view of the task is the last value stored |
| C74 | `LockOrder` | every function as a relation to the sequences of lock operations it can perform; a rank for every lock; each function takes locks upwards only; threads that run any sequences of calls |
| C75 | `FreeQueue` | references, device memory, the writes that wait and the free queue of one device; invariant: a release is on its way exactly for the unreferenced buffers with device memory; for the refutation an induction over rounds of the scheduler |
| C76 | `Release` | virtual accelerators with reference count, lock, place and memory; submitting clients, destructors, balancers and workers with their lists; invariant: references = holders, pending counter + workers that look <= tasks waiting on the device, hence a quiet device has no worker with a list |
| C77 | `Assign` | list nodes, list lengths, phys and lock of every virtual accelerator; threads between their unlocked tests and their locked updates; invariant: one thread per virtual accelerator, node = phys, lengths = numbers of nodes |
| C78 | `Elastic` | places, lists of devices, lists of workers and the turn; a call of assignVac with its checks; invariant: place = membership in exactly one list |
| C79 | `Timer` | readings and 64-bit arithmetic of the macros over Z, histories of tasks with a clock that may be set; direct proofs and induction on histories |
| C80 | `Attrs` | fields and threads, one store or load per step; the getters as functions of the state; induction on interleavings against the last value set |

## Trusted base

* The Coq 8.16.1 kernel, including `vm_compute` (used for concrete witnesses).
* `Print Assumptions` for every property theorem: closed under the global context, see the appendix. No axiom is used;
  `coqchk` mentions the `Coq.ssr.ssrunder.Under_rel` parameters because that library file is loaded, no theorem uses it.
* Faithfulness of the hand-written model to the C/C++ text: each definition cites its lines and its simplifications.
* Sequential consistency of shared memory (x86-TSO and compiler reorderings are not modelled); correctness of the
  compiler, of `pthread` mutexes, condition variables and semaphores; no signal or crash in the middle of an operation
  unless a file says otherwise.

## What is modelled of the code

| source file | modelled | not modelled |
|---|---|---|
| `src/utils/bitmap.c` | everything but the printing functions | `arax_bmp` printing |
| `src/utils/queue.c` (MPMC) | init, push, pop, peek, used, full: sequential and interleaved | the non-MPMC variant |
| `src/utils/spinlock.h` | all | |
| `src/utils/list.c` | all | |
| `src/utils/Kv.c` | all | |
| `src/utils/config.c` | parser, typed getters, writers, path expansion | `getpwuid` lookup, I/O errors |
| `src/alloc/dlmalloc/alloc.c` | segment layout, `arax_mmap`/`arax_ummap` | dlmalloc itself (`malloc.c`): malloc'ed blocks are assumed disjoint; the tlsf variant |
| `src/async/spin`, `src/async/mutex` | completions, conditions, semaphores used as permits | `ivshmem` unless listed in the table above |
| `src/core/arax_object.c` | register, reference counts, lists, kinds; calls as one step (`Core*`) and interleaved on one object (`ObjConc`) | interleavings over several objects |
| `src/core/arax_accel.c`, `arax_vaccel.c`, `arax_proc.c`, `arax_task.c` | all API functions | statistics getters |
| `src/core/arax_data.c` | init, get/set, arg_init, check_flags, placement, pointer lookup, migration | device allocation accounting unless listed above |
| `src/core/arax_throttle.c` | all, both build options | |
| `src/core/arax_pipe.c` | attach/detach, process table, orphan list, process lookup | |
| `src/core/arax_accel_types.c`, `arax_ptr.c` | all | |
| `src/arch/shm/impl.c` | attach/detach, issue, wait, buffers, accelerator listing | `mmap`/`shm_open` system calls |
| `controller/src/Core/accelThread.cpp` | work loop, device operations as atomic steps | CUDA/OpenCL/HIP/SDA devices |
| `controller/src/Schedulers` | RoundRobin, Heterogeneous, Elastic | the checkpoint and weighted schedulers unless listed above |
| `controller/src/Cpu/CpuBuiltins.cpp` | copy handlers | |

Not modelled at all: GPU/OpenCL/HIP/SDA back-ends, JSON parsing, monitoring and plotting tools, floating point timing.

## Appendix: Print Assumptions

`tools/assumptions.py` prints the assumptions of the 482 theorems of MANIFEST.json: every one is
"Closed under the global context" (no axiom, not even of the standard library).

* `AccelTypes`: `C30_distinct`, `C30_from_string`, `C30_names_total`, `C30_round_trip`
* `AllocProps`: `C05_inside_refuted`, `C05_layout`, `C05_mmap_partial`, `C05_unmap_small_refuted`
* `Assign`: `C77_abort_refuted`, `C77_already`, `C77_assigned`, `C77_case`, `C77_lost_refuted`, `C77_one_place`, `C77_two_devices_refuted`, `C77_two_removals_refuted`
* `Async`: `C15_mutex_check_refuted`, `C15_mutex_history_is_observed`, `C15_mutex_linearizable_without_checks_partial`, `C15_no_completion_lost`, `C15_spin_history_is_observed`, `C15_spin_linearizable`, `C15_spin_no_completion_lost`, `C15_waits_bounded_by_completes`
* `Attrs`: `C80_answer_refuted`, `C80_assigned`, `C80_attributes`, `C80_busy_refuted`, `C80_case`, `C80_device`, `C80_early_refuted`, `C80_new`, `C80_unassigned_refuted`
* `Balancer`: `C42_exclusive`, `C42_handed_over_is_taken`, `C42_no_lost_wakeup`, `C42_none_forgotten`, `C42_oldest_waits_refuted`, `C42_pthread_partial`, `C42_removed_crashes_refuted`, `C42_spin_partial`, `C42_two_at_once_crashes_refuted`, `C45_first_partial`, `C45_het_partial`, `C45_no_device_refuted`, `C45_second_refuted`, `C45_unsupported_task_aborts_refuted`
* `BitmapConc`: `C69_pages_disjoint`, `C69_pages_exact`, `C69_pages_kept`, `C69_pages_linearizable`, `C69_pages_never_stuck`, `C69_pages_steps`, `C69_pages_used`
* `BitmapProps`: `C01_inside_refuted`, `C01_live_ranges_disjoint`, `C01_live_ranges_inside_partial`, `C02_accounting_exact`, `C02_failed_alloc_no_effect`, `C03_alloc_complete_partial`, `C03_refuted`, `C03_single_page`, `C04_bad_free_aborts_partial`, `C04_double_free_aborts`, `C04_free_exact`, `C04_interior_refuted`, `C04_single_refuted`
* `Config`: `C39_bad_value_stays`, `C39_blank_characters`, `C39_denotes_or_not`, `C39_digit_characters`, `C39_first_setting_partial`, `C39_get_bool`, `C39_get_int`, `C39_get_long_partial`, `C39_get_size`, `C39_get_str`, `C39_key_without_value_refuted`, `C39_long_key_refuted`, `C39_long_number_refuted`, `C39_number_round_trip`, `C39_trailing_characters_accepted`, `C39_unfinished_line_refuted`, `C39_write_partial`, `C39_write_says`
* `ConfigConc`: `C48_blended_refuted`, `C48_lost_update_refuted`, `C48_missing_while_writing_refuted`, `C48_no_overlap_partial`
* `ConfigPath`: `C47_alloc_path_partial`, `C47_exact_fill_refuted`, `C47_null`
* `CoreProps`: `C18_allocated_iff_referenced`, `C18_destroyed_for_good`, `C18_drop_last`, `C18_drop_not_last`, `C18_no_call_fails`, `C18_registered_iff_referenced`, `C18_use_after_destroy`, `C19_accounting`, `C19_all_released`, `C20_in_use_alive`, `C20_references_exact`, `C21_exactly_once`, `C21_fifo`, `C21_history_grows`, `C22_counter`, `C22_exact_partial`, `C22_granted_finds_work_partial`, `C22_none_forgotten`, `C23_assign_again_noop`, `C23_assign_elsewhere_refused`, `C23_assign_places`, `C23_one_place`
* `CoreProps2`: `C22_exact_refuted`, `C23_balancer_use_after_free`, `C23_delete_leaves_dangling`, `C23_revision`, `C29_migrate_balanced`, `C29_migrate_refused`, `C29_set_accel_refuted`, `C31_lookup`, `C31_register_same`, `C32_get_put_partial`, `C32_register_refuted`, `C33_invalid_aborts`, `C33_issue_accepts_valid`, `C34_find`, `C34_list`, `C34_list_free`
* `Crash`: `C62_account_refuted`, `C62_initialiser_refuted`, `C62_leak_refuted`, `C62_lock_live_partial`, `C62_lock_refuted`, `C62_lock_safe`, `C62_objects_safe_partial`, `C62_pop_needs_nobody`, `C62_push_live_partial`, `C62_push_refuted`, `C62_queue_safe_partial`, `C62_segment_refuted`, `C62_wait_refuted`
* `CtrlConfig`: `C58_accels_partial`, `C58_accepts`, `C58_cores`, `C58_cores_refuted`, `C58_default_clash_refuted`, `C58_default_names`, `C58_no_such_core`, `C58_same_name_refuted`, `C58_two_groups_refuted`
* `CtrlReady`: `C38_every_schedule_halts`, `C38_late_clients_partial`, `C38_not_before_ready`, `C38_pthread_partial`, `C38_refuted_pthread`, `C38_refuted_spin`, `C38_spin_one_released_partial`, `C38_spin_single_client_partial`
* `DataCopy`: `C50_by_hand_partial`, `C50_never_copies_refuted`, `C50_self_is_noop`, `C50_sizes_must_match`
* `DataLayout`: `C25_layout_partial`, `C25_overflow_refuted`, `C25_user_writes_keep_owner_partial`, `C25_zero_alignment_refused`, `C26_base_faults`, `C26_interior_partial`, `C26_interior_refuted`, `C26_outside_partial`, `C26_outside_refuted`, `C26_sound_up_to_decoy`, `C26_start`, `C28_arguments_intact`, `C28_no_arguments`, `C28_other_size_refused`, `C28_overflow_refuted`
* `DataPath`: `C27_moved_while_running_refuted`, `C27_read_back_partial`, `C46_one_accelerator_partial`, `C46_read_overtakes_write_refuted`
* `DevAsync`: `C72_client`, `C72_copy_never_marked_refuted`, `C72_done_not_performed_refuted`, `C72_move_refuted`, `C72_one_worker`, `C72_reads`, `C72_stream_order`, `C72_taken_in_order`, `C72_wait_ends`, `C72_waiting_handlers`
* `DevCopy`: `C67_cpu_copy`, `C67_cpu_unchecked`, `C67_cuda_async_leaks_refuted`, `C67_cuda_copy`, `C67_cuda_offset_refuted`, `C67_cuda_refuses`, `C67_fill`, `C67_fill_task_refuted`, `C67_fill_unchecked_refuted`, `C67_opencl_big_refuted`, `C67_opencl_copy_exact`, `C67_opencl_copy_partial`, `C67_opencl_fill_exact`, `C67_opencl_fill_partial`, `C67_opencl_offset_refuted`, `C67_opencl_prefix_refuted`
* `DevMem`: `C66_allocate_charged_twice_refuted`, `C66_cpu`, `C66_cuda_input_refuted`, `C66_drift`, `C66_empty_buffer_refuted`, `C66_exact_partial`, `C66_extra_is_the_callers_charge`, `C66_gift_is_uncharged_input`, `C66_law`, `C66_lost_is_crowded_input`, `C66_moved_refuted`, `C66_opencl_full_refuted`, `C66_wraps_refuted`
* `DlConc`: `C68_answer`, `C68_blocks_disjoint`, `C68_contents`, `C68_contents_pieces`, `C68_disjoint_pieces`, `C68_one_inside`, `C68_pending_disjoint`, `C68_pieces_sound`, `C68_serial`, `C68_serial_pieces`, `C68_whole_sound`
* `DlEx`: `C60_first_segment_stays_refuted`, `C60_mremap_leak_refuted`, `C60_never_trimmed_refuted`, `C60_stuck_segment_refuted`
* `DlInfo`: `C63_4gb_refuted`, `C63_covers`, `C63_idle`, `C63_inspect`, `C63_large_refuted`, `C63_range_refuted`, `C63_stats`, `C63_view_partial`
* `DlPages`: `C64_alloc`, `C64_exit`, `C64_exit_empty_partial`, `C64_footprint_partial`, `C64_free`, `C64_heap`, `C64_pages`, `C64_place_partial`
* `DlPagesEx`: `C64_empty_abort_refuted`, `C64_exit_leak_refuted`, `C64_inside_refuted`
* `DlProps`: `C59_alloc`, `C59_asks_pages`, `C59_blocks`, `C59_free`, `C59_free_null`, `C59_search_exists`, `C60_accounting_partial`, `C60_coalesced`, `C60_destroy_empty_partial`, `C60_destroy_partial`, `C60_reuse_empty_partial`, `C60_reuse_partial`
* `DlSim`: `C68_free_blind`, `C68_malloc_blind`
* `DlTree`: `C61_best_fit_partial`, `C61_best_partial`, `C61_fits`, `C61_huge_missed_refuted`, `C61_huge_not_best_refuted`, `C61_reuse_partial`, `C61_small_best_partial`, `C61_small_fits`, `C61_sound`, `C61_trees_exist`
* `Drain`: `C65_drains`
* `Elastic`: `C78_arrival`, `C78_case`, `C78_one_device`, `C78_released_refuted`, `C78_stale_list_refuted`
* `FreeQueue`: `C75_case`, `C75_released_once`, `C75_room`, `C75_round_robin_refuted`, `C75_waits_for_itself_refuted`
* `Handover`: `C73_args`, `C73_args_case`, `C73_case`, `C73_handover`, `C73_poll_case`, `C73_poll_refuted`, `C73_poll_tso`, `C73_results`
* `Ivshmem`: `C57_before_number_refuted`, `C57_completed_first_refuted`, `C57_dec_increments_refuted`, `C57_dec_spins_refuted`, `C57_first_lock_refuted`, `C57_not_early`, `C57_reaches_partial`, `C57_two_holders_refuted`, `C57_two_waiters_refuted`
* `Kv`: `C11_capacity`, `C11_map`, `C11_refusal`
* `KvConc`: `C69_kv_bounded`, `C69_kv_map`, `C69_kv_never_stuck`, `C69_kv_pointer`, `C69_kv_steps`
* `LibLoad`: `C55_arrivals_partial`, `C55_cannot_stop_refuted`, `C55_loaded_partial`, `C55_long_name_refuted`, `C55_missing_folder`, `C55_moved_refuted`, `C55_not_exported_refuted`, `C55_only_written`, `C55_stops_partial`, `C55_stripped_refuted`, `C55_together_refuted`, `C55_unknown_type_refuted`, `C55_unload_refuted`
* `ListProps`: `C10_iterate_and_delete`, `C10_lists_are_sequences`, `C10_not_linked_after`, `C10_other_lists_untouched`
* `LockOrder`: `C74_all_calls_return`, `C74_case`, `C74_list_other_kind_refuted`, `C74_owner_releases`, `C74_released`, `C74_somebody_goes_on`
* `Locked`: `C69_locked_linearizable`, `C69_locked_one`, `C69_locked_state`
* `Mapping`: `C53_failure_reported_refuted`, `C53_misplaced_reported_partial`, `C53_same_address`, `C53_sizes_refuted`, `C53_stale_pid_refuted`, `C53_usable_partial`
* `ObjConc`: `C49_destroyed_partial`, `C49_kept_safe_partial`, `C49_listed_alive_partial`, `C49_refuted_get_after_free`, `C49_refuted_get_resurrects`, `C49_safe_partial`
* `ObjName`: `C71_format_refuted`, `C71_format_wrong_text_refuted`, `C71_names_and_blocks`, `C71_new_object_zeroed`, `C71_no_leak`, `C71_no_memory_refuted`
* `ObjNameConc`: `C71_concurrent_lookups`, `C71_lock_not_left_behind`, `C71_one_in_the_list`, `C71_rename_race_refuted`
* `PipeInit`: `C36_first_and_last_partial`, `C36_history_is_observed`, `C36_last_when_none_remain_partial`, `C36_one_initialiser`, `C36_refuted_version_mismatch`, `C36_turned_away_blocks_last`, `C36_users_are_processes`, `C37_after_initialiser_returned_partial`, `C37_initialiser_partial`, `C37_refuted`, `C37_second_period_no_wait`, `C37_teardown_overlaps_new_user`, `C43_leak_check_partial`, `C43_refuted_missed_leak`, `C43_refuted_spurious_abort`, `C43_what_is_checked`
* `ProcFn`: `C31_bad_type_aborts`, `C31_kernels_partial`, `C31_null_kernel_refuted`, `C31_set_returns_previous`
* `ProcMap`: `C35_answer`, `C35_full_refuted`, `C35_others_kept`, `C35_refuted`, `C35_table_is_set_partial`, `C35_unknown_aborts`
* `ProcReg`: `C56_erased_refuted`, `C56_kernel_stays_partial`, `C56_not_runnable_refuted`, `C56_same_partial`, `C56_two_procedures_refuted`
* `ProcThreads`: `C52_attached_partial`, `C52_overlap_refuted`, `C52_ptr_valid_refuted`, `C52_reattach_refuted`, `C52_unmatched_exit_refuted`
* `QueueConc`: `C08_aba_refuted`, `C08_concurrent_fifo_partial`, `C08_failures_truthful`
* `QueueObs`: `C08_log_grows`, `C08_log_is_observed`
* `QueueProps`: `C06_bounded_fifo`, `C06_null_push_aborts`, `C07_capacity_65536_refuted`, `C07_other_capacities_partial`
* `QueueTso`: `C70_loads_refuted`, `C70_queue_fifo`, `C70_queue_log_grows`, `C70_queue_observed`
* `Release`: `C76_case`, `C76_free_then_release_refuted`, `C76_freed`, `C76_gone`, `C76_lives`, `C76_release_unassigned_refuted`, `C76_safe`
* `Sched`: `C40_bounded_wait_partial`, `C40_churn_starves_refuted`, `C40_takes_one_head`, `C40_work_conserving`, `C41_all_supported`, `C41_in_order_supported`, `C41_in_turn`, `C41_none_runnable`, `C41_supported_head`
* `Shutdown`: `C54_failed_device_refuted`, `C54_pending_dropped_refuted`, `C54_released_used_refuted`, `C54_second_interrupt_refuted`, `C54_serves_partial`, `C54_still_attached_refuted`, `C54_stops_partial`, `C54_what_else`
* `Spinlock`: `C09_free_lock_can_be_taken`, `C09_mutual_exclusion`, `C09_no_deadlock`
* `TaskLife`: `C51_detached_partial`, `C51_procedure_refuted`, `C51_unwaited_refuted`, `C51_waited_partial`
* `TaskWait`: `C16_first_wait_returns_partial`, `C16_second_wait_never_returns_refuted`, `C17_completed_never_aborts`, `C17_failed_refuted`, `C17_failed_reported_partial`, `C17_returned_is_observed`, `C17_wait_reports_end_state`
* `Throttle`: `mutex_no_lost_wakeup`, `spin_lost_wakeup_refuted`, `spin_single_reserver_no_lost_wakeup_partial`, `throttle_admits_only_what_fits`, `throttle_never_overcommits`, `throttle_unenforced_exact_mod`
* `ThrottleObs`: `C12_callers_balance`, `C14_callers_balance`
* `Timer`: `C79_2262_refuted`, `C79_case`, `C79_clock_set_refuted`, `C79_duration`, `C79_issue_time`, `C79_task_duration_refuted`
* `Tso`: `C70_kv`, `C70_locked_buffers`, `C70_locked_linearizable`, `C70_locked_one`, `C70_locked_same`, `C70_pages`
* `WorkObs`: `C24_nothing_lost_or_repeated`, `C24_queues_are_fifo`
* `WorkProps`: `C22_concurrent_exact_partial`, `C22_concurrent_permits_partial`, `C24_granted_finds_work_partial`, `C24_nonempty_removal_refuted`, `C24_not_asleep_partial`, `C24_stale_snapshot_refuted`, `C24_worker_gets_work_partial`, `C44_reachable_refuted`, `C44_wedged_forever_refuted`
