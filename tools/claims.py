c('C01','partial','C01_live_ranges_disjoint C01_live_ranges_inside_partial C01_inside_refuted',
 'Disjointness proved for every history; "inside [0,N)" proved when N is a multiple of 64 and refuted otherwise (65 pages: the last range ends at page 66).')
c('C02','proved','C02_accounting_exact C02_failed_alloc_no_effect','')
c('C03','partial','C03_alloc_complete_partial C03_single_page C03_refuted',
 'Complete for requests >64 pages, runs inside one 64-page group, or when the first group is short of free pages; refuted in general.')
c('C04','partial','C04_free_exact C04_bad_free_aborts_partial C04_double_free_aborts C04_single_refuted C04_interior_refuted',
 'Exact release proved; rejection proved for everything the code checks; refuted for single pages and interior groups.')
c('C05','partial','C05_layout C05_mmap_partial C05_inside_refuted C05_unmap_small_refuted',
 'Layout proved for every base/size; mapped addresses aligned, disjoint and after the metadata for every history; inside the segment when the page count is a multiple of 64, refuted otherwise.')
c('C06','proved','C06_bounded_fifo C06_null_push_aborts','')
c('C07','partial','C07_other_capacities_partial C07_capacity_65536_refuted','All capacities up to 32768 proved; the documented maximum 65536 is refuted.')
c('C08','partial','C08_log_is_observed C08_log_grows C08_concurrent_fifo_partial C08_failures_truthful C08_aba_refuted',
 'Proved for all interleavings in which no pop call is overtaken by 65536 other pops; refuted without that (16-bit ABA).')
c('C09','proved','C09_mutual_exclusion C09_free_lock_can_be_taken C09_no_deadlock','')
c('C10','proved','C10_lists_are_sequences C10_other_lists_untouched C10_iterate_and_delete C10_not_linked_after','')
c('C11','proved','C11_map C11_refusal C11_capacity','')
c('C12','proved','C12_callers_balance throttle_never_overcommits throttle_admits_only_what_fits','Both async back-ends, any number of threads and any schedule whose clients give back only what was reserved; ghost totals of reserved and returned bytes.')
c('C13','partial','mutex_no_lost_wakeup spin_single_reserver_no_lost_wakeup_partial spin_lost_wakeup_refuted','Proved for the pthread back-end; on the spin back-end refuted (a waiter that does not fit consumes the only token) and proved when one thread reserves.')
c('C14','proved','C14_callers_balance throttle_unenforced_exact_mod','')
c('C15','partial','C15_spin_history_is_observed C15_mutex_history_is_observed C15_spin_linearizable C15_waits_bounded_by_completes C15_no_completion_lost C15_spin_no_completion_lost C15_mutex_linearizable_without_checks_partial C15_mutex_check_refuted','Full one-bit specification on the spin back-end; on the pthread back-end waits<=completes and no lost completion always, full specification without concurrent check, refuted with one.')
c('C16','partial','C16_first_wait_returns_partial C16_second_wait_never_returns_refuted','The first wait returns; the claim for further waits is refuted: at most one wait per task ever returns.')
c('C17','partial','C17_returned_is_observed C17_wait_reports_end_state C17_completed_never_aborts C17_failed_reported_partial C17_failed_refuted','Every returning wait reports the end state, completed tasks never crash a waiter; refuted for waits called after a failure was marked (abort).')
c('C18','partial','C18_no_call_fails C18_registered_iff_referenced C18_allocated_iff_referenced C18_drop_last C18_drop_not_last C18_destroyed_for_good C18_use_after_destroy',
 'Liveness = registration = positive count proved for every legal history; last drop destroys once. The clause "use after destruction is flagged" is false of the code (no check: undefined behaviour), shown as UB in the model.')
c('C19','proved','C19_accounting C19_all_released','')
c('C20','proved','C20_references_exact C20_in_use_alive','')
c('C21','proved','C21_fifo C21_exactly_once C21_history_grows C24_queues_are_fifo','')
c('C22','partial','C22_counter C22_exact_partial C22_granted_finds_work_partial C22_none_forgotten C22_exact_refuted',
 'No task is forgotten, always; exactness holds while no virtual accelerator with waiting tasks was taken away from the accelerator, refuted after that.')
c('C23','partial','C23_one_place C23_assign_again_noop C23_assign_elsewhere_refused C23_assign_places C23_revision C23_balancer_use_after_free C23_delete_leaves_dangling',
 'Placement, no-op, refusal and revision clauses proved for every legal history (legal = the balancer does not outlive the owner, accelerators are unassigned before their device is deleted); both preconditions are necessary: two refutations.')
c('C29','partial','C29_migrate_balanced C29_migrate_refused C29_set_accel_refuted','Migration and refusal proved; arax_data_set_accel leaks the previous accelerator reference (refuted).')
c('C32','partial','C32_get_put_partial C32_register_refuted','get/put balanced; registering an already registered name takes no reference (refuted).')
c('C33','proved','C33_issue_accepts_valid C33_invalid_aborts','')
c('C34','proved','C34_list C34_list_free C34_find','')
c('C30','proved','C30_names_total C30_from_string C30_round_trip C30_distinct','')
c('C31','partial','C31_register_same C31_lookup C31_kernels_partial C31_set_returns_previous C31_bad_type_aborts C31_null_kernel_refuted','Everything proved for non-NULL kernels; setting a NULL kernel (allowed by arax_proc.h) still reports the type as runnable: refuted.')
c('C35','partial','C35_table_is_set_partial C35_answer C35_others_kept C35_unknown_aborts C35_refuted C35_full_refuted','Proved for up to PROC_MAP_SIZE/8 processes; refuted for more (129 processes at the default size).')
c('C24','partial','C24_queues_are_fifo C24_nothing_lost_or_repeated C24_worker_gets_work_partial C24_not_asleep_partial C24_granted_finds_work_partial C22_concurrent_exact_partial C22_concurrent_permits_partial C24_nonempty_removal_refuted C24_stale_snapshot_refuted','Proved for every interleaving in which workers only look at virtual accelerators currently assigned to them and only empty virtual accelerators are taken away; both restrictions are necessary (two refutations; both schedules occur with the elastic and heterogeneous schedulers).')
c('C44','partial','C44_wedged_forever_refuted C44_reachable_refuted C24_worker_gets_work_partial','Refuted: a submitter retrying on a full queue of an unassigned virtual accelerator holds the lock the assignment needs, for ever; when the virtual accelerator is already served the worker keeps getting work (and so makes room).')
c('C36','partial','C36_history_is_observed C36_one_initialiser C36_first_and_last_partial C36_last_when_none_remain_partial C36_users_are_processes C36_turned_away_blocks_last C36_refuted_version_mismatch','First/last flags exact, alternating, and only the first initialises, for every execution; "last when none remain" proved unless a process was turned away for its revision, refuted then (the turned-away process never decrements the count).')
c('C37','partial','C37_after_initialiser_returned_partial C37_initialiser_partial C37_refuted C37_teardown_overlaps_new_user C37_second_period_no_wait','Refuted: later processes only wait for the revision string, which is published before the allocator, registries and accounting exist; also tear-down overlaps a new user. Proved from the moment the initialiser returned until the last user leaves.')
c('C38','partial','C38_every_schedule_halts C38_late_clients_partial C38_pthread_partial C38_spin_one_released_partial C38_spin_single_client_partial C38_not_before_ready C38_refuted_pthread C38_refuted_spin','Refuted on both back-ends (pthread: notification without the lock can fall between test and wait; spin: one token for all waiters). Proved for clients arriving after the announcement, for pthread when nobody is in that window, for spin with one client.')
c('C43','partial','C43_what_is_checked C43_leak_check_partial C43_refuted_spurious_abort C43_refuted_missed_leak','Refuted in both directions when the last process attached while memory was in use; proved when it attached with nothing in use.')
c('C25','partial','C25_layout_partial C25_user_writes_keep_owner_partial C25_zero_alignment_refused C25_overflow_refuted','Proved for every size and alignment whose sum with the header fits in size_t and every placement; refuted for sizes near 2^64, where the allocation size wraps.')
c('C26','partial','C26_start C26_interior_partial C26_outside_partial C26_sound_up_to_decoy C26_interior_refuted C26_outside_refuted C26_base_faults','Start addresses always resolve; other addresses resolve correctly unless the 8 bytes before them look like a handle of a buffer; refuted then (a buffer that stores buffer handles).')
c('C28','proved','C28_arguments_intact C28_other_size_refused C28_no_arguments C28_overflow_refuted','For every task that fits in the address space; an argument size near 2^64 wraps the allocation (stated separately).')
c('C27','partial','C27_read_back_partial C27_moved_while_running_refuted','Proved for every interleaving of clients, workers and other buffers in which a virtual accelerator is not moved to another thread while one of its tasks executes; refuted when it is (elastic scheduler).')
c('C46','partial','C46_one_accelerator_partial C46_read_overtakes_write_refuted','Refuted: a read is queued on the virtual accelerator that last used the buffer, even one that only read it, and may overtake a pending write; proved when the buffer is used through one virtual accelerator.')
c('C39','partial','C39_first_setting_partial C39_get_str C39_write_says C39_write_partial C39_get_long_partial C39_denotes_or_not C39_get_int C39_get_bool C39_get_size C39_number_round_trip C39_bad_value_stays C39_unfinished_line_refuted C39_key_without_value_refuted C39_long_key_refuted C39_long_number_refuted C39_trailing_characters_accepted C39_blank_characters C39_digit_characters','Proved for every text of key/value words with keys up to 127 and values up to 895 characters (21 for numbers), whose last line is ended when something is written. Refuted otherwise: an unended last line is corrupted by a write, a key alone on its line shifts the pairing, a 128-character key hides the next setting, a 22-digit number is read past its array.')
c('C47','partial','C47_alloc_path_partial C47_null C47_exact_fill_refuted','Proved for every path and home directory except when a tilde expands exactly up to byte 4096, where the terminator is written past the array (refuted).')
c('C48','partial','C48_no_overlap_partial C48_lost_update_refuted C48_missing_while_writing_refuted C48_blended_refuted','Refuted: configuration writes are unlocked read-truncate-write; proved when calls do not overlap.')
c('C40','partial','C40_work_conserving C40_takes_one_head C40_bounded_wait_partial C40_churn_starves_refuted','Proved for every set of virtual accelerators assigned to a worker while the set stays the same; refuted when virtual accelerators keep being created and destroyed, because the round-robin counter is a position in a list that grows at its head.')
c('C41','proved','C41_supported_head C41_none_runnable C41_in_turn C41_all_supported C41_in_order_supported','Selection is one step: with this scheduler only the worker itself moves its virtual accelerators.')
c('C42','partial','C42_exclusive C42_none_forgotten C42_handed_over_is_taken C42_no_lost_wakeup C42_pthread_partial C42_spin_partial C42_two_at_once_crashes_refuted C42_removed_crashes_refuted C42_oldest_waits_refuted','Handed over at most once and never forgotten, for every interleaving; a NULL is handed over (crash) with the spin back-end when two are created before the balancer looks, with pthread when those that woke it are destroyed first; the newest is served first, so the oldest may wait for ever.')
c('C45','partial','C45_first_partial C45_second_refuted C45_no_device_refuted C45_het_partial C45_unsupported_task_aborts_refuted','The round-robin scheduler assigns the first virtual accelerator; the second dereferences a static iterator into a vector that was destroyed (refuted). The heterogeneous scheduler picks the first device that supports the task; with none it aborts the controller (refuted).')
c('C49','partial','C49_safe_partial C49_destroyed_partial C49_listed_alive_partial C49_kept_safe_partial C49_refuted_get_after_free C49_refuted_get_resurrects','Proved for every interleaving without lookups by name, and with lookups as long as some thread keeps a reference; refuted for arax_proc_get racing with the last release: it takes its reference after dropping the list lock.')
c('C50','partial','C50_self_is_noop C50_sizes_must_match C50_never_copies_refuted C50_by_hand_partial','Refuted: arax_data_memcpy reads the source into NULL, so it never copies a non-empty buffer; the block argument is ignored. Size check and self-copy proved; the copy by hand (get, then set) that the function meant to do is proved correct.')
c('C51','partial','C51_waited_partial C51_detached_partial C51_procedure_refuted C51_unwaited_refuted','Proved for every interleaving when the client waits before releasing (or leaves the task to a handler that releases it) and somebody keeps the procedure; refuted for the procedure: a task holds no reference to it, so releasing it after the issue makes the worker read a destroyed procedure.')
c('C52','partial','C52_attached_partial C52_ptr_valid_refuted C52_unmatched_exit_refuted C52_reattach_refuted C52_overlap_refuted','Proved for every interleaving of paired calls in which no arax_init overlaps the last arax_exit or a re-attachment. Refuted beyond: arax_ptr_valid leaves a count behind so the process never detaches; an unmatched arax_exit makes the next arax_init hang; a second attachment does not wait for its mapping; an arax_init overlapping the last arax_exit is left with an unmapped segment.')
c('C53','partial','C53_same_address C53_usable_partial C53_stale_pid_refuted C53_sizes_refuted C53_failure_reported_refuted C53_misplaced_reported_partial','Same address: proved for every execution and every answer of the kernel. Usable: proved when all processes are configured with one size and no process gets the pid of one that died attached; refuted without either. Failures other than a misplaced second mapping crash in the failure path instead of exiting with 1 (refuted).')
c('C54','partial','C54_serves_partial C54_stops_partial C54_what_else C54_failed_device_refuted C54_second_interrupt_refuted C54_released_used_refuted C54_pending_dropped_refuted C54_still_attached_refuted','Proved: every fair interleaving starts (devices that work) and stops (one interrupt) with all workers joined and all accelerators released. Refuted: a device that cannot be initialised hangs the start for ever, a second interrupt aborts, the balancer is never stopped and may use a released accelerator, queued tasks are dropped, and the controller stays attached whenever a worker has ever waited for work (arax_ptr_valid counts a thread).')
c('C55','partial','C55_loaded_partial C55_missing_folder C55_stripped_refuted C55_unknown_type_refuted C55_not_exported_refuted C55_unload_refuted C55_arrivals_partial C55_only_written C55_stops_partial C55_together_refuted C55_moved_refuted C55_long_name_refuted C55_cannot_stop_refuted','Start-up: proved for every tree of folders not inside one another and libraries built with ARAX_HANDLER and not stripped. Refuted: a stripped library is ignored, one with an unknown type or a hidden symbol ends the controller, unloading unregisters nothing. Run time: proved when files arrive one at a time with names under 240 characters; of two files that arrive together the second is lost, a file moved in is never noticed, a longer name blocks the loader for ever, and the destructor hangs if it cannot create its file.')
c('C56','partial','C56_same_partial C56_kernel_stays_partial C56_two_procedures_refuted C56_erased_refuted C56_not_runnable_refuted','Proved once a registration of the name has returned (nobody else is creating it): every later one, in any interleaving, returns the same procedure, and kernels set stay set. Refuted: two first registrations at once make two procedures; a procedure is published before it is cleared, so a kernel set in between is erased; the runnable mask is updated without a lock and loses a type.')
c('C57','partial','C57_not_early C57_reaches_partial C57_completed_first_refuted C57_before_number_refuted C57_two_waiters_refuted C57_first_lock_refuted C57_two_holders_refuted C57_dec_spins_refuted C57_dec_increments_refuted','Never early: proved for every interleaving. Always returns: proved when one thread waits and the completion is announced after it registered; refuted when the task completes first or before the machine number is stored. Refuted: a new condition cannot be locked, two threads hold a condition, a positive semaphore cannot be decremented. A walk of the interrupt thread is one step.')
c('C58','partial','C58_accepts C58_accels_partial C58_default_names C58_cores C58_no_such_core C58_same_name_refuted C58_two_groups_refuted C58_default_clash_refuted C58_cores_refuted','Which configurations are accepted: proved for all. Which accelerators run: proved when no two entries get the same name, in particular when none is named; refuted for equal names, which are dropped silently, within a group, across groups, and when a chosen name is the default of another entry. Core lists: decimal numbers separated by commas proved; blanks, ranges and letters are misread silently (refuted).')
c('C59','proved','C59_blocks C59_alloc C59_free C59_free_null C59_asks_pages C59_search_exists C61_sound C61_trees_exist','For every history of one heap: any sizes, order, page placement and initial memory content. Boundary tags are modelled word by word; links of the bins as lists, trees in C61. Calls hold the lock of the heap, so they are atomic (the lock is C09).')
c('C60','partial','C60_accounting_partial C60_destroy_partial C60_destroy_empty_partial C60_coalesced C60_reuse_partial C60_reuse_empty_partial C61_reuse_partial C60_mremap_leak_refuted C60_never_trimmed_refuted C60_first_segment_stays_refuted C60_stuck_segment_refuted','Accounting and destruction proved where mremap fails; merging proved always; reuse proved for best-fit searches (C61: without chunks of 1 TB). Refuted: where mremap succeeds trimming loses the pages for ever; a heap that grew contiguously is never trimmed, whatever is free; a segment whose last free chunk leaves 16 bytes before its record is never released.')
c('C61','partial','C61_fits C61_small_fits C61_sound C61_best_partial C61_small_best_partial C61_best_fit_partial C61_reuse_partial C61_huge_missed_refuted C61_huge_not_best_refuted','A chunk found is in the trees and large enough: proved for all sizes. Best fit, and found whenever there is one: proved while no chunk has 2^40 bytes or more. Refuted beyond: compute_tree_index keeps the size in an unsigned int, so a chunk of 1 TB is filed with the smallest ones, is missed by larger requests and given to small ones.')
c('C62','partial','C62_lock_safe C62_lock_live_partial C62_queue_safe_partial C62_pop_needs_nobody C62_push_live_partial C62_objects_safe_partial C62_lock_refuted C62_push_refuted C62_leak_refuted C62_account_refuted C62_wait_refuted C62_segment_refuted C62_initialiser_refuted','Proved for every crash point: nothing queued is lost, reordered or doubled, taking a task needs nobody else, live objects stay whole, and a death outside a locked region blocks nobody. Refuted, in every continuation: a process killed inside a lock blocks that lock for ever (a task queue then accepts nothing more), references of a dead process are never dropped, a task of a dead controller never completes, a dead user keeps the segment from being cleaned up, a dead initialiser keeps everybody from attaching.')
c('C63','partial','C63_stats C63_idle C63_view_partial C63_inspect C63_covers C63_large_refuted C63_4gb_refuted C63_range_refuted','Proved for every history: both walks end, used + free = what the heap has, used covers the blocks held, an idle heap uses only its records, and the inspection is exact for blocks inside segments. total >= used and what the view shows: proved for heaps under 4 GB without large blocks. Refuted: a block with its own pages (256 KB or more) is counted as used but not in total, so the view shows about 2^64 bytes free, and it is never reported by the inspection; numbers are cut to 32 bits; the range reported for a block may end 8 bytes before the block.')
c('C64','partial','C64_heap C64_alloc C64_free C64_pages C64_place_partial C64_footprint_partial C64_exit C64_exit_empty_partial C64_inside_refuted C64_empty_abort_refuted C64_exit_leak_refuted',"Proved for every history: the histories of C59 are what the page allocator can produce, allocation and free never fail in another way than for lack of a run of pages, the bitmap marks exactly the heap's pages, blocks are behind the structures and at most 63 pages behind the end (inside if the number of pages is a multiple of 64), tear down never fails; footprint and empty tear-down when mremap never succeeds. Refuted: with 193 pages a block ends behind the segment; after everything was freed a request aborts that a new segment serves; with mremap, pages stay marked after tear down.")
c('C65','proved','C65_drains','Proved from every reachable state in which the assignments are made and nobody is re-assigning (C44: without an assignment a submitter may wait for ever). Execution of a taken task is not part of this model (C51).')
c('C66','partial','C66_law C66_extra_is_the_callers_charge C66_gift_is_uncharged_input C66_lost_is_crowded_input C66_exact_partial C66_drift C66_cpu C66_allocate_charged_twice_refuted C66_wraps_refuted C66_cuda_input_refuted C66_opencl_full_refuted C66_moved_refuted C66_empty_buffer_refuted','The exact value in every execution, for CUDA, OpenCL and CPU devices: memory minus what is resident, minus what waiting callers of arax_data_allocate_remote charged a second time, minus what OpenCL charged for inputs it then had no room for, plus what CUDA allocated for inputs without charging; hence exact when none of these happens, and always for the CPU. Refuted otherwise: allocating and freeing one buffer with arax_data_allocate_remote loses its size for ever (repeated, the number wraps to almost 2^64); a CUDA kernel reading an unwritten buffer leaves more memory reported than exists; a full OpenCL device charges an unwritten input at every use for ever; a move charges another device; buffers of size 0 abort. ROCm does not compile at this commit and is not modelled.')
c('C67','partial','C67_cpu_copy C67_cpu_unchecked C67_cuda_copy C67_cuda_refuses C67_cuda_offset_refuted C67_cuda_async_leaks_refuted C67_opencl_copy_exact C67_opencl_copy_partial C67_opencl_offset_refuted C67_opencl_prefix_refuted C67_opencl_big_refuted C67_fill C67_fill_unchecked_refuted C67_opencl_fill_exact C67_opencl_fill_partial C67_fill_task_refuted','Holds for every copy and fill inside the buffers on the CPU and on CUDA, and for copies of a whole source on OpenCL. Refuted otherwise: the CPU checks nothing; CUDA lets an offset beyond the end through because the check wraps, and leaks the task of an asynchronous copy; OpenCL ignores the size (a copy from an offset copies nothing, a short copy overwrites more than asked, sources of 2 GB or more are not copied, fills always cover the whole buffer with 4-byte patterns or nothing) and frees the task of a fill under the waiting client. The driver calls are modelled by their documented behaviour.')
c('C68','partial','C68_malloc_blind C68_free_blind C68_one_inside C68_serial C68_answer C68_blocks_disjoint C68_pending_disjoint C68_contents C68_whole_sound C68_pieces_sound C68_contents_pieces C68_disjoint_pieces C68_serial_pieces',"Proved for every way to cut a call into steps that is sound (run alone the steps make up the call of the model and keep off the program's blocks), and two ways are proved sound: the call as one step, and the call that reads at once and then writes its words one by one in any order with the program's stores in between. Missing: the exact order in which malloc.c mixes its reads and writes inside the lock is not modelled step by step. Memory is sequentially consistent, ALLOC_STATS is off, and every release is of a block that is held. A process that dies inside the lock blocks the others (C62).")
c('C69','proved','C69_locked_linearizable C69_locked_one C69_locked_state C69_kv_steps C69_kv_map C69_kv_never_stuck C69_kv_bounded C69_kv_pointer C69_pages_steps C69_pages_linearizable C69_pages_disjoint C69_pages_exact C69_pages_kept C69_pages_never_stuck C69_pages_used','Memory is sequentially consistent. Page requests are for at least one page and only held ranges are given back (C04 has what happens otherwise). A probe of one 64-page group with its stores is one step, the update of the count another. A process that dies inside the lock blocks the others (C62).')
c('C70','partial','C70_locked_linearizable C70_locked_one C70_locked_buffers C70_locked_same C70_kv C70_pages C70_queue_fifo C70_queue_observed C70_queue_log_grows C70_loads_refuted','Proved for store buffers (x86-TSO for the locked tables, any order of stores to different words for the queue, no pop overtaken by 65536 others as in C08). Refuted for processors that reorder loads (ARM, POWER): nothing orders the load of the entry in utils_queue_pop after the load of bottom, so a pop may answer a task that was executed before while the one pushed is lost. The other models assume sequentially consistent memory.')
c('C71','partial','C71_names_and_blocks C71_no_leak C71_new_object_zeroed C71_concurrent_lookups C71_one_in_the_list C71_lock_not_left_behind C71_format_refuted C71_format_wrong_text_refuted C71_no_memory_refuted C71_rename_race_refuted','Proved for formats without conversions, one call at a time, and for any interleaving without renaming. Refuted: a format with a conversion ("%s") always reads beyond the arguments, because the argument list is used twice; with surplus arguments the name is the wrong one or is stored beyond its block; renaming takes no lock, so a lookup at the same time reads a released name or finds an object under a name it never had; without memory for the name registration stores through a null pointer, without memory for the object the bytes stay charged. The bytes of an object beyond the largest of the five structures are not cleared.')
c('C72','partial','C72_taken_in_order C72_waiting_handlers C72_stream_order C72_wait_ends C72_reads C72_one_worker C72_client C72_done_not_performed_refuted C72_move_refuted C72_copy_never_marked_refuted',"Proved whenever no worker takes a task that conflicts with an operation still in another worker's stream, which holds for buffers used through accelerators that stay with one worker, or through one accelerator that is moved only when the stream it leaves is empty of their operations. Refuted: fills, copies and kernels are reported as completed while they are still in the stream; after a move between a completed kernel and the read, the read brings back the bytes from before the kernel; a copy with sync == false on CUDA is never marked. Sizes, offsets and allocation on the device are C66 and C67.")
c('C73','partial','C73_handover C73_args C73_results C73_poll_tso C73_poll_refuted C73_case C73_args_case C73_poll_case','Proved for issue/take and mark/wait with stores that leave in any order. Polling with arax_task_stat is proved where stores leave in order (x86) and refuted elsewhere. Loads that are executed early are not modelled.')
c('C74','partial','C74_somebody_goes_on C74_all_calls_return C74_released C74_owner_releases C74_list_other_kind_refuted C74_case','Proved for all calls, except that lists handed to arax_accel_list for virtual accelerators hold virtual ones: otherwise the thread can wait for a lock it owns itself (refuted). That room in a queue appears is not part of this: C44 has the queue of an unassigned virtual accelerator that never empties, C75 the worker that waits for itself.')
c('C75','partial','C75_released_once C75_room C75_waits_for_itself_refuted C75_round_robin_refuted C75_case','Proved: released exactly once and only when unreferenced; the worker finds room if the device never holds more buffers than the queue has entries. Refuted otherwise: a worker that finds the free queue full waits for ever for itself to take a task from it, and with round robin two virtual accelerators that write to buffers and drop them lead there for every capacity. Modelled: one device, tasks that nobody waits for.')
c('C76','partial','C76_safe C76_gone C76_lives C76_freed C76_free_then_release_refuted C76_release_unassigned_refuted C76_case','Proved for every interleaving in which a virtual accelerator is released after it was assigned and taken off its device while no task waits on that device. Refuted otherwise: the worker keeps a list of virtual accelerators without holding references, so a client that frees a buffer and then its virtual accelerator makes the worker read freed memory; and so does one that releases its virtual accelerator before the balancer has assigned it. Schedulers that move virtual accelerators between devices are not part of this model (C23, C24).')
c('C77','partial','C77_one_place C77_assigned C77_already C77_abort_refuted C77_lost_refuted C77_two_devices_refuted C77_two_removals_refuted C77_case',"Proved for all interleavings in which no two threads are busy with the same virtual accelerator. Refuted otherwise, already for a client that creates a virtual accelerator and calls arax_accel_set_physical while the controller runs: the balancer assigns it at the same time, and one of them aborts, or the virtual accelerator ends in no list while the length of the list of unassigned ones wraps, or it is linked into two lists. Two removals at once make the length of the device's list wrap.")
c('C78','partial','C78_one_device C78_arrival C78_stale_list_refuted C78_released_refuted C78_case','Proved for every history in which the list of the device whose turn it is holds only virtual accelerators that are on it. Refuted otherwise: the balancer reads the list the worker made when it last woke up; when that worker slept through the move or the release of one of them, the next arrival aborts the controller or uses freed memory. The static iterator is an index here (C45), one call of the balancer is one step.')
c('C79','partial','C79_duration C79_issue_time C79_2262_refuted C79_task_duration_refuted C79_clock_set_refuted C79_case','Proved for readings between 1970 and 2262 and while nobody sets the clock. Refuted: nothing ever stores the end of a task, so the duration arax_task_stat reports is minus the time since 1970 at which the task was issued, and the duration without issue and the used slots are always 0; the timers read the wall clock, so that setting it back makes times negative; nanoseconds overflow in 2262.')
c('C80','partial','C80_attributes C80_new C80_device C80_assigned C80_busy_refuted C80_unassigned_refuted C80_answer_refuted C80_early_refuted C80_case',"Types and attributes proved for every interleaving once the creating call has returned. Refuted: an accelerator that was just registered is listed before its fields are cleared; the setters of the client id and the priority may answer another thread's value; arax_accel_stat never answers busy or failed, and dereferences NULL for a virtual accelerator that is not assigned.")
