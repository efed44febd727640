# (property, status, theorems, note)
CLAIMS = [
 ("C01", "proved", ["C01_sum_is_first_error", "C01_plus_assoc", "C01_ok_identity", "C01_no_error_lost", "C01_check_status"],
  "Also how a failed status leaves a function (return, or throw for the crash code)."),
 ("C02", "proved", ["C02_edges_symmetric", "C02_add_exact", "C02_remove_exact"], "Grouping is part of the histories."),
 ("C03", "proved", ["C03_reachable_graphs_wf", "C03_init_iff_acyclic"], "wf is the conclusion of C02 for element sets closed under their edges."),
 ("C04", "proved", ["C04_topo_engine"], ""),
 ("C05", "proved", ["C05_static_engine", "C05_terminates"], "All interleavings of caller and workers."),
 ("C06", "proved", ["C06_starts_after_deps"], "Common path of the dynamic engine; serial and parallel paths are C10."),
 ("C07", "proved", ["C07_ok_means_all_ran_once", "C07_overlapping_runs_refuted"],
  "The refuted companion shows why run must not be called again while tasks of a failed run still execute."),
 ("C08", "proved", ["C08_no_deadlock", "C08_bounded", "C08_maximal_run_returns_ok"], ""),
 ("C09", "proved", ["C09_error_reported"], ""),
 ("C10", "proved", ["C10_serial_only_chains", "C10_parallel_only_independent", "C10_shapes", "C10_serial_run", "C10_matrix", "C10_matrix_refused", "C10_parallel_run", "C10_parallel_returns"],
  "The parallel path is a transition system of its own; it returns even when elements fail."),
 ("C11", "proved", ["C11_trim", "C11_idempotent"], "Over the whole tree of nested regions."),
 ("C12", "proved", ["C12_max_para"], ""),
 ("C13", "proved", ["C13_check_separate", "C13_separate_never_concurrent", "C13_pipeline_nesting", "C13_level_answer", "C13_unknown"],
  "Arguments may be nested at any depth; the concurrency consequence is proved for the dynamic engine."),
 ("C14", "proved", ["C14_calls", "C14_success", "C14_exactly_loop_times", "C14_ends", "C14_no_error", "C14_first_error", "C14_invisible"],
  "C14_calls gives the complete grammar of calls; the others are consequences. User code is any function of the past."),
 ("C15", "proved", ["C15_returns_status", "C15_crash_status"], "For CGraph exceptions; other exception types are C54."),
 ("C17", "proved", ["C17_body_after_prepare", "C17_prepare_once", "C17_answers"], ""),
 ("C18", "proved", ["C18_exclusive", "C18_defaults", "C18_setters", "C18_accepted"], ""),
 ("C51", "partial", ["C51_returns_partial", "C51_always_returns_refuted"],
  "False in general: the error notification is sent without the mutex and can be lost. Proved: that is the only way to block, and any later wake up makes run return the error."),
 ("C52", "partial", ["C52_set", "C52_copy_assign_code_partial", "C52_assign_copies_refuted"],
  "Codes are preserved; assigning a status with an equal code keeps the stale message."),
 ("C53", "partial", ["C53_same_parent_partial", "C53_same_parent_refuted", "C53_foreign_edges_refuted"],
  "Holds when elements are grouped before they get edges; otherwise refuted, and a cyclic group can then be accepted."), 
 ("C54", "partial", ["C54_any_exception_partial", "C54_any_exception_refuted"],
  "Only CException is caught: any other exception type leaves the element (and, on a worker thread, ends the program). Proved: nothing else escapes."),
 ("C19", "proved", ["C19_cluster", "C19_all_ok"], ""),
 ("C20", "proved", ["C20_condition", "C20_chosen_total"], ""),
 ("C21", "proved", ["C21_serial", "C21_serial_exact", "C21_parallel", "C21_parallel_only_matching", "C21_parallel_ends"], ""),
 ("C22", "proved", ["C22_returns", "C22_rejects", "C22_never_blocks", "C22_bounded"], "For an execution that starts with no task of an earlier one left (C55)."),
 ("C23", "partial", ["C23_runs_again_partial", "C23_reset_clears", "C23_again_in_loop_refuted"],
  "Holds from one pipeline run to the next; within a looping parent the children are skipped from the second iteration on."),
 ("C55", "partial", ["C55_quiet_partial", "C55_leftover_counts_refuted", "C55_body_after_end_refuted"],
  "False: left-over tasks decrement the next execution's counter, and queued children execute after the run returned. Proved: without left-over tasks nothing happens between executions, and C22 applies."),
 ("C16", "partial", ["C16_dynamic_partial", "C16_topo_refuted", "C16_static_refuted"],
  "Holds for the dynamic engine under every schedule; the topological and static engines throw the crash out of run and skip all end-of-run actions."),
 ("C24", "proved", ["C24_state", "C24_refused", "C24_answer", "C24_accepted", "C24_process", "C24_cycles", "C24_param", "C24_shared_pool"], "C24_cycles: without failed init/destroy calls the pipeline can always be initialised again."),
 ("C25", "partial", ["C25_retry_partial", "C25_stuck_partial", "C25_refuted"],
  "False: once any element was initialised by a failed init the pipeline is dead in every later history. Retrying works when init failed before that."),
 ("C27", "proved", ["C27_run"], "The engine is one call here; what a failed run of the dynamic engine leaves running when parameters are reset is the subject of C115."),
 ("C56", "proved", ["C56_order"], ""),
 ("C57", "partial", ["C57_pool_partial", "C57_failed_destroy_refuted"], "False after a failed destroy, which deletes the pool first; proved for histories in which no init or destroy failed."),
 ("C58", "partial", ["C58_status_partial", "C58_crash_escapes_refuted", "C58_daemons_left_refuted"],
  "A crash in a node's init is thrown out of init; a failed init starts the daemons. Proved: without crash statuses, init and destroy return a status."),
 ("C26", "proved", ["C26_get", "C26_create", "C26_remove", "C26_keys", "C26_objects", "C26_local", "C26_python_clear"],
  "Over every history of calls, each call atomic; get is not locked in the code, so races of get with create are outside the model. Also covers element-local parameters and the deletion of objects."),
 ("C45", "proved", ["C45_lru", "C45_capacity_zero"],
  "Linked list with node identities and the key map, for every capacity of at least one; with capacity zero put is undefined behaviour."),
 ("C46", "proved", ["C46_small_vector"],
  "Refinement of the array with its allocation to lists; arguments by value, element type trivially copyable."),
 ("C50", "proved", ["C50_trace"], ""),
 ("C59", "partial", ["C59_self_insert_refuted", "C59_self_insert_partial"],
  "False of the code when the insertion grows the storage: the argument refers into the freed array."),
 ("C60", "partial", ["C60_concerned_refuted", "C60_concerned_partial"],
  "False of the code: removeGParam leaves pointers in the set of used parameters. Proved: the exact condition for the undefined behaviour, and the exact answer otherwise."),
 ("C29", "proved", ["C29_sequential", "C29_concurrent", "C29_defined", "C29_no_null"],
  "Index arithmetic on the circular array, for one caller and for any number of threads (critical sections atomic, condition variables with spurious wake-ups and timeouts)."),
 ("C61", "partial", ["C61_capacity_refuted", "C61_topics_refuted", "C61_capacity_partial"],
  "False of the code: one slot is kept free, so n-1 messages fit; size one never delivers, size zero divides by zero."),
 ("C62", "proved", ["C62_no_lost_wakeup"], ""),
 ("C30", "proved", ["C30_answers", "C30_defined", "C30_isolated", "C30_fifo"], "Sizes at least two (see C61); one call at a time."),
 ("C31", "partial", ["C31_pubsub_refuted", "C31_detach_refuted", "C31_pubsub_partial", "C31_delivery_partial", "C31_isolated_partial"],
  "False of the code: detaching leaves a freed pointer in the topic's set, dropTopic leaves freed pointers in the connection map, a WAIT publish stops at the first full connection, ids are reused after clear. Proved: exact answers, no undefined behaviour and delivery for histories without these uses."),
 ("C63", "partial", ["C63_typed_refuted", "C63_typed_partial"],
  "False of the code: the message is cast without a check. Proved: exactly when a confused value is handed out, and that well-typed use is safe."),
 ("C32", "proved", ["C32_launches", "C32_barrier", "C32_own_steps"], "Any number of threads and rounds, spurious wake-ups included."),
 ("C33", "proved", ["C33_answers", "C33_total", "C33_exclusive", "C33_run_end"], "Calls are atomic (they hold the mutex); init, destroy, find, getSize are used without concurrent calls."),
 ("C64", "partial", ["C64_leaves_refuted", "C64_leaves_partial"], "False of the code: a thread re-entering before the others got the mutex makes them sleep again, for good. Proved when nobody enters while threads of a launched round are inside."),
 ("C65", "partial", ["C65_create_refuted", "C65_create_partial"], "False of the code: a duplicate key is answered OK and ignored (and the new stage leaks)."),
 ("C66", "partial", ["C66_duplicate_refuted", "C66_find_partial"], "False of the code: add has no check."),
 ("C67", "partial", ["C67_retry_refuted", "C67_init_partial", "C67_destroy_partial"], "False of the code: init throws at the pipelines already initialised."),
 ("C38", "proved", ["C38_round_trip", "C38_extent", "C38_injective", "C38_size_needed", "C38_empty_elements"],
  "Total size below 2^64; vectors of elements that occupy no bytes do not round-trip (C38_empty_elements)."),
 ("C68", "partial", ["C68_reread_refuted", "C68_reread_partial"], "False of the code: vectors are appended to. Proved: exactly what results, and equality when the object's vectors are empty."),
 ("C69", "partial", ["C69_truncated_refuted", "C69_ids_refuted", "C69_trailing_partial"], "False of the code: every proper prefix is read past its end, ids are ignored. Proved: bytes behind the value do not matter."),
 ("C40", "proved", ["C40_accounted", "C40_once", "C40_kept", "C40_defined", "C40_batches"], "Sections holding a queue mutex are single steps; sleeping and waking is left out (threads wake by themselves)."),
 ("C41", "partial", ["C41_longtime_refuted", "C41_wrap_refuted", "C41_zero_refuted", "C41_batch_refuted", "C41_polled_partial", "C41_polled_tid_partial", "C41_alive_partial", "C41_drain_partial", "C41_drain_secondary_partial", "C41_executed_partial"],
  "False of the code: with the default configuration long tasks and tasks with a priority are never executed; with more than 101 threads the wrapped index goes to the queue of long tasks; zero sizes are accepted. Proved: all other strategies reach a queue a primary thread polls, and that queue is emptied within as many rounds as there are tasks plus two, if try_lock succeeds for that thread."),
 ("C43", "partial", ["C43_refuted", "C43_partial"], "False of the code: the priority queue compares addresses. Proved: exactly which task is taken."),
 ("C44", "partial", ["C44_refuted", "C44_prio_refuted", "C44_partial", "C44_init_partial"], "False of the code when two creating calls overlap; proved when they do not."),
 ("C70", "partial", ["C70_refuted", "C70_partial"], "False of the code: queues of primary threads are deleted. Proved: tasks taken by a thread are finished; exactly which are lost."),
 ("C71", "partial", ["C71_undefined_refuted", "C71_dropped_refuted", "C71_partial"], "False of the code: undefined or silently dropped. Proved: nothing is executed before init without secondary threads."),
 ("C42", "proved", ["C42_truth", "C42_in_time", "C42_exact", "C42_callback"], "Over all completion times, tasks that never end included, and all delays of the waiting thread."),
 ("C72", "partial", ["C72_refuted", "C72_partial"], "False of the code: the futures are waited for but never read, so a group in which every task threw is answered OK. Proved: a throw changes nothing else in the result, and a throw after the limit is reported as a timeout."),
 ("C47", "proved", ["C47_punctual", "C47_interval", "C47_no_late_shot", "C47_stopped", "C47_stop_ends", "C47_stop_returns", "C47_start_twice"], "One user of the timer at a time."),
 ("C73", "partial", ["C73_refuted", "C73_partial"], "False of the code: the notification is sent without the mutex and can be lost, then stop takes the whole interval. Proved: a thread that sleeps is woken."),
 ("C74", "partial", ["C74_refuted", "C74_partial"], "False of the code: an exception ends the timer thread silently and start has no effect then. Proved for tasks that do not throw."),
 ("C75", "proved", ["C75_exclusive", "C75_attempt", "C75_unlock"], "Sequentially consistent atomics."),
 ("C76", "partial", ["C76_refuted", "C76_partial"], "False of the code: the condition is inverted, a wait without signal returns at once and a wait after a signal blocks. Proved: exactly when a wait returns."),
 ("C77", "proved", ["C77_fifo", "C77_empty", "C77_full"], "Sequentially consistent atomics; the type of the slots (unique_ptr<T>, to which T is assigned) is taken to be T."),
 ("C78", "partial", ["C78_refuted", "C78_turns_partial"], "False of the code for every capacity: values are lost and handed out twice. Proved: any number of producers and consumers that take turns on each side (C78_turns_partial); see also C77."),
 ("C28", "proved", ["C28_unknown", "C28_refused", "C28_once", "C28_run_finish", "C28_waits"], "Any number of events, notifying threads and runs; the locks of the future lists are modelled."),
 ("C79", "partial", ["C79_refuted", "C79_partial"], "False of the code for a pipeline with its own pool: the pool is deleted before the events wait, so waiting triggers are dropped. Proved for a shared pool."),
 ("C80", "partial", ["C80_refuted", "C80_partial"], "False of the code with a shared pool: destroy does not wait for no-wait notifications nor for run-finish ones sent outside a run. Proved for a pipeline with its own pool after destroy, and when all triggers are done."),
("C34", "proved", ["C34_no_start_after_cancel","C34_result","C34_next_run_is_normal","C34_cancelled_run_ends","C34_process_stops"], "StateModel.v: owner, controlling thread and element threads interleave freely. A body repeated because isHold returns true belongs to the running iteration. The bound on the end of a cancelled run assumes that the run was not suspended before (see C35 for the lost wake-up)."),
("C35", "partial", ["C35_suspend_loses_work_refuted","C35_lost_wakeup_refuted","C35_all_or_skipped_partial","C35_resume_wakes_partial"], "False in the code: an element that reaches its loop condition while suspended drops its iterations, and a notification without the mutex can be lost, after which the run never ends even if resume is called again. Proved: counts never exceed the configured ones, every element that was not skipped is executed fully, and a waiting element is notified by resume."),
("C36", "partial", ["C36_result_partial","C36_as_error","C36_hold_waits_partial","C36_executed_once_partial","C36_runnable_again_partial","C36_children_stop","C36_exception_partial","C36_never_stuck","C36_late_exception_refuted","C36_hold_repeated_refuted"], "In every state some thread can go on, or the program is at its end. AS_ERROR and the children of a late group are proved for every history. The rest is proved for histories in which no run ended by an exception and no isHold repeated an element in the run; without these it is false in the code: a late exception under HOLD_BY_PIPELINE leaves run() and the element is silently passed over in the next run; a repeated late element is no longer waited for."),
("C81", "partial", ["C81_bodies_left_behind_refuted","C81_bodies_ended_partial"], "False in the code for AS_ERROR and NO_HOLD: the late body goes on after run has returned and the next run executes the element a second time beside it. Proved for all other bodies. The engine is taken to wait for all bodies that started; that the dynamic engine does not do so when an element fails is the subject of C115."),
("C37", "proved", ["C37_report","C37_longest_path","C37_aspects_restored"], "PerfModel.v. The run is any list of begin and finish events of the elements (ElemModel says which ones an element produces); time stamps are integers instead of doubles."),
("C82", "partial", ["C82_clean_after_success_partial","C82_failed_run_refuted","C82_added_aspect_refuted"], "False in the code: whenever the run fails, perf returns without recovering and every element keeps the aspect added by perf; when a body adds an aspect during the run, perf removes that one, and its own aspect goes on using freed memory. Proved for runs that succeed in which no body adds an aspect."),
    ("C49", "partial", ["C49_serial_partial", "C49_all_run_partial", "C49_mixed_bindings_refuted", "C49_parallel_multi_refuted", "C49_timeout_inside_refuted", "C49_later_registration_refuted", "C49_refused_partial"],
     "True when every level has one binding, nothing at any depth has a timeout and there is no parallel multi condition (C49_serial_partial, for every tree of elements). False as stated: makeSerial accepts a node followed by a region although their default bindings differ, and then the run waits for ever (for every such pipeline); it accepts a parallel multi condition with one child; it does not look at timeouts inside clusters; and it is not repeated after later registrations. Statuses are reduced to error or not, loops are 1."),
    ("C48", "partial", ["C48_alternate_partial", "C48_run_alive_partial", "C48_one_pipeline_partial", "C48_second_pipeline_refuted", "C48_failed_destroy_refuted", "C48_failed_init_refuted", "C48_concurrent_init_refuted", "C48_later_init_partial"],
     "Proved: init and destroy alternate in every history of any number of pipelines; a run finds the object alive if nothing was destroyed since its pipeline was initialised; with one pipeline and no failing destroy, every run in every history finds it alive. False as stated: the first of two pipelines to be destroyed destroys the object under the other (for every such history), a failing destroy or init of another element breaks the pairing, and n pipelines initialised at the same time can call init n times."),
    ("C83", "partial", ["C83_one_pipeline_partial", "C83_last_registration_refuted", "C83_deleted_refuted"],
     "True when one pipeline registers the singleton. False in general: after a registration by pipeline q, all runs of all pipelines use q's managers (for every history), also after q was deleted."),
    ("C84", "partial", ["C84_created_once_partial", "C84_progress", "C84_race_refuted"],
     "Created once, same object for all, no deadlock: for every interleaving (sequentially consistent steps). The unlocked first check reads a plain pointer that another thread may be writing, which is a data race."),
    ("C39", "partial", ["C39_round_trip_partial", "C39_save_refuses_partial", "C39_params_refuted", "C39_settings_refuted", "C39_values_refuted", "C39_unattached_refuted", "C39_loop_zero_refuted", "C39_own_timeout_refuted", "C39_resave_refuted"],
     "Elements with all settings, groups, dependencies, aspects, passed parameters, events, daemons, stages and the configuration come back (through the bytes of the reflection model). Refuted for every pipeline with a parameter (its class is never stored, load fails), for user data, engines, shared pools and two configuration fields, for unregistered elements, for loop 0 with a timeout, and for saving a loaded pipeline again before init (the contents of groups are lost without an error)."),
    ("C85", "proved", ["C85_reshape_exact", "C85_execution", "C85_reshape_fails"],
     "For every state before, every reshape on the children, every path and schedule of the engine and all results of the bodies. Aspects, timeouts, suspension and hold of a child are in C17-C20, C36; the run starts with an idle pool (C07)."),
    ("C86", "partial", ["C86_cycle_reported_partial", "C86_returns_refuted", "C86_nothing_runs_refuted"],
     "The error is what is returned whenever the run ends, and nothing runs in the first execution after init. In later ones GElementManager::process runs the engine although its setup failed: after a chain, the next execution with a cycle never ends; in other cases children run before the error is returned."),
    ("C87", "partial", ["C87_waits_partial", "C87_got_partial", "C87_real_error_partial", "C87_errors_partial", "C87_run_partial", "C87_no_race_partial", "C87_never_stuck", "C87_exception_refuted", "C87_unordered_refuted", "C87_race_refuted", "C87_old_error_refuted"],
     "Proved for fences that come after the elements they wait for, and (errors, races) if no two fences wait for the same element. False in the code otherwise: a fence not ordered after its elements may return before they start, race with them, or report an error of an earlier run; two fences for one element race; after an exception of one body the fence returns without waiting for the others. A run with fences never comes to a state where nothing can go on."),
    ("C88", "partial", ["C88_safe_partial", "C88_once_partial", "C88_clear_partial", "C88_nested_partial", "C88_null_partial", "C88_refused_partial", "C88_shared_refuted", "C88_remove_refuted", "C88_leak_refuted", "C88_dangling_refuted"],
     "Proved for programs that name on a pipeline only elements made by this pipeline and never a removed pipeline; elements whose creation was refused are excepted. False otherwise: an element made by createGNode of one pipeline is accepted by registerGNode of another and then deleted twice; remove deletes a pipeline again; an element whose registration fails is leaked; dependencies between pipelines dangle."),
    ("C89", "partial", ["C89_elements_partial", "C89_edges_partial", "C89_marks", "C89_loops_partial", "C89_text_partial", "C89_drawn_partial", "C89_mutable_refuted", "C89_quote_refuted", "C89_red_refuted", "C89_format_refuted"],
     "Elements, nesting and edges for all pipelines without (non-empty) mutable groups; quotes and braces of the text for all pipelines whose names have no quote or backslash. False in the code: the content of a mutable group is not shown; names are not escaped; a dependency that bypasses a part of the longest path is red too; the precision and notation of the streams are changed."),
    ("C90", "partial", ["C90_unchanged_partial", "C90_program_partial", "C90_others_partial", "C90_refused_refuted", "C90_run_refuted", "C90_retry_refuted", "C90_thrown_refuted"],
     "Proved for refusals for every other reason than a foreign dependency next to allowed ones (and no timeout). False in the code for those: the allowed dependencies before the foreign one are entered, so a registered element has the refused one as successor; then run can return OK before a registered element has started, the refused element can be executed, and a second registration keeps the old dependencies."),
    ("C91", "partial", ["C91_atomic", "C91_protocol", "C91_conserved", "C91_once", "C91_fifo", "C91_drains", "C91_alone", "C91_wakeup", "C91_race_partial", "C91_race_refuted"],
     "All of it under sequentially consistent memory. The last sentence is false: tryPop and trySteal test the std::deque for emptiness outside of the mutex, which races with a push; the partial theorem shows that these tests are the only unordered accesses. Not modelled: waitPop, setup, isEmpty/empty as calls of their own."),
    ("C92", "partial", ["C92_alternate", "C92_finished_partial", "C92_begin_refuted", "C92_finished_refuted", "C92_throw_refuted"],
     "The first sentence is C92_alternate. The second is false: when the begin of one aspect reports an error, the aspects before it stay begun, without finish and without notice of a crash. C92_finished_partial: true if no begin reports an error and nothing throws (the body may report an error)."),
    ("C93", "partial", ["C93_history", "C93_release", "C93_created", "C93_create_partial", "C93_room_refuted", "C93_no_crash_partial", "C93_ends_partial", "C93_crash_refuted", "C93_stuck_refuted", "C93_recreate_refuted", "C93_recreate_partial", "C93_priority_refuted"],
     "Atomicity and the effect of releases are proved for all interleavings (C93_history, C93_release, C93_created). False: two creations at once exceed the room (C93_room_refuted; undisturbed creations are exact: C93_create_partial). False: a task on a secondary thread that calls a release can join itself and terminate the program, or wait for ever against another call (C93_crash_refuted, C93_stuck_refuted); without calls from tasks on secondary threads there is no crash and every call can end (C93_no_crash_partial, C93_ends_partial). False: stopped threads stay in the list and take the room of new ones until the next release, the monitor does not remove them (C93_recreate_refuted; with a release of 0 in between it holds: C93_recreate_partial), and keep commitWithPriority from making a thread (C93_priority_refuted). Starting a thread is assumed not to fail, done_ to be read atomically."),
    ("C94", "partial", ["C94_ends_partial", "C94_order", "C94_pool_ends_partial", "C94_starved_refuted", "C94_pool_starved_refuted"],
     "False as stated: the threads that wait in a region do not execute tasks. Proved: order and exactly-once in every schedule of every pool; the run ends when every queue is served by more threads than there are groups that keep a thread waiting (for the pool of the code: at most steal-range many such groups, seven with the defaults); the bound is exact: with as many parallel regions as threads the pipeline can be stuck for ever (eight with the defaults). Not modelled: failures, timeouts, some-groups, the single accesses inside of the end of an element."),
    ("C95", "partial", ["C95_partial", "C95_macro_partial", "C95_untouched_partial", "C95_refuted"],
     "False for nodes in a cluster, condition, multi-condition, some-group or mutable: nobody sets their is_init_, so every setter accepts changes while the pipeline is initialised or running, and spawn always refuses (C95_refuted: in every history). Holds for groups at any depth and for elements owned by the pipeline or by a region (C95_partial). addGAspect has no check at all and is left out of the claim."),
    ("C96", "partial", ["C96_partial", "C96_refuted", "C96_refused_refuted", "C96_own_partial", "C96_unchecked_refuted"],
     "Holds for the Euclidean distance up to lengths below 2^32 (C96_partial; never undefined for any length). The cosine distance uses a check that does not compare the lengths and reads past the second vector whenever the first is longer (C96_refuted). Vectors of 2^32 entries are refused because the product of the lengths wraps to 0 (C96_refused_refuted)."),
    ("C97", "proved", ["C97_batch", "C97_euclid", "C97_undefined"],
     "C97_batch is for an arbitrary distance class, C97_euclid for the checked Euclidean one."),
    ("C98", "proved", ["C98_metric"],
     "Over exact real numbers; uses the axioms of the standard library's Reals. Rounding of floating-point types is not modelled."),
    ("C99", "partial", ["C99_cosine", "C99_normalize_partial", "C99_refused_partial", "C99_normalize_refuted"],
     "Holds over exact real numbers for vectors that are not zero. Fails for integer types: 1/sqrt(val) becomes 0, so normalize reports OK and returns the zero vector for every vector longer than 1, and is undefined for the zero vector (C99_normalize_refuted). Rounding is not modelled."),
    ("C100", "proved", ["C100_dispatch"], "Callbacks are taken to return or to throw."),
    ("C101", "partial", ["C101_partial", "C101_late_refuted", "C101_later_refuted", "C101_group_refuted"],
     "Holds for every program that sets levels before the element is registered or put into a region, side by side in the pipeline or a region, for all trees. False when the level is set after the registration (setLevel allows it; the order stays that of the addresses, and any further registration is undefined behaviour), and false in groups other than regions, which ignore levels."),
    ("C102", "proved", ["C102_process", "C102_success"],
     "Combines C03, C05, C06, C07, C09, C10, C24 and C56. engine_behind puts an engine of GraphModel/StaticModel/DynModel/FastModel behind the calls of PipeModel, with an arbitrary execution for every run. Runs of the dynamic engine are as in C06: a run after a failed one on the same engine is excluded (C08), which process never does. The inside of a group during run is one start and one finish (C14, C19 to C22 and C94 treat the inside)."),
    ("C103", "partial", ["C103_atomic_partial", "C103_locked_partial", "C103_prepared_partial", "C103_live_partial", "C103_race_refuted", "C103_overtaken_refuted", "C103_use_refuted"],
     "False as stated: get takes no lock. C103_race_refuted: from every state without calls under way, a lookup of any key while another thread creates a new one is a data race, in both orders (C103_overtaken_refuted); C103_use_refuted: an object got by one thread is deleted by a removal of another. What holds: every execution that stays defined is linearisable to the sequential parameters of C26 (C103_atomic_partial), executions without lookups are always defined (C103_locked_partial), executions in which all parameters were created before are always defined and every lookup gives the object (C103_prepared_partial), and the calls always come to an end (C103_live_partial)."),
    ("C104", "partial", ["C104_tree_partial", "C104_path_partial", "C104_shared_refuted", "C104_both_refuted", "C104_nested_refuted", "C104_cycle_refuted"],
     "False as stated. After every history of calls an element is accepted into two groups (C104_shared_refuted), a registered node into a group (C104_both_refuted), and an inner group as an element of the pipeline (C104_nested_refuted); each of these is then initialised twice by one init. From Python a group accepts itself, after which its registration never ends (C104_cycle_refuted). What holds: if the accepted calls give every element away once, there is one tree, init reaches exactly its elements, each once, and belong and children describe it (C104_tree_partial); and with the C++ interface the paths and walks are always finite (C104_path_partial). This is also the justification of the trees of elements in PipeModel."),
    ("C105", "partial", ["C105_values_partial", "C105_copy_partial", "C105_released_partial", "C105_itself_refuted", "C105_stage_refuted"],
     "False in two places. setAParam, setDParam and addEParam delete the old object before they clone the new one, so that passing the parameter held already reads a deleted object, after every history (C105_itself_refuted). A stage added with a key in use is lost with its copy, which is never deleted (C105_stage_refuted). Otherwise: every history has the answers of a semantics without pointers (C105_values_partial), in particular an aspect keeps what clone made when it was added (C105_copy_partial), and after the pipeline is deleted no object of the library is left (C105_released_partial)."),
    ("C106", "proved", ["C106_where", "C106_own", "C106_order"],
     "C106_where names, for every task that some thread executes in some history, a call that gave the task and allows this thread. C106_own and C106_order are for configurations with max_task_steal_range_ at most 0 or one primary thread. A task dropped because the pool is destroyed counts as done in the order. The example shows a bound task executed by a neighbour under the default stealing. About the pool only: rows with full parallelism of the dynamic engine ignore the binding index of their elements."),
    ("C107", "partial", ["C107_tidy_partial", "C107_overlap_refuted", "C107_params_refuted", "C107_destroy_refuted"],
     "False when the pipeline is used before the future is asked: is_init_ is all that is checked, and it is checked when asyncRun is called. For every pipeline with an element whose init succeeds there is a schedule in which two runs execute the same body at once (C107_overlap_refuted), in which a body finds the parameters reset by another run (C107_params_refuted), and in which destroy returns OK and a body starts afterwards (C107_destroy_refuted). True for programs that ask or drop the future of an asynchronous call before the next call of the pipeline: under every schedule they end, with the trace and answers of the calls made one after the other (C107_tidy_partial). Elements run one after the other in this model; cancel, suspend and events are not in it."),
    ("C108", "partial", ["C108_bound_partial", "C108_own_partial", "C108_parts", "C108_taken", "C108_rows_refuted"],
     "True of the common path of the dynamic engine on the pool model of C40 and C106 (C108_bound_partial, C108_own_partial); both models are used unchanged (C108_parts) and every step of a pool thread on the task of an element is possible (C108_taken), so C06 to C09 and C40 hold of both together. False for graphs without dependencies: an element of a row of several is executed, with stealing off, by the thread with the number of the row, whatever its index (C108_rows_refuted). Not in this model: chains and single files are executed by the caller, the topological engine too; the children of GSome are given to the pool with the index of the group; the static engine gives the index as the dynamic one does. The header promises preference only."),
    ("C109", "proved", ["C109_returns", "C109_rounds_exist", "C109_long_needed"],
     "For the dynamic engine on the pool model of C108, with 0 < default threads. From every reachable state in which run is active and for every number of disturbances (failed try_lock, spurious wakeup, task given by somebody else) there is a number of rounds after which run has returned OK and all elements have run; a round is any schedule in which everyone who is not resting acts at least once (C109_returns). Such rounds exist from every state, any number of them (C109_rounds_exist): no deadlock. In the rounds nobody stops threads, creates secondary threads or opens a batch of executeWithTid, and none is open at their beginning. That long tasks have a thread is needed: without a secondary thread an element bound to them keeps run from returning for ever (C109_long_needed; see C41). With an element that reports an error run may hang (C51). The static and the topological engine and graphs without dependencies (parallelRunAll) are not in this model."),
    ("C110", "proved", ["C110_parts", "C110_taken", "C110_done", "C110_where", "C110_own", "C110_nothing_left", "C110_returns", "C110_rounds_exist", "C110_long_needed"],
     "The static engine (StaticModel, with the layers of static_setup) on the pool model of C40 and C106, others using the pool as they like. The two models are used as they are (C110_parts), and neither hinders the other (C110_taken, C110_done). Where elements are executed: C110_where, C110_own. Nothing left: C110_nothing_left, also when an element reports an error, unlike with the dynamic engine. From every reachable state there is a number of fair rounds after which run has returned (C110_returns), for any finite number of disturbances (failed try_lock, tasks of others); such rounds exist (C110_rounds_exist). Needed: the pool is initialised and its threads are not stopped, no batch of executeWithTid is open, and an element bound to long tasks needs a secondary thread (C110_long_needed shows that it is necessary)."),
    ("C111", "proved", ["C111_parts", "C111_runs", "C111_defined", "C111_unlocked", "C111_taken", "C111_where", "C111_own", "C111_nothing_left", "C111_returns", "C111_rounds_exist", "C111_long_needed"],
     "parallelRunAll (FastModel) on the pool model of C40 and C106, others using the pool as they like. The two models are used as they are (C111_parts), so that C10 holds of the combination (C111_runs), and neither hinders the other (C111_taken). The batches of executeWithTid are opened and closed by the same caller and the same row (C111_defined, C111_unlocked). Where elements are executed: C111_where, C111_own. From every reachable state there is a number of fair rounds after which run has returned (C111_returns), for any finite number of disturbances (failed try_lock, spurious wake-up, tasks of others); such rounds exist (C111_rounds_exist). Needed: the pool is initialised and its threads are not stopped, nobody else has a batch of executeWithTid open, an element bound to long tasks needs a secondary thread (C111_long_needed shows that it is necessary), and after a run that returned an error run is called again only when no task of it is left (as in C10; C111_nonvacuous shows that tasks are left)."),
    ("C112", "partial", ["C112_saved", "C112_new_pipeline", "C112_accepted", "C112_groups", "C112_extends", "C112_replaces", "C112_untouched_partial", "C112_atomic_refuted", "C112_twice_refuted"],
     "load into any pipeline, with the state at the point where it stops (LoadModel); into a new pipeline it is the load of C39 (C112_new_pipeline). Success implies that all classes, dependencies and numbers are right, the latter as signed integers (C112_accepted), and, if groups and children in the file agree, that every dependency is within its group (C112_groups). Whatever the result, nothing of the pipeline is removed but what has an equal key, and all that is new is named in the file; the configuration is set with success only (C112_extends, C112_replaces). The pipeline is as before if the file cannot be read, the pipeline is initialised, or the class of an element is not registered or of another type (C112_untouched_partial). False for all other failures: the file of every pipeline with a parameter is refused (C39) after all its elements, events, daemons and stages have been added (C112_atomic_refuted). Loading twice adds everything twice (C112_twice_refuted)."),
    ("C113", "partial", ["C113_between", "C113_executed", "C113_while_init_partial", "C113_init_refuted", "C113_destroy_refuted", "C113_deleted_partial", "C113_deleted_refuted", "C113_returns", "C113_gone", "C113_each"],
     "DaemModel: any number of daemons, each with the timer of C47, under one user of the pipeline. Between calls the daemons work from the last init that reached them until the next destroy that reached them (C113_between, C113_executed); each keeps its intervals (C113_each). So they work exactly while the pipeline is initialised if no such call failed (C113_while_init_partial). False otherwise: after an init that fails in an element, a parameter or a stage all daemons work on a pipeline that is not initialised, and destroy refuses to stop them (C113_init_refuted); a destroy that fails there leaves an initialised pipeline without daemons (C113_destroy_refuted). A pipeline deleted while its daemons do not work is safe in all schedules (C113_deleted_partial); deleted while they work, every state reached has a continuation in which a daemon is executed during its destructor (C113_deleted_refuted). Calls can always return (C113_returns), and a deleted pipeline has no daemon and no thread left (C113_gone)."),
    ("C114", "proved", ["C114_same", "C114_succeeds", "C114_reported", "C114_deterministic", "C114_trim", "C114_rounds", "C114_race_refuted"],
     "DataModel: the bodies of the elements are programs of reads and writes on shared memory whose steps interleave freely between the starts and ends that the engine models of C102 (topological, static, dynamic with its three paths) allow. A successful run leaves what the sequential execution leaves and reports its statuses (C114_same); it succeeds exactly if that does (C114_succeeds); an element that ends in a failing run reports its sequential status (C114_reported); so any two runs agree, also on the trimmed graph (C114_deterministic, C114_trim), and n runs are n sequential executions (C114_rounds). The condition is needed: C114_race_refuted has two unordered elements that write one place."),
    ("C115", "partial", ["C115_fine_partial", "C115_own_destroy_partial", "C115_others_partial", "C115_static_over_partial", "C115_left_partial", "C115_settles_partial", "C115_parallel_left_partial", "C115_reset_refuted", "C115_start_after_refuted", "C115_destroy_refuted", "C115_delete_refuted", "C115_next_refuted"],
     "LeftModel: the owner of a pipeline (setup and reset of parameters, run, destroy, deletion) beside the dynamic engine and its pool. False in the code for a run of the dynamic engine in which an element fails: run returns at once, so parameters are reset while another element is executed (C115_reset_refuted), an element that was queued starts after run has returned (C115_start_after_refuted), with a shared pool elements are destroyed while executed (C115_destroy_refuted), deletion without destroy deletes an element that is executed (C115_delete_refuted), and the next run executes an element twice at once (C115_next_refuted). Proved: everything as long as no element fails (C115_fine_partial); destroy with the own pool of the pipeline in every case (C115_own_destroy_partial); the topological and static engines and chains in every case (C115_others_partial, C115_static_over_partial). What a failed run leaves is limited: only elements start whose dependencies had all ended when run returned, the status stays (C115_left_partial), it is over after boundedly many steps and then run may be called again (C115_settles_partial); with independent elements at most one per thread starts (C115_parallel_left_partial)."),
    ("C116", "proved", ["C116_order", "C116_inside", "C116_no_overlap", "C116_success", "C116_reported", "C116_source"],
     "TreeModel: a tree of elements in which every group behaves as its own model says (engines: reachable states of StaticModel, DynModel, FastModel and the sequential engines, also after they have returned; sequences; parallel multi-conditions); a group and its children meet in the starts and ends of the children. A group that failed may leave children executing (see C115): therefore C116_inside has that exception, and C116_inside_nonvacuous shows that it happens. Not in this model: timeouts, some-groups, mutable groups, suspend and cancel."),
    ("C117", "proved", ["C117_same", "C117_reported", "C117_succeeds", "C117_deterministic", "C117_fresh", "C117_rounds"],
     "TreeModel (C116) with the programs of DataModel (C114) as bodies of the nodes. Here the executions of a loop are different elements with the same body, and a condition is the sequence of the child it chooses (choices are fixed). C117_succeeds and C117_deterministic are for groups without code of their own that fails. That unordered conflicts make the result depend on the schedule is C114."),
    ("C118", "proved", ["C118_effect", "C118_latest", "C118_exclusive"],
     "LockModel (C95), for all elements, phases and histories. The empty name (which sets the session) and null pointers are left out."),
    ("C119", "proved", ["C119_accepts", "C119_effect", "C119_program"],
     "RegModel (C90). Null group pointers (std::bad_typeid) are left out."),
    ("C120", "proved", ["C120_never_stuck", "C120_ends", "C120_returns", "C120_notifier"],
     "EventModel (C28). Triggers are functions that return and cannot notify (an event has no event manager); the pool executes what it holds."),
    ("C121", "proved", ["C121_alone", "C121_separate", "C121_one_place", "C121_bound", "C121_returns", "C121_rounds_exist"],
     "ShareModel: any number of dynamic engines (common path, DynModel) on one pool (PoolModel). As in C06 a failed run is followed by another one of the same pipeline only when its tasks are gone; as in C109 the pool is initialised, not being destroyed, and has a secondary thread if an element is bound to those. Runs from inside an element are left out."),
    ("C122", "partial", ["C122_order", "C122_asked_partial", "C122_belong", "C122_children_partial", "C122_shared_refuted", "C122_refused_refuted"],
     "False in two places: a refused call has entered the dependencies before the one that was refused (C122_refused_refuted, see C90), and an element put into two groups is listed by both and belongs to the second (C122_shared_refuted, see C104). Order and its two directions hold after every history (C122_order), membership implies being listed (C122_belong, also with the Python calls); the lists are exact if no call adding dependencies was refused (C122_asked_partial) and no element was given away twice (C122_children_partial)."),
    ("C123", "partial", ["C123_logged", "C123_order", "C123_call", "C123_return", "C123_status_partial", "C123_status_refuted", "C123_error_refuted"],
     "Dependencies order memory in every run, also a failing one (C123_order), the call happens before all elements (C123_call), all elements happen before a return without an error (C123_return). False once an element reports an error: the status is written under status_lock_ and read without it, among others by the return of run - a data race (C123_status_refuted; without errors there is none, C123_status_partial) - and nothing orders the failing element before the return (C123_error_refuted). The common path of the engine; C123_logged says that the log with the synchronisation follows the executions of C06."),
    ("C124", "partial", ["C124_progress_partial", "C124_bounded", "C124_returns_partial", "C124_refuted"],
     "Holds when fewer such elements notify with the run-finish strategy than the pool has threads (C124_progress_partial, C124_returns_partial; C124_bounded holds without that condition). False with as many, for every number of threads: all threads wait for the lock of the event that the caller of run holds while it waits for a trigger of that event still in the queue (C124_refuted: from there run never returns). C120 is about pools where a thread is always free."),
    ("C125", "partial", ["C125_static_logged", "C125_static_order", "C125_static_call", "C125_static_return", "C125_parallel_logged", "C125_parallel_call", "C125_parallel_return", "C125_parallel_status_partial", "C125_parallel_status_refuted", "C125_parallel_error_refuted"],
     "The static engine: proved in full. The parallel path: proved for runs that return OK; as long as no element reports an error the shared status is not raced on (C125_parallel_status_partial). With an error it is: the worker writes it under a lock that the waiting caller does not take (C125_parallel_status_refuted), and when run returns the error, what the failing element did need not be visible to the caller (C125_parallel_error_refuted). The serial path and the topological engine use one thread only. C123 is the same for the general path."),
    ("C126", "proved", ["C126_no_race", "C126_fifo", "C126_empty", "C126_full", "C126_enabled", "C126_lock"],
     "On the view machine of WmSpec (release, acquire and relaxed accesses; loads may return old values). C75 and C77 are the same under sequential consistency; several producers or consumers: C78. Simplified: stores go to the end of the modification order, which holds in this code (one thread stores to each index; the clear of the flag follows the test_and_set of its thread)."),
    ("C127", "partial", ["C127_commit", "C127_join", "C127_stopped", "C127_destroy_partial", "C127_flag_partial", "C127_flag_refuted", "C127_mark_refuted", "C127_destroy_refuted"],
     "The first three sentences up to visibility at destroy: proved. Visibility at the return of destroy is false for secondary threads that another thread took off before, in particular the monitor, since destroy does not take the mutex of their list; it holds if those joins happen before (C127_destroy_partial). The last sentence is false: done_ is a plain bool that the pool thread tests between tasks without lock while destroy, release or the monitor write it. C127_flag_partial: these tests, and destroy against other user threads, are the only races. Protocol: one user thread calls init and destroy, nobody else works on the list of secondary threads during destroy (C44)."),
    ("C128", "partial", ["C128_atomic_partial", "C128_delivery_partial", "C128_prepared_partial", "C128_locked_partial", "C128_live_partial", "C128_race_refuted", "C128_use_refuted"],
     "Refuted as stated: send and receive look the topic up without the mutex, so that a createTopic of any new topic at the same time is a data race (both orders of the accesses, in every history), and removeTopic deletes the message under a thread that is about to use it or waits in it. Proved: executions that stay defined are atomic and FIFO and stop only at empty or full topics; topics made beforehand may be used by any number of threads; making and removing alone is always defined. Sizes of at least two (C61)."),
    ("C129", "partial", ["C129_answered_partial", "C129_delivery_partial", "C129_order_partial", "C129_apart_partial", "C129_live_partial", "C129_order_refuted", "C129_race_refuted"],
     "Refuted as stated: publish and subscribe look up and loop without the mutex of bindTopic, so that a bind races with a publication to the same topic, with every receive and, when the topic is new, with every publication; and two publications that overlap reach two connections in different orders (from every quiet state with two connections). Proved for all executions that stay defined: every publication reaches each connection bound before it once, queues are FIFO and lose nothing with WAIT, publications one after the other arrive in order, threads stop only at full or empty connections; with binds done before (or on other known topics without receives) nothing is undefined. Sizes of at least two (C61)."),
    ("C130", "partial", ["C130_seen_partial", "C130_handed_partial", "C130_frozen_partial", "C130_reuse_refuted", "C130_shared_refuted"],
     "Refuted as stated: values are passed as shared pointers, so that a sender that uses its value again, and two subscribers of one publication of which one writes, race with the receiver (from every quiet state). Proved for all executions: all accesses of a buffer are ordered, what was done before a send happens before what follows the receive; a value that only its holder uses or sends on is never raced on, nor is one that is only read once it was sent or published."),
    ("C131", "partial", ["C131_alone_partial", "C131_plain_partial", "C131_returns_partial", "C131_again_refuted", "C131_config_refuted", "C131_use_refuted", "C131_flag_refuted"],
     "Refuted as stated: destroy does not end the monitor, so that from every reached state in which a watched pool is set up and idle, destroy and then init end the program (a thread is assigned to a joinable std::thread), whatever is configured in between if the pool is to be watched again; from every such state with a primary thread, wherever the monitor is, destroy may delete the thread that the monitor is looking at; and both flags that the monitor polls are plain bools that are raced on, by a first init and by the deletion. Proved for all interleavings: a pool never configured to have a monitor is safe for all sequences of calls; a pool that is never destroyed by its user is safe up to the end of its deletion, however configured; and that deletion returns within a bounded number of steps of the monitor, with all primary threads deleted."),
    ("C132", "partial", ["C132_turns_partial", "C132_starts_partial", "C132_stop_refuted", "C132_start_refuted", "C132_returned_refuted"],
     "Refuted as stated: a stop during a first start waits on an empty future (undefined); a start during a stop leaves two timer threads, and neither call returns unless somebody calls stop again; a stop that finds another one going on returns while the task is being executed. Proved: if the users take turns (any number of threads, no call before that of another has returned), no call is undefined, there is exactly one timer thread while the timer is started and none when it is stopped, and every call can return; and any number of concurrent calls of start alone make exactly one timer thread."),
    ("C133", "proved", ["C133_vector", "C133_matrix", "C133_seed", "C133_session"],
     "The engine and the distribution are an arbitrary function of range, seed and position that keeps to its range; numbers are integers (of floating-point numbers the integral part). That sessions differ is not claimed: it depends on the random device."),
]
