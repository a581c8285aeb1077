{"claims":[
{"property":"C01","status":"proved","theorems":["C01_no_call_after_disconnect","C01_not_in_a_later_emission"],"note":"any number of threads, any client"},
{"property":"C02","status":"proved","theorems":["C02_single_thread_disconnect_is_final","C02_two_threads_refuted"],"note":"one thread; the same statement is refuted for two threads"},
{"property":"C03","status":"proved","theorems":["C03_disconnect_succeeds_once"],"note":""},
{"property":"C04","status":"proved","theorems":["C04_what_disconnect_takes_out","C04_exactly_its_own_slot","C04_gone_when_disconnect_returns","C04_only_once","C04_after_signal_disconnect_refuted"],"note":"the case after signal::disconnect(f) is refuted"},
{"property":"C05","status":"proved","theorems":["C05_connected_tells_the_truth","C05_false_is_final","C05_two_loads"],"note":"finality assumes that a tracked object exists when its slot is connected"},
{"property":"C06","status":"proved","theorems":["C06_list_follows_history"],"note":""},
{"property":"C07","status":"proved","theorems":["C07_emission_works_on_a_snapshot"],"note":"any combiner, any number of threads"},
{"property":"C08","status":"proved","theorems":["C08_result_is_the_last_value"],"note":""},
{"property":"C09","status":"proved","theorems":["C09_emission_trace","C09_every_slot_visited_once","C09_skipped_for_a_reason"],"note":""},
{"property":"C10","status":"proved","theorems":["C10_blocked_is_not_called","C10_single_thread"],"note":""},
{"property":"C11","status":"proved","theorems":["C11_blocked_reports_the_last_operation","C11_blockers_nest_refuted"],"note":""},
{"property":"C12","status":"proved","theorems":["C12_throw_ends_the_emission","C08_result_is_the_last_value","C12_end_of_an_emission_leaves_the_signal_alone"],"note":"any position of the throwing slot, any list"},
{"property":"C13","status":"proved","theorems":["C13_disconnect_f_from_outside","C13_exactly_the_equal_slots","C15_what_disconnect_f_does"],"note":"from outside when no other thread interferes; with other threads for the part of the call that C15_what_disconnect_f_does gives; running out of memory changes nothing"},
{"property":"C14","status":"proved","theorems":["C14_from_outside","C14_not_comparable_changes_nothing","C15_what_disconnect_f_does"],"note":""},
{"property":"C15","status":"proved","theorems":["C15_what_disconnect_f_does","C15_from_outside","C15_list_is_what_the_log_says","C15_mutex_is_released","C15_strong_guarantee_refuted"],"note":"the strong guarantee is refuted"},
{"property":"C16","status":"proved","theorems":["C16_from_outside","C16_other_types_stay","C16_only_the_same_type","C15_what_disconnect_f_does","C16_equal_functors_are_gone_refuted"],"note":""},
{"property":"C17","status":"proved","theorems":["C17_from_outside","C17_tracked_slots_are_not_comparable","C15_what_disconnect_f_does"],"note":"stated for any pointer type without operator=="},
{"property":"C18","status":"proved","theorems":["C18_never_called_on_a_dead_object"],"note":""},
{"property":"C19","status":"proved","theorems":["C19_tracking_does_not_keep_alive","C19_held_object_is_alive"],"note":""},
{"property":"C20","status":"proved","theorems":["C20_expired_slots_stay"],"note":""},
{"property":"C21","status":"proved","theorems":["C21_destructor_disconnects","C21_disconnect_done_when_it_returns","C21_no_call_afterwards"],"note":""},
{"property":"C22","status":"proved","theorems":["C22_moving_and_releasing_empty_the_source","C22_move_assignment_to_an_empty_one","C22_move_assignment_disconnects_first","C22_move_assignment_ends","C22_an_emptied_one_disconnects_nothing"],"note":""},
{"property":"C23","status":"proved","theorems":["C23_plain_connections_own_nothing"],"note":""},
{"property":"C24","status":"proved","theorems":["C24_slots_die_with_the_signal","C24_list_dies_with_the_signal","C24_handles_of_destroyed_slots","C24_entering_a_destroyed_signal_is_undefined","C24_during_an_emission_refuted","C24_during_a_query_refuted"],"note":"the cases during an emission and during a query are refuted"},
{"property":"C25","status":"proved","theorems":["C25_emission_code_never_goes_wrong","C25_default_combiner_stays_in_range"],"note":"the results of C08 and C09 hold for such emissions too"},
{"property":"C26","status":"proved","theorems":["C26_move_takes_the_slots","C26_moved_from_use_is_undefined","C26_move_assignment_is_undefined","C26_handles_and_source_after_move_refuted"],"note":""},
{"property":"C27","status":"proved","theorems":["C27_no_list_changes_under_an_emission","C27_list_changes_only_under_the_mutex"],"note":""},
{"property":"C28","status":"proved","theorems":["C28_no_self_deadlock","C28_waits_for_a_running_thread","C28_no_deadlock","C28_no_hold_and_wait","C28_operator_eq_refuted","C28_destructor_refuted","C28_two_threads_refuted"],"note":"Deadlock freedom for all programs, threads and interleavings when operator== and functor destructors take no mutex; three refuted variants otherwise."},
{"property":"C29","status":"proved","theorems":["C29_mutex_held_only_inside","C29_no_mutex_held_in_callbacks"],"note":""},
{"property":"C30","status":"proved","theorems":["C30_causes","C30_only_client_faults","C30_blameless_clients_are_safe","C30_faults_are_undefined"],"note":"Every undefined behaviour of the machine is traced to a listed fault of the client; a concrete re-entrant client is shown to be free of faults under every allocation failure."},
{"property":"C31","status":"proved","theorems":["C31_when_connect_throws","C31_when_connect_returns","C31_nothing_else","C31_the_handle"],"note":""},
{"property":"C32","status":"proved","theorems":["C32_arguments_of_a_call","C32_same_arguments_for_every_slot_refuted"],"note":""},
{"property":"C33","status":"proved","theorems":["C33_emission_runs_the_combiner"],"note":""},
{"property":"C34","status":"proved","theorems":["C34_connect_copies","C34_the_slot_in_the_list","C34_the_slot_object","C34_empty_slots_are_undefined","C34_connecting_an_empty_slot_refuted"],"note":"connecting an empty slot is refuted"},
{"property":"C35","status":"proved","theorems":["C35_slot_disconnect_does_nothing"],"note":""},
{"property":"C36","status":"proved","theorems":["C36_what_equality_returns","C36_as_a_function","C36_reflexive","C36_symmetric","C36_transitive","C36_when_it_throws"],"note":"reflexive except where it throws; operator!= is the negation by definition and not a separate operation of the model"},
{"property":"C37","status":"proved","theorems":["C37_two_connects_two_slots","C37_slots_are_independent","C37_only_through_its_own_handle","C31_when_connect_returns","C09_every_slot_visited_once"],"note":"one call per emission and slot is C09"},
{"property":"C38","status":"proved","theorems":["C38_only_a_section_of_the_signal_changes_its_list","C38_sections_belong_to_the_operation"],"note":""},
{"property":"C39","status":"proved","theorems":["C39_signals_are_never_blocked","C39_emissions_always_start"],"note":""},
{"property":"C40","status":"proved","theorems":["C40_functor_state_belongs_to_the_slot"],"note":""},
{"property":"C41","status":"proved","theorems":["C41_destroyed_once_and_never_while_called"],"note":""},
{"property":"C42","status":"proved","theorems":["C42_value_semantics","C42_exceptions_change_nothing","C42_kept_references","C42_kept_references_after_a_copy_refuted","C42_undefined_exactly_when"],"note":"Variables of cow_ptr behave like independent values; a mutable reference kept across a copy breaks this, shown by a refutation."},
{"property":"C43","status":"proved","theorems":["C43_write_copies_exactly_when_shared","C43_nothing_else_copies","C43_equality_is_identity","C43_a_copy_is_the_same_object","C43_the_same_until_touched"],"note":"When cow_ptr copies the payload and what its equality observes."},
{"property":"C44","status":"proved","theorems":["C44_behaves_like_an_option","C44_no_invented_exceptions","C44_undefined_only_by_misuse","C44_exact"],"note":"optional_base and optional<T> over objects with identity and a throwing T; moved-from optionals stay engaged"},
{"property":"C45","status":"proved","theorems":["C45_lives","C45_no_leak"],"note":""},
{"property":"C46","status":"proved","theorems":["C46_after_an_exception","C46_swap_keeps_engagement_refuted","C46_scalar_emplace_refuted"],"note":"holds for the general representation except that a throwing swap can lose a value; the emplace guarantee is false of the scalar representation"},
{"property":"C47","status":"proved","theorems":["C47_scalar_representation","C47_with_exceptions_refuted"],"note":"equal as long as nothing throws; a throwing emplace argument separates them"},
{"property":"C48","status":"proved","theorems":["C48_operators_agree_with_one_order","C48_the_order_is_total","C48_disengaged_is_least","C48_without_an_order","C48_partial_orders_refuted","C48_with_a_value","C48_between_engaged_optionals"],"note":"All relational operators of optional agree with one order when T's operators do; for partial orders the mixed operators disagree, shown by a refutation."},
{"property":"C49","status":"proved","theorems":["C49_answers","C49_undefined_only_by_misuse","C49_rebinding_never_writes","C49_copies_alias"],"note":""},
{"property":"C50","status":"proved","theorems":["C50_never_engaged","C50_undefined_only_by_misuse","C50_slots_of_a_void_signal","C50_combiners_of_a_void_signal","C50_emission_of_a_void_signal"],"note":""},
{"property":"C51","status":"proved","theorems":["C51_index_sequence","C51_index_sequence_size","C51_unpacking_passes_every_argument_once"],"note":"index_sequence_for and the unpacking it drives."},
{"property":"C52","status":"proved","theorems":["C52_every_call_has_its_events","C52_disconnect","C52_scoped","C52_queries","C52_blocking","C52_emission","C52_slot_call","C52_functor_state","C52_new_signal","C52_move_signal"],"note":"Results of calls against the events logged by the steps of the call itself (call_log), excluding client code it runs and other threads."},
{"property":"C53","status":"proved","theorems":["C53_operations_on_handles","C53_copy_assignment_to_a_scoped_one_starts","C53_moving_a_plain_one_to_a_scoped_one_starts","C53_assignment_to_a_scoped_one_ends","C53_slot_object_connected"],"note":"Each operation is compared with a table of what it writes and returns (SpecHandle.handle_op). Assignment to a scoped connection that refers to a slot takes several steps; its first and last steps are given separately, C52_scoped covers the disconnect between them."},
{"property":"C54","status":"proved","theorems":["C54_tested_again_with_the_object_held","C54_every_call_comes_from_there"],"note":"The step into the state from which the function is called is taken only with the flag set and the object held; calls are logged only from that state. Slots owned by a signal; a client's own slot object runs the same code."},
{"property":"C55","status":"proved","theorems":["C55_library_runs_are_bounded"],"note":"The bound 8 is reached (example). Steps are those of the model; each covers a bounded piece of code. Combiners and the comparison of two slots count as client code. The walk of erase over the list makes one comparison per element."},
{"property":"C56","status":"proved","theorems":["C56_running_out_of_memory"],"note":"The model distinguishes failure to make the object from failure to allocate the control block."},
{"property":"C57","status":"proved","theorems":["C57_maximum_value","C57_max_or_default","C57_aggregate_values"],"note":"The combiners are written as client programs over a model of slot_iterator; operator> of optional is that of OptRel.v. Elements of T are named by integers, with an arbitrary comparison."},
{"property":"C58","status":"proved","theorems":["C58_runs_have_actions","C58_writes_come_first","C58_destroyed_last","C58_only_race","C58_no_race_refuted","C58_no_race_if_use_count_acquires"],"note":"The memory accesses of each step are part of the model (Access.v). The code does have a data race: see C58_no_race_refuted."},
{"property":"C59","status":"proved","theorems":["C59_is_invocable","C59_invoke_helper","C59_invoke_helper_temporary_refuted","C59_connect_member","C59_connect_pointer","C59_connect_object","C59_weak_ptr_rejected","C59_invocable_is_accepted_refuted","C59_usable_is_accepted_refuted","C59_connect_first_argument","C59_connect_function","C59_disconnect_function","C59_connect_disconnect_agree","C59_connected_can_be_disconnected_refuted","C59_disconnected_can_be_connected_refuted","C59_converted_results_refuted","C59_plain_results"],"note":"A model of its own, of types instead of values. The _refuted theorems show that passing the constraint does not imply compiling, nor the reverse, that invoke_helper fails for temporaries (before C++23), that results which need a user-defined conversion to R pass the constraints and do not compile, and that connect and disconnect accept different functions."},
{"property":"C60","status":"proved","theorems":["C60_alive_while_owned","C60_destructors_run_where_the_slot_was_given_up","C60_a_query_owns_its_slot"],"note":""},
{"property":"C61","status":"proved","theorems":["C61_as_if_alone","C61_undefined_alone","C61_everything_finishes","C61_loops_end","C61_a_loop_calls_every_slot","C61_loops_are_defined","C61_no_call_is_lost"],"note":""},
{"property":"C62","status":"proved","theorems":["C62_the_tests_pass","C62_the_examples_print_what_is_promised","C62_the_cow_tests_pass","C62_the_threaded_test_passes","C62_the_threaded_test_finishes","C62_crossed_emissions_add_up","C62_the_crossed_test_passes","C62_the_crossed_test_finishes"],"note":"26 tests, 14 examples, 2 tests of cow_ptr, and InvokeThreaded and ThreadedCrossed for every interleaving. ThreadedConnect is not transcribed."},
{"property":"C63","status":"proved","theorems":["C63_threads_do_what_they_mean","C63_meanings_are_carried_out","C63_meanings_are_unique","C63_meanings_are_defined","C63_meanings_are_finished","C63_the_default_combiner"],"note":""},
{"property":"C64","status":"proved","theorems":["C64_tidy_clients_are_safe","C64_tidy_clients_go_on","C64_tidy_clients_that_lock","C64_tidy_programs_may_begin","C64_threaded_connect"],"note":"The rules are the definition tidy in SpecTidy.v; settled says in which states threads may begin. Moving a signal is excluded, because its slots keep pointing to the old object. Shared locations stand for data that callables refer to; connections, blockers and slots stay with the code that made them, so passing a connection to another thread is outside the rules except at the start of the threads."},
{"property":"C65","status":"proved","theorems":["C65_no_endless_run","C65_fair_schedules_finish","C65_tidy_clients_finish","C65_threaded_connect_ends"],"note":"Recursion through signals goes to smaller arguments (measure mu); operator== and destructors lock no signal; combiners do not emit. Client code itself always returns (programs are finite trees)."},
{"property":"C66","status":"proved","theorems":["C66_listed_slots_are_connected","C66_connected_slots_are_listed","C66_list_at_rest","C66_scoped_connections_gone","C66_scoped_slots_disconnected","C66_scoped_clients_leave_nothing","C66_lists_empty","C66_threaded_connect_leaves_nothing","C66_one_thread","C66_one_thread_at_rest"],"note":"The exceptions (a slot object whose flag was clear, a tracked object that died in the course of a call) are real with several threads: a tracked object that dies between the check and the lock of one call leaves a slot that its connection cannot remove (examples). With one thread there are none. signal::disconnect(f) is excluded in one direction because it leaves flags set."},
{"property":"C67","status":"proved","theorems":["C67_calls_of_a_thread","C67_alone","C67_all_threads","C67_first_part_of_test","C67_second_part_of_test"],"note":"For the client of the test ThreadedConnect with arbitrary numbers of threads, rounds and emissions; memory failures make a thread end early, which the hypotheses on the outcome exclude."},
{"property":"C68","status":"proved","theorems":["C68_when_an_object_is_destroyed","C68_destroyed_at_most_once","C68_not_called_back","C68_no_mutex_held","C68_destructor_under_the_mutex_refuted"],"note":"who destroys a tracked object and when; at most once; never called back; no mutex held if operator== and functor destructors leave the library alone; the refuted theorem shows erase-by-function running the destructor under the mutex. That the destructor starts at once in the same thread is C60."},
{"property":"C69","status":"proved","theorems":["C69_runs_have_actions","C69_log_has_actions","C69_one_life","C69_made_before_used","C69_destroyed_with_the_list_after_all_uses","C69_destroyed_after_all_uses_refuted","C69_only_race","C69_no_race_if_use_count_acquires"],"note":"The claim that every use of a slot happens before its destruction is false for disconnected slots and refuted by a run; proved for slots destroyed with their list, and for all slots if use_count() acquired. Every event about a slot goes with the actions it should have (C69_log_has_actions)."},
{"property":"C70","status":"proved","theorems":["C70_runs_have_actions","C70_log_has_actions","C70_calls_are_uses","C70_one_life","C70_used_before_destroyed","C70_made_before_used","C70_only_race"],"note":"A call may use its object in every step from its beginning to its return. Hypothesis of C70_made_before_used and C70_only_race: slots that track an object are connected after it was made (the client needs the pointer). Every event about an object goes with the actions it should have (C70_log_has_actions)."},
{"property":"C71","status":"proved","theorems":["C71_history_is_sequential","C71_table_in_memory","C71_objects_in_memory","C71_disconnect_acts_once","C71_query_acts_once","C71_block_acts_once","C71_connect_acts_once","C71_connect_throws","C71_acts_within_call","C71_real_time_order","C71_acts_belong_to_calls","C71_one_call"],"note":"The acts of the log are a run of a sequential object whose state is what is in memory; every call about a slot performs one of them between its beginning and its end, in real-time order, and every act belongs to a call. A query is one step of the model; C05_two_loads covers two loads."},
{"property":"C72","status":"proved","theorems":["C72_who_waits","C72_others_never_wait","C72_slot_functions_delay_nobody","C72_sections_are_short","C72_sections_do_not_wait"],"note":"steps are those of the model: copying a list of slots is one step; the length of disconnect(f) as a whole depends on the client's operator=="},
{"property":"C73","status":"proved","theorems":["C73_lists_are_sequential","C73_lists_in_memory","C73_signal_calls_act_once","C73_disconnect_acts_once","C73_acts_belong_to_calls","C73_real_time_order"],"note":"move assignment of signals does not return (undefined, C26), so it is not among the acts; which slot disconnect takes out is the subject of C04, which slots disconnect(f) takes out that of C13"},
{"property":"C74","status":"proved","theorems":["C74_copies_only_under_emissions","C74_lists_not_shared","C74_what_terminates","C74_at_most_one_per_call","C74_others_make_none","C74_every_call_is_counted"],"note":"Copies, sharing and termination; counts per call. Assumes sequentially consistent steps as everywhere in the model."},
{"property":"C75","status":"proved","theorems":["C75_direct","C75_implicit","C75_assign","C75_never_ambiguous","C75_only_rvalues_are_moved","C75_nested","C75_implicit_is_direct","C75_assign_is_implicit","C75_user_conversions","C75_no_implicit_conversion"],"note":"Overload resolution as restated in OverModel.v; no derived classes, braced lists, volatile or conversion functions to optional."},
{"property":"C76","status":"proved","theorems":["C76_constructed","C76_emplaced","C76_assigned","C76_never_a_temporary","C76_lvalues_only","C76_objects_not_assigned","C76_never_ambiguous"],"note":"Overload resolution as restated in OverModel.v and OverRefModel.v; T is an object type; no conversion functions to references, no braced lists."},
{"property":"C77","status":"proved","theorems":["C77_constructed","C77_assigned","C77_emplaced","C77_objects"],"note":"Overload resolution as restated in OverModel.v and OverVoidModel.v; no class of the client converts to optional<void> or nullopt_t."},
{"property":"C78","status":"proved","theorems":["C78_of_two_arguments","C78_connecting_a_slot","C78_of_a_callable","C78_of_a_slot","C78_copies_refuted","C78_copying_recurses","C78_copying_ends","C78_others_end"],"note":"That copying a slot copies it is refuted for non-const lvalues and const rvalues; the rest is proved. Overload resolution as restated in OverModel.v and OverSlotModel.v; that the recursive constructor compiles is taken for granted."},
{"property":"C79","status":"proved","theorems":["C79_slots","C79_callables","C79_connecting_a_slot","C79_connecting_a_callable","C79_disconnecting_a_callable","C79_disconnecting_a_slot"],"note":"The overloads with one argument. Overload resolution as restated in OverModel.v, OverSlotModel.v and OverConnModel.v."},
{"property":"C80","status":"proved","theorems":["C80_connections","C80_new_scoped_connections","C80_assigned_scoped_connections","C80_scoped_not_copied","C80_scoped_to_connection","C80_never_ambiguous"],"note":"Overload resolution as restated in OverModel.v and OverHandModel.v; what the chosen functions do when run is C53 and C21."}
]}
