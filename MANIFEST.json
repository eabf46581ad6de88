{
 "claims": [
  {
   "property": "C01",
   "status": "proved",
   "theorems": [
    "C01_lazy_equals_eager"
   ],
   "note": "kept state; nodes with a single tuple/pair-valued dependency excluded (C19)"
  },
  {
   "property": "C02",
   "status": "proved",
   "theorems": [
    "C02_exact_effects"
   ],
   "note": "kept state; same exclusion"
  },
  {
   "property": "C03",
   "status": "proved",
   "theorems": [
    "C03_call_once"
   ],
   "note": "for arbitrary user functions; also says what happens when calls throw"
  },
  {
   "property": "C04",
   "status": "proved",
   "theorems": [
    "C04_creation_silent",
    "C04_creation_no_effect",
    "C04_creation_as_composed",
    "C04_copy_as_composed"
   ],
   "note": "the first two for the algorithm on kept state, the other two for the objects as composed"
  },
  {
   "property": "C05",
   "status": "proved",
   "theorems": [
    "C05_reevaluated_iff_changed"
   ],
   "note": ""
  },
  {
   "property": "C06",
   "status": "proved",
   "theorems": [
    "C06_first_call_evaluates_all",
    "C06_constants_never_again"
   ],
   "note": ""
  },
  {
   "property": "C07",
   "status": "proved",
   "theorems": [
    "C07_samples"
   ],
   "note": ""
  },
  {
   "property": "C08",
   "status": "proved",
   "theorems": [
    "C08_cutoff",
    "C08_evaluated_when_changed"
   ],
   "note": ""
  },
  {
   "property": "C09",
   "status": "proved",
   "theorems": [
    "C09_compares_after_evaluating",
    "C09_first_call_compares_nothing",
    "C11_performs"
   ],
   "note": ""
  },
  {
   "property": "C10",
   "status": "proved",
   "theorems": [
    "C10_change_flag",
    "C10_delivered"
   ],
   "note": ""
  },
  {
   "property": "C11",
   "status": "proved",
   "theorems": [
    "C11_at_most_once",
    "C11_performs"
   ],
   "note": ""
  },
  {
   "property": "C12",
   "status": "proved",
   "theorems": [
    "C12_void",
    "C08_cutoff"
   ],
   "note": ""
  },
  {
   "property": "C13",
   "status": "proved",
   "theorems": [
    "C13_copies_independent",
    "C13_others_untouched"
   ],
   "note": "the behavioural form assumes user functions do not write the outside world; the state form does not"
  },
  {
   "property": "C14",
   "status": "proved",
   "theorems": [
    "C14_exception",
    "C14_retry"
   ],
   "note": ""
  },
  {
   "property": "C15",
   "status": "partial",
   "theorems": [
    "C15_stale_after_exception_refuted",
    "C15_stale_after_dependency_exception_refuted",
    "C15_after_exception_partial",
    "C15_recovers_partial",
    "C15_until_next_exception_partial"
   ],
   "note": "false of the code: two witnesses; holds if failing calls fail only on wrapped functions never evaluated before, of every later call that runs all functions, and of all calls after such a call until the next one that throws; C62 says exactly what the others return; C94 says which changes make it hold"
  },
  {
   "property": "C16",
   "status": "proved",
   "theorems": [
    "C16_coarse_equality",
    "C16_without_respect_refuted"
   ],
   "note": ""
  },
  {
   "property": "C17",
   "status": "proved",
   "theorems": [
    "C17_unequal_sample_evaluates",
    "C17_unequal_node_evaluates",
    "C01_lazy_equals_eager"
   ],
   "note": "C01 does not assume reflexivity of =="
  },
  {
   "property": "C18",
   "status": "proved",
   "theorems": [
    "C18_classification"
   ],
   "note": ""
  },
  {
   "property": "C19",
   "status": "partial",
   "theorems": [
    "C19_one_argument_per_dependency_refuted",
    "C19_arguments_partial"
   ],
   "note": "false of the code for a single tuple/pair-valued dependency; proved otherwise; C94 has the change that makes it hold"
  },
  {
   "property": "C20",
   "status": "partial",
   "theorems": [
    "C20_shared_refuted",
    "C20_diamond_refuted",
    "C20_single_user_partial",
    "C20_exclusive_partial"
   ],
   "note": "false of the code with several users; with a single user sharing is the same as copying; variables whose dependencies have no other user are right, whatever the others share; C56 says what holds of the others; C95 and C96 are about designs of which it is true"
  },
  {
   "property": "C21",
   "status": "proved",
   "theorems": [
    "C21_repeat"
   ],
   "note": ""
  },
  {
   "property": "C22",
   "status": "proved",
   "theorems": [
    "C22_transform_in_order"
   ],
   "note": ""
  },
  {
   "property": "C23",
   "status": "proved",
   "theorems": [
    "C23_any_short_circuits",
    "C23_any_iff_some"
   ],
   "note": ""
  },
  {
   "property": "C24",
   "status": "proved",
   "theorems": [
    "C24_apply"
   ],
   "note": "tuples are element lists here; element access of compressed_tuple itself is C35"
  },
  {
   "property": "C25",
   "status": "proved",
   "theorems": [
    "C25_enumerate_pack",
    "C25_enumerate_n"
   ],
   "note": ""
  },
  {
   "property": "C26",
   "status": "proved",
   "theorems": [
    "C26_partition_stable"
   ],
   "note": ""
  },
  {
   "property": "C27",
   "status": "proved",
   "theorems": [
    "C27_overload_msvc"
   ],
   "note": ""
  },
  {
   "property": "C28",
   "status": "proved",
   "theorems": [
    "C28_forward_like"
   ],
   "note": ""
  },
  {
   "property": "C29",
   "status": "proved",
   "theorems": [
    "C29_get_value_element"
   ],
   "note": ""
  },
  {
   "property": "C30",
   "status": "proved",
   "theorems": [
    "C30_get_reference_element",
    "C30_get_like_std_iff"
   ],
   "note": "gives the exact result and exactly when it coincides with std::get; a volatile referred-to type is excluded"
  },
  {
   "property": "C31",
   "status": "proved",
   "theorems": [
    "C31_as_nonconst"
   ],
   "note": ""
  },
  {
   "property": "C32",
   "status": "proved",
   "theorems": [
    "C32_to_tuple",
    "C32_empty_element"
   ],
   "note": ""
  },
  {
   "property": "C33",
   "status": "proved",
   "theorems": [
    "C33_tuple_protocol"
   ],
   "note": ""
  },
  {
   "property": "C34",
   "status": "proved",
   "theorems": [
    "C34_recursive_passes_itself",
    "C34_recursive_otherwise"
   ],
   "note": ""
  },
  {
   "property": "C35",
   "status": "proved",
   "theorems": [
    "C35_tuple_histories"
   ],
   "note": ""
  },
  {
   "property": "C36",
   "status": "proved",
   "theorems": [
    "C36_compressed_tuple_empty",
    "C36_bind_tuple_empty",
    "C36_lazy_never_empty"
   ],
   "note": ""
  },
  {
   "property": "C37",
   "status": "proved",
   "theorems": [
    "C37_compressed_tuple_size",
    "C37_all_empty",
    "C37_empty_elements_free"
   ],
   "note": "layout rules of the common ABIs; every empty class occurs at most once"
  },
  {
   "property": "C38",
   "status": "proved",
   "theorems": [
    "C38_bind_back"
   ],
   "note": "bound arguments are distinct objects"
  },
  {
   "property": "C39",
   "status": "proved",
   "theorems": [
    "C39_shift_right"
   ],
   "note": "elements are distinct objects; values of an empty class have one value"
  },
  {
   "property": "C40",
   "status": "proved",
   "theorems": [
    "C40_shift_left"
   ],
   "note": "as C39; f returns by value"
  },
  {
   "property": "C41",
   "status": "partial",
   "theorems": [
    "C41_left_state_refuted",
    "C39_shift_right",
    "C40_shift_left"
   ],
   "note": "true of >> and of elements; false of << (witness): every call is made to a copy of f"
  },
  {
   "property": "C42",
   "status": "proved",
   "theorems": [
    "C42_lifetimes",
    "C38_bind_back",
    "C35_tuple_histories"
   ],
   "note": "a dead lvalue of an empty class, given as argument, is left open (reading it accesses no memory)"
  },
  {
   "property": "C43",
   "status": "proved",
   "theorems": [
    "C43_regularized",
    "C43_round_trip",
    "C43_unregularized",
    "C43_optional_void"
   ],
   "note": ""
  },
  {
   "property": "C44",
   "status": "proved",
   "theorems": [
    "C44_uncaptured_appended",
    "C44_tags_distinct"
   ],
   "note": ""
  },
  {
   "property": "C45",
   "status": "partial",
   "theorems": [
    "C45_remembers_refuted",
    "C53_void_calls"
   ],
   "note": "false of the code: witness; C53 says what happens for every tree of void functions"
  },
  {
   "property": "C46",
   "status": "partial",
   "theorems": [
    "C46_defined_refuted",
    "C52_exactly_when",
    "C53_void_calls"
   ],
   "note": "false of the code: witness; C52 says exactly when"
  },
  {
   "property": "C47",
   "status": "proved",
   "theorems": [
    "C47_calls_change_nothing",
    "C47_programs_from_scratch"
   ],
   "note": ""
  },
  {
   "property": "C48",
   "status": "proved",
   "theorems": [
    "C48_never_reads_empty_cache"
   ],
   "note": ""
  },
  {
   "property": "C49",
   "status": "proved",
   "theorems": [
    "C49_overload_versions_agree"
   ],
   "note": "overload resolution is abstracted to a viability test and an asymmetric better-match relation"
  },
  {
   "property": "C50",
   "status": "proved",
   "theorems": [
    "C50_lazy_size"
   ],
   "note": "layout rules as for C37"
  },
  {
   "property": "C51",
   "status": "proved",
   "theorems": [
    "C51_uncaptured_empty",
    "C51_uncaptured_free"
   ],
   "note": ""
  },
  {
   "property": "C52",
   "status": "proved",
   "theorems": [
    "C52_values_undefined",
    "C52_exactly_when"
   ],
   "note": ""
  },
  {
   "property": "C53",
   "status": "proved",
   "theorems": [
    "C53_void_calls"
   ],
   "note": ""
  },
  {
   "property": "C54",
   "status": "proved",
   "theorems": [
    "C54_algorithm",
    "C54_defined"
   ],
   "note": "about the library with one change (parameters by reference); functions that change themselves when called are outside the statement"
  },
  {
   "property": "C55",
   "status": "proved",
   "theorems": [
    "C55_exact_effects",
    "C55_reevaluated",
    "C55_repeat_refuted",
    "C55_nested_refuted"
   ],
   "note": "Part (1): C55_exact_effects gives all actions of every program (action_run of OptionalSpec.v, written without caches), C55_reevaluated when a function runs again; returned values: C01, whose conditions allow single optionals. C55_repeat_refuted and C55_nested_refuted are the two consequences that contradict what one expects (C21 and C01 for optionals)."
  },
  {
   "property": "C56",
   "status": "proved",
   "theorems": [
    "C56_real_inputs",
    "C56_completes"
   ],
   "note": ""
  },
  {
   "property": "C57",
   "status": "proved",
   "theorems": [
    "C57_view_histories",
    "C57_dangling"
   ],
   "note": ""
  },
  {
   "property": "C58",
   "status": "proved",
   "theorems": [
    "C58_result_lost",
    "C58_delivered_values",
    "C58_real_inputs",
    "C58_right_after_comparison_throws_refuted",
    "C58_reaches_caller",
    "C58_caches"
   ],
   "note": "Part (1): the first two theorems; then parts (2) to (5) in this order; part (3) is the refutation."
  },
  {
   "property": "C59",
   "status": "proved",
   "theorems": [
    "C59_dependencies_design",
    "C59_final_design",
    "C59_final_effects",
    "C59_double_calls",
    "C59_any_plain_function_refuted",
    "C59_dependencies_exceptions",
    "C59_same_after_exceptions_refuted"
   ],
   "note": "Part (1): C59_dependencies_design; (2): C59_final_design and, with exceptions and effects, C59_final_effects; (3): C59_double_calls, C59_any_plain_function_refuted; (4): the last two."
  },
  {
   "property": "C60",
   "status": "proved",
   "theorems": [
    "C60_footprint",
    "C60_at_least",
    "C60_sum",
    "C60_plain_function_refuted",
    "C60_cache"
   ],
   "note": "Parts (1) to (5) in this order."
  },
  {
   "property": "C61",
   "status": "proved",
   "theorems": [
    "C61_overload_size",
    "C61_empty",
    "C61_all_empty",
    "C61_empty_functions_free",
    "C61_versions",
    "C61_sum",
    "C61_sum_refuted"
   ],
   "note": "Part (1): the first theorem; (2): the next three; (3): C61_versions; (4): the last two."
  },
  {
   "property": "C62",
   "status": "proved",
   "theorems": [
    "C62_behaviour"
   ],
   "note": ""
  },
  {
   "property": "C63",
   "status": "proved",
   "theorems": [
    "C63_exact",
    "C63_one_moment",
    "C63_missed_change",
    "C63_undisturbed"
   ],
   "note": "Parts (1) to (4) in this order."
  },
  {
   "property": "C64",
   "status": "proved",
   "theorems": [
    "C64_equation",
    "C64_by_reference",
    "C64_by_value",
    "C64_ends",
    "C64_rvalue",
    "C64_rvalue_as_lvalue_refuted"
   ],
   "note": "recursive.h:10-34 at run time; bodies are arbitrary trees of reads, assignments, calls of self, with exceptions. (6) is an existence statement, part of the claim."
  },
  {
   "property": "C65",
   "status": "proved",
   "theorems": [
    "C65_bind_back",
    "C65_bind_back_lvalues",
    "C65_bind_back_function",
    "C65_binder",
    "C65_binder_lvalues",
    "C65_binder_type",
    "C65_binder_reads",
    "C65_tuples",
    "C65_std_tuples",
    "C65_viable_compiles_refuted",
    "C65_body_compiles_refuted",
    "C65_forwards_refuted",
    "C65_variables_refuted",
    "C65_const_binder_refuted",
    "C65_probe_refuted"
   ],
   "note": "The existence statements are part (4) of the claim."
  },
  {
   "property": "C66",
   "status": "proved",
   "theorems": [
    "C66_refs_are_values",
    "C66_refs_exact"
   ],
   "note": "std::reference_wrapper is modelled as an object with one reference that calls what it refers to."
  },
  {
   "property": "C67",
   "status": "proved",
   "theorems": [
    "C67_sharing",
    "C67_defined",
    "C67_single_user"
   ],
   "note": "about the library with one change (parameters by reference); functions that change themselves when called are outside the statement"
  },
  {
   "property": "C68",
   "status": "proved",
   "theorems": [
    "C68_same_value",
    "C68_composed"
   ],
   "note": "of the algorithm on kept, shared state, and of the composed library with parameters by reference"
  },
  {
   "property": "C69",
   "status": "proved",
   "theorems": [
    "C69_call_once",
    "C69_caching",
    "C69_lazy_places",
    "C69_flags",
    "C69_flags_printed"
   ],
   "note": "about the code printed in the documentation and the algorithm on kept state"
  },
  {
   "property": "C70",
   "status": "proved",
   "theorems": [
    "C70_extra_laziness",
    "C70_reactivity_as_written",
    "C70_reactivity_with_function"
   ],
   "note": "of the algorithm on kept state"
  },
  {
   "property": "C71",
   "status": "proved",
   "theorems": [
    "C71_sharing",
    "C71_minimal",
    "C71_by_reference_refuted"
   ],
   "note": "of the algorithm on kept state; C71_by_reference_refuted is the last sentence of the statement"
  },
  {
   "property": "C72",
   "status": "proved",
   "theorems": [
    "C72_ends",
    "C72_bound",
    "C72_stays",
    "C72_by_need",
    "C72_untracked_refuted",
    "C72_same_algorithm"
   ],
   "note": "of the algorithm on kept state; C72_untracked_refuted is part (4) of the statement"
  },
  {
   "property": "C73",
   "status": "proved",
   "theorems": [
    "C73_never_returns",
    "C73_previous",
    "C73_recursion",
    "C73_through_dependency",
    "C73_latest_arguments"
   ],
   "note": "of the algorithm on kept state; not returning: no number of calls under way is enough"
  },
  {
   "property": "C74",
   "status": "proved",
   "theorems": [
    "C74_state_kept",
    "C74_others_untouched",
    "C74_eager",
    "C74_without_state",
    "C74_composition"
   ],
   "note": "(1)-(4) of the algorithm on kept state, (5) of the rewired machine; the case beside C74_composition runs the code as written, too"
  },
  {
   "property": "C75",
   "status": "proved",
   "theorems": [
    "C75_subsumption",
    "C75_chain",
    "C75_resolution",
    "C75_ensure_lazy",
    "C75_own_types",
    "C75_accepted",
    "C75_called_refuted",
    "C75_usable_refuted",
    "C75_by_reference",
    "C75_trait_ambiguous",
    "C75_element"
   ],
   "note": "of the rules of the standard on constraints as modelled in Constraints.v; the two _refuted theorems are part (5) of the statement"
  },
  {
   "property": "C76",
   "status": "proved",
   "theorems": [
    "C76_one_thread",
    "C76_copy",
    "C76_separate",
    "C76_same_results",
    "C76_program",
    "C76_settled",
    "C76_settles",
    "C76_race",
    "C76_filled",
    "C76_once_refuted",
    "C76_outdated_refuted"
   ],
   "note": "of the algorithm on kept state; the two _refuted theorems are part (5) of the statement"
  },
  {
   "property": "C77",
   "status": "proved",
   "theorems": [
    "C77_moves_are_copies",
    "C77_trivial",
    "C77_defined",
    "C77_constants",
    "C77_recovers",
    "C77_rebuilt",
    "C77_moved_from_refuted"
   ],
   "note": "of the algorithm on kept state; the _refuted theorem is part (5) of the statement"
  },
  {
   "property": "C78",
   "status": "proved",
   "theorems": [
    "C78_paths",
    "C78_nodes",
    "C78_ladder",
    "C78_ladder_by_value"
   ],
   "note": "of the algorithm on kept state"
  },
  {
   "property": "C79",
   "status": "proved",
   "theorems": [
    "C79_valid",
    "C79_no_conflict",
    "C79_agrees",
    "C79_distinct",
    "C79_same_tuple",
    "C79_flat",
    "C79_nested",
    "C79_nested_without_names",
    "C79_empty_object"
   ],
   "note": "of the layout rules of the Itanium ABI as modelled in ClassLayout.v"
  },
  {
   "property": "C80",
   "status": "proved",
   "theorems": [
    "C80_lazy",
    "C80_sum",
    "C80_at_least",
    "C80_not_empty",
    "C80_pigro_types_refuted"
   ],
   "note": "of the layout rules of the Itanium ABI as modelled in ClassLayout.v; lambdas are told apart by their places and the types they are instantiated with"
  },
  {
   "property": "C81",
   "status": "proved",
   "theorems": [
    "C81_free",
    "C81_chain",
    "C81_sum",
    "C81_same_function_refuted",
    "C81_names",
    "C81_overload",
    "C81_overload_refuted"
   ],
   "note": "of the layout rules of the Itanium ABI as modelled in ClassLayout.v; ambiguity as in [class.member.lookup]"
  },
  {
   "property": "C82",
   "status": "proved",
   "theorems": [
    "C82_bind_constant",
    "C82_bind_tuple_refuted",
    "C82_identity",
    "C82_identity_stale_refuted",
    "C82_fusion"
   ],
   "note": "of the algorithm on kept state; the _refuted theorems show that the side conditions are needed"
  },
  {
   "property": "C83",
   "status": "proved",
   "theorems": [
    "C83_copy",
    "C83_assign",
    "C83_tuple",
    "C83_tuple_assign_refuted",
    "C83_bound",
    "C83_uncaptured",
    "C83_uncaptured_default",
    "C83_constructor"
   ],
   "note": "by the rules of the standard for closures and implicit special members, on the classes of ClassLazy.v; the _refuted theorem is part of (3)"
  },
  {
   "property": "C84",
   "status": "proved",
   "theorems": [
    "C84_reordered",
    "C84_reordered_throws_refuted",
    "C84_left_out",
    "C84_repeated"
   ],
   "note": "of the algorithm on kept state; the _refuted theorem shows that (1) needs functions that do not throw"
  },
  {
   "property": "C85",
   "status": "proved",
   "theorems": [
    "C85_unused",
    "C85_independent",
    "C85_history",
    "C85_swap",
    "C85_swap_effects_refuted"
   ],
   "note": "of the algorithm on kept state, dependencies by value (for sharing by std::ref see C63, C67); the _refuted theorem shows that (4) needs functions that do not modify the outside world"
  },
  {
   "property": "C86",
   "status": "proved",
   "theorems": [
    "C86_unused",
    "C86_independent",
    "C86_history",
    "C86_swap",
    "C86_swap_sharing_refuted",
    "C86_independent_sharing_refuted"
   ],
   "note": "of the algorithm on kept state with std::ref (SharedModel.v); the _refuted theorems are the last sentence of the property"
  },
  {
   "property": "C87",
   "status": "proved",
   "theorems": [
    "C87_related",
    "C87_related_shared",
    "C87_keys",
    "C87_argument",
    "C87_argument_shared",
    "C87_structure_refuted"
   ],
   "note": "of the algorithm on kept state, by value and with std::ref; the _refuted theorem is the last sentence of the property"
  },
  {
   "property": "C88",
   "status": "proved",
   "theorems": [
    "C88_coarser",
    "C88_without_respect_refuted"
   ],
   "note": "of the algorithm on kept state; the _refuted theorem is the last sentence of the property"
  },
  {
   "property": "C89",
   "status": "proved",
   "theorems": [
    "C89_sound",
    "C89_without_types",
    "C89_no_single_tuple",
    "C89_converted_refuted"
   ],
   "note": "of the algorithm on kept state; the _refuted theorem is the last sentence of the property"
  },
  {
   "property": "C90",
   "status": "proved",
   "theorems": [
    "C90_needed",
    "C90_fewest",
    "C90_read",
    "C90_recurring_refuted"
   ],
   "note": "of the algorithm on kept state; the _refuted theorem is the last sentence of the property"
  },
  {
   "property": "C91",
   "status": "proved",
   "theorems": [
    "C91_programs",
    "C91_one_call",
    "C91_one_thread",
    "C91_no_race",
    "C91_same_results",
    "C91_race"
   ],
   "note": "of the algorithm on kept state; assumes that each user function returns void always or never, as its type says"
  },
  {
   "property": "C92",
   "status": "proved",
   "theorems": [
    "C92_one_at_a_time",
    "C92_no_race",
    "C92_no_deadlock"
   ],
   "note": "of the algorithm on kept state; the mutex is the user's, pigro has none; assumes that each user function returns void always or never, as its type says, and does not lock the mutex itself"
  },
  {
   "property": "C93",
   "status": "proved",
   "theorems": [
    "C93_same_design",
    "C93_nothing_changed",
    "C93_any_call",
    "C93_library",
    "C93_never_more_refuted"
   ],
   "note": "of the algorithm on kept state and of the design in the documentation; stored values are those held by optionals, values passed as dependencies are kept by both besides"
  },
  {
   "property": "C94",
   "status": "proved",
   "theorems": [
    "C94_always_right",
    "C94_fewer_changes_refuted",
    "C94_no_changes",
    "C94_same_without_exceptions",
    "C94_exact_effects",
    "C94_at_most_once"
   ],
   "note": "of the algorithm on kept state; the changes are not in /repo, the refuted theorem is the second part of the statement"
  },
  {
   "property": "C95",
   "status": "proved",
   "theorems": [
    "C95_shared_up_to_date",
    "C95_with_exceptions",
    "C95_same_design",
    "C95_brings_up_to_date"
   ],
   "note": "of the design in the documentation, no single tuple-valued dependency"
  },
  {
   "property": "C96",
   "status": "proved",
   "theorems": [
    "C96_shared_up_to_date",
    "C96_with_exceptions",
    "C96_same_without_exceptions",
    "C96_brings_up_to_date"
   ],
   "note": "of the algorithm on kept state with a change that is not in /repo"
  },
  {
   "property": "C97",
   "status": "proved",
   "theorems": [
    "C97_settles"
   ],
   "note": "of the algorithm on kept state; C55_repeat_refuted shows that the condition on empty optionals is needed"
  }
 ]
}