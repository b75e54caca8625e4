{
 "claims": [
  {
   "property": "C01",
   "status": "proved",
   "theorems": [
    "C01_merge_preserves_invariant",
    "C01_merge_object_lookup",
    "C01_null_erases_nothing",
    "C01_lists_keep_length",
    "C01_untouched_data_is_kept",
    "C01_merge_is_union_of_facts"
   ],
   "note": "deep_merge on well-formed trees; no bound on size or depth."
  },
  {
   "property": "C02",
   "status": "proved",
   "theorems": [
    "C02_arrival_order_irrelevant",
    "C02_merge_idempotent"
   ],
   "note": "Any permutation of mutually agreeing responses; idempotence."
  },
  {
   "property": "C03",
   "status": "proved",
   "theorems": [
    "C03_members_are_the_applicable_selections",
    "C03_shown_means_selected",
    "C03_keys_are_unique",
    "C03_unselected_data_is_irrelevant",
    "C03_type_of_an_object"
   ],
   "note": "At every level the shown members are the applicable selections in order; unselected data cannot influence a byte; key uniqueness from guard-disjoint plans."
  },
  {
   "property": "C04",
   "status": "proved",
   "theorems": [
    "C04_response_is_the_completed_tree",
    "C04_completion_is_deterministic",
    "C04_projection_appends",
    "C04_no_null_in_non_null_member",
    "C04_enum_errors_are_reported"
   ],
   "note": "Byte buffer with truncation equals value completion with null propagation, for every plan, tree and list/non-null nesting."
  },
  {
   "property": "C05",
   "status": "partial",
   "theorems": [
    "C05_string_writer_is_exact_and_in_bounds",
    "C05_strings_decode_back",
    "C05_no_raw_control_characters",
    "C05_values_decode_back",
    "C05_response_decodes_to_the_tree",
    "C05_typename_is_escaped_refuted"
   ],
   "note": "String writer exact and in bounds; values and whole responses decode back when keys and type names need no escaping. Refuted for __typename taken from subgraph data, which is written unescaped."
  },
  {
   "property": "C06",
   "status": "proved",
   "theorems": [
    "C06_executed_operation_is_allowed",
    "C06_nothing_is_added"
   ],
   "note": "From schema directives and token scopes to every active field of the executed operation, through interner, subtree shortcut, filter, trie and rebuild."
  },
  {
   "property": "C07",
   "status": "partial",
   "theorems": [
    "C07_fully_allowed_operation_is_unchanged",
    "C07_leaves_are_kept_unless_nulled",
    "C07_propagation_has_a_cause",
    "C07_errors_name_the_denied_selections",
    "C07_used_variables_stay_declared",
    "C07_authorized_parent_kept_refuted"
   ],
   "note": "Leaves are kept exactly unless denied, in a denied fragment or lost to propagation; errors are exact. Refuted for objects: an authorized object whose whole selection is removed is removed too."
  },
  {
   "property": "C08",
   "status": "proved",
   "theorems": [
    "C08_unauthorized_selection_rejects",
    "C08_rejection_has_a_cause",
    "C08_reject_mode_never_rewrites",
    "C08_filter_mode_never_rejects"
   ],
   "note": "Fields known to the schema; fragments whose type condition is the parent or one of its possible or field types (normalization removes widening fragments)."
  },
  {
   "property": "C09",
   "status": "partial",
   "theorems": [
    "C09_marked_selections_are_nulled",
    "C09_denied_fields_are_null_partial",
    "C09_denied_fields_are_null_refuted"
   ],
   "note": "Plan nulling is exact for paths in terms of the plan's guards; for operations without fragments, end to end from the authorization rules to the projected tree, a denied field is null for all data. Refuted with fragments (three ways, with examples)."
  },
  {
   "property": "C10",
   "status": "proved",
   "theorems": [
    "C10_type_rule_is_evaluated_as_written",
    "C10_field_rule_is_evaluated_as_written",
    "C10_shortcut_is_exact",
    "C10_more_scopes_never_lose_access",
    "C10_unauthenticated_is_refused",
    "C10_metadata_search_terminates"
   ],
   "note": "All directive lists, scope sets and schemas; interning and the subtree shortcut do not change any verdict."
  },
  {
   "property": "C11",
   "status": "partial",
   "theorems": [
    "C11_fragment_free_structure_is_unambiguous_partial",
    "C11_inline_fragment_end_refuted",
    "C11_null_and_string_literal_refuted",
    "C11_variable_and_string_literal_refuted",
    "C11_nested_values_refuted"
   ],
   "note": "Proved for operations without inline fragments up to argument hashes; refuted in general for every hash function (fragment ends, null/string/enum/variable literals, nested lists and input objects)."
  },
  {
   "property": "C12",
   "status": "partial",
   "theorems": [
    "C12_same_side_same_decisions",
    "C12_stable_context",
    "C12_same_side_same_entry",
    "C12_routed_differently_cached_apart",
    "C12_cache_is_invisible",
    "C12_empty_operation_history_refuted",
    "C12_routing",
    "C12_exactly_one_serves",
    "C12_union_field_routing_refuted",
    "C12_provides_field_routing_refuted",
    "C12_hundred_percent_refuted",
    "C12_active_labels",
    "C12_labels_fail",
    "C12_graph_is_built"
   ],
   "note": "All supergraphs, label sets and percentages: equal sides give equal decisions for every edge, the stable context is exactly the side, and the cache with evictions is invisible; the part about separate entries assumes the 64-bit hash tells the two keys apart. Routing agrees with the override rules for fields of non-union types. Refuted: union fields, fields with provides, percent(100), and the cached answer for an operation that asks for nothing."
  },
  {
   "property": "C13",
   "status": "partial",
   "theorems": [
    "C13_results_are_fresh_and_own",
    "C13_queries_get_later_results",
    "C13_failures_are_own",
    "C13_one_call_per_cell",
    "C13_followers_are_never_stuck",
    "C13_streams_in_time_refuted",
    "C13_single_flight_refuted"
   ],
   "note": "All interleavings with cancellation anywhere: results are from a call for the same key not completed when the request arrived, failures are own, followers are never stuck. Refuted: a stream that has just ended can be joined; after a failure several calls of one key can be in flight."
  },
  {
   "property": "C14",
   "status": "partial",
   "theorems": [
    "C14_shared_requests_agree",
    "C14_shared_headers_agree_partial",
    "C14_shares_iff_enabled",
    "C14_repeated_headers_refuted",
    "C14_opaque_headers_refuted",
    "C14_plugin_flag_refuted"
   ],
   "note": "All requests, under the hypothesis that the hash tells the two byte streams apart: method, resource, body and the last printable value of each header agree; all headers for requests without repeated or non-ASCII values. Refuted: repeated headers and non-ASCII values are ignored; the plugin flag is inverted."
  },
  {
   "property": "C15",
   "status": "partial",
   "theorems": [
    "C15_equal_streams_mean_equal_representations_partial",
    "C15_equal_streams_of_one_type_partial",
    "C15_value_streams_are_prefix_free",
    "C15_kinds_of_values_refuted",
    "C15_nested_lists_refuted",
    "C15_interface_type_names_refuted"
   ],
   "note": "Equal hash streams mean equal representations for entities of the same shape. Refuted across value kinds, nested list bounds and interface type names. The 64-bit hash itself is not modelled."
  },
  {
   "property": "C16",
   "status": "proved",
   "theorems": [
    "C16_every_entity_gets_its_own_answer",
    "C16_nothing_to_fetch"
   ],
   "note": "Flatten fetches: numbering of representations, placement of answers and errors; equal hashes are assumed to mean equal representations (C15), and the path must denote the same positions when the answer arrives."
  },
  {
   "property": "C17",
   "status": "partial",
   "theorems": [
    "C17_mask_exact",
    "C17_read_errors_wf",
    "C17_fetch_errors_conform_partial",
    "C17_failures_conform",
    "C17_one_for_one",
    "C17_event_parts",
    "C17_mask_idempotent",
    "C17_own_errors_kept",
    "C17_claimed_service_refuted",
    "C17_event_errors_refuted"
   ],
   "note": "All errors and configurations: a tagged error becomes exactly what the policy of its tag says, the reading of extensions cannot smuggle field names, failures of fetches conform, masking is idempotent. Refuted: a subgraph may send another subgraph's name; errors inside subscription events are not tagged and pass unmasked."
  },
  {
   "property": "C18",
   "status": "partial",
   "theorems": [
    "C18_no_error_is_lost",
    "C18_errors_are_relocated",
    "C18_without_entities",
    "C18_internal_path_leaks_refuted"
   ],
   "note": "Relocation is proved for every index map and for flatten and batch fetches; refuted when the response has no entity list, where the internal path is reported."
  },
  {
   "property": "C19",
   "status": "partial",
   "theorems": [
    "C19_requests_keep_hop_by_hop_out_partial",
    "C19_request_rename_refuted",
    "C19_responses_keep_hop_by_hop_out_partial",
    "C19_response_rename_refuted"
   ],
   "note": "Proved for every rule list whose rename target is not itself a forbidden header; the remaining case is refuted (C19_*_rename_refuted): the deny check looks at the source name only."
  },
  {
   "property": "C20",
   "status": "proved",
   "theorems": [
    "C20_aggregation_strategy",
    "C20_emission_succeeds",
    "C20_nothing_held_is_dropped"
   ],
   "note": "Single named propagation rule fully characterised; for arbitrary rule lists emission never fails or drops what is held."
  },
  {
   "property": "C21",
   "status": "partial",
   "theorems": [
    "C21_order_independent",
    "C21_errors_and_mutations_not_cacheable",
    "C21_result_exists_partial",
    "C21_forbidding_wins_partial",
    "C21_public_is_unanimous_partial",
    "C21_max_age_is_a_lower_bound_partial",
    "C21_must_revalidate_is_kept_partial",
    "C21_other_headers_untouched",
    "C21_unknown_directive_drops_restriction_refuted",
    "C21_second_line_ignored_refuted",
    "C21_double_rule_hides_silent_subgraph_refuted",
    "C21_repeated_max_age_refuted"
   ],
   "note": "Proved for headers made of known directives; order independence for all headers. Refuted in general: unknown directives, second header line, double propagation, repeated max-age."
  },
  {
   "property": "C22",
   "status": "partial",
   "theorems": [
    "C22_echo_iff_admitted",
    "C22_admitted_headers_partial",
    "C22_governed_unique",
    "C22_vary_partial",
    "C22_rejected",
    "C22_preflight_partial",
    "C22_preflight_rejected",
    "C22_no_origin",
    "C22_off",
    "C22_null_origin_refuted",
    "C22_rejected_vary_refuted",
    "C22_credentials_refuted",
    "C22_vary_lines_refuted"
   ],
   "note": "admitted/rejected decision exact; documented inheritance exact except policy-level allow_credentials:false; Vary exact for one printable Vary line; refuted: opaque origin null, Vary on rejected origins, credentials override, several Vary lines"
  },
  {
   "property": "C23",
   "status": "partial",
   "theorems": [
    "C23_no_simple_request_passes",
    "C23_preflighted_passes_partial",
    "C23_required_header_passes",
    "C23_no_required_headers_refuted",
    "C23_prefix_refuted"
   ],
   "note": "soundness proved when required headers are configured; refuted for an empty list and for over-rejection by prefix"
  },
  {
   "property": "C24",
   "status": "partial",
   "theorems": [
    "C24_collects_declared",
    "C24_default_values",
    "C24_accepted_conform_partial",
    "C24_conforming_accepted_partial",
    "C24_input_object_refuted",
    "C24_int_width_refuted",
    "C24_id_integer_refuted"
   ],
   "note": "collection of declared variables exact; conformance both ways for scalar and enum types up to Int width; refuted for input objects, Int width and integer IDs"
  },
  {
   "property": "C25",
   "status": "partial",
   "theorems": [
    "C25_normalization",
    "C25_authorization",
    "C25_projection",
    "C25_execution",
    "C25_condition_variables_are_defined",
    "C25_actual_cost",
    "C25_estimated_cost",
    "C25_undefined_variable_refuted"
   ],
   "note": "Normalization, authorization filter, plan execution, projection and field costs all agree with the specification's notion of an active selection, for variables that have a value. Without a value the plan disagrees (C25_undefined_variable_refuted); valid operations do not get there (C25_condition_variables_are_defined)."
  },
  {
   "property": "C26",
   "status": "partial",
   "theorems": [
    "C26_estimate_is_cost",
    "C26_estimate_exists",
    "C26_estimate_grows",
    "C26_maximum_is_enforced",
    "C26_affordable_operations_run",
    "C26_budgets_are_enforced",
    "C26_over_budget_is_reported",
    "C26_input_costs_wrap_refuted",
    "C26_subscription_budget_refuted",
    "C26_cached_formula_refuted",
    "C26_unsliced_list_refuted"
   ],
   "note": "Estimate equals the unbounded cost cut at 2^64-1, in total and per subgraph; maximum and budgets enforced; monotone. Refuted where input costs wrap, for subscription primaries, and when the formula cached for the operation belongs to another plan."
  },
  {
   "property": "C27",
   "status": "proved",
   "theorems": [
    "C27_aliases",
    "C27_directives",
    "C27_depth",
    "C27_expansion",
    "C27_accepts",
    "C27_aliases_end",
    "C27_directives_end",
    "C27_depth_end",
    "C27_order"
   ],
   "note": "Depth, alias and directive rules as in the source, memo of visited fragments included.  On documents whose operations expand (every document without fragment cycles, exactly one expansion) each rule accepts exactly the operations whose expansion is within the limit and reports the exact counts; all rules end on every document, cycles included; only the lookup of fragments matters, not their order."
  },
  {
   "property": "C28",
   "status": "partial",
   "theorems": [
    "C28_sse_chunking_is_invisible",
    "C28_sse_limit_only_truncates",
    "C28_sse_events_are_delivered",
    "C28_read_error_is_reported_last",
    "C28_multipart_line_chunks_partial",
    "C28_multipart_parts_are_delivered_partial",
    "C28_multipart_end_marker_split_refuted"
   ],
   "note": "SSE: full chunk independence and delivery. Multipart: chunk independence when chunks end at line ends, and delivery of all parts of well-formed streams for any chunks; refuted when a chunk splits the end marker."
  },
  {
   "property": "C29",
   "status": "partial",
   "theorems": [
    "C29_bounded",
    "C29_refused_only_when_full",
    "C29_admitted_when_free",
    "C29_release",
    "C29_released_once",
    "C29_no_leak",
    "C29_ordinary",
    "C29_disabled",
    "C29_one_slot",
    "C29_takes_a_slot",
    "C29_counted_twice_refuted"
   ],
   "note": "Proved over every interleaving of the atomic load / compare-exchange / drop steps; a client that is counted twice is the finding C29_counted_twice_refuted."
  },
  {
   "property": "C30",
   "status": "partial",
   "theorems": [
    "C30_events_stay_in_order",
    "C30_producer_is_never_blocked",
    "C30_keeping_up_loses_nothing",
    "C30_end_means_end",
    "C30_gone_consumer_stops_the_source",
    "C30_clients_read_in_order",
    "C30_logs_account_for_every_event",
    "C30_lag_only_when_behind",
    "C30_failures_are_reported_refuted",
    "C30_every_capacity_works_refuted"
   ],
   "note": "All interleavings and capacities above 0, for the subgraph buffer and the broadcast to clients. Refuted: a failure is dropped like any event when the buffer is full; capacity 0 panics."
  },
  {
   "property": "C31",
   "status": "partial",
   "theorems": [
    "C31_accepted",
    "C31_accepted_shape",
    "C31_neither_data_nor_errors",
    "C31_null_data_without_errors",
    "C31_duplicates",
    "C31_unknown_keys",
    "C31_order",
    "C31_errors_are_kept",
    "C31_unreadable_errors",
    "C31_same_meaning",
    "C31_sorted",
    "C31_raw_exactly_where_marked",
    "C31_plain_keys_are_read",
    "C31_only_plain_keys",
    "C31_paths_of_fetch",
    "C31_insert_path",
    "C31_escaped_unknown_key_refuted",
    "C31_empty_errors_refuted",
    "C31_custom_scalar_null_refuted"
   ],
   "note": "Exact characterisation of the accepted answers, of what is kept as raw text, and of the custom scalar paths. Escaped keys, an empty error list and the null of a custom scalar are findings (the three _refuted theorems)."
  },
  {
   "property": "C32",
   "status": "partial",
   "theorems": [
    "C32_sequences_keep_their_runs",
    "C32_simple_nodes_keep_their_runs",
    "C32_batches_replace_fetches",
    "C32_batches_keep_the_work",
    "C32_bare_selections_are_discerned",
    "C32_subgraph_order_is_irrelevant",
    "C32_the_plan_runs_its_waves",
    "C32_a_batched_wave_gives_the_same_data",
    "C32_the_plan_gives_the_same_data",
    "C32_arguments_are_confused_refuted"
   ],
   "note": "All plans of planner steps: restructuring keeps the runs exactly, simplification never fails, the plan runs its waves in order with fetches regrouped into batches, and gives the same data when services answer entity by entity; refuted: selections that differ only in arguments such as null and \"null\" are merged into one fetch."
  },
  {
   "property": "C33",
   "status": "proved",
   "theorems": [
    "C33_meaning_kept",
    "C33_skip_include_lawful",
    "C33_valid_operations_normalize"
   ],
   "note": "For every valid schema, runtime path, variable assignment and expansion policy the normalized operation selects what the chosen operation selects, and valid operations are never rejected (enough fuel always exists). The variant restricted to one subgraph, the conversion to the planner's own selection type and the later injection of __typename are outside this model."
  },
  {
   "property": "C34",
   "status": "proved",
   "theorems": [
    "C34_expands_iff_acyclic",
    "C34_errors",
    "C34_nothing_left"
   ],
   "note": "Every definition is expanded iff all spread fragments exist and the fragment graph is acyclic; the bounds of the recursion are never hit."
  },
  {
   "property": "C35",
   "status": "proved",
   "theorems": [
    "C35_aggregation_exact",
    "C35_query_plan_reserved"
   ],
   "note": "All sequences of responses, plans, earlier contents of the map and hash map orders."
  },
  {
   "property": "C36",
   "status": "partial",
   "theorems": [
    "C36_union_matches_either",
    "C36_intersection_matches_both",
    "C36_and_or_hold_like_their_parts",
    "C36_directives_are_conjoined",
    "C36_simplification_is_safe",
    "C36_merged_conditions_keep_their_scopes",
    "C36_inherited_conditions",
    "C36_extracted_guard_is_sound",
    "C36_guard_of_alternatives_refuted",
    "C36_invalid_enum_is_reported_refuted"
   ],
   "note": "All combinators exact for every type, variable assignment and value. Refuted: guard extracted from alternatives (latent), invalid enum value reported as skip under alternatives."
  },
  {
   "property": "C37",
   "status": "proved",
   "theorems": [
    "C37_reading_and_writing_visit_the_same_positions",
    "C37_error_path_is_the_position",
    "C37_targets_are_independent"
   ],
   "note": "Reading and writing traversals agree for every tree, path and callback; error paths are the positions; visited positions are independent."
  },
  {
   "property": "C38",
   "status": "partial",
   "theorems": [
    "C38_sorted_lookup_finds_every_key",
    "C38_value_setter",
    "C38_value_setter_keeps_keys_sorted",
    "C38_rename_changes_only_the_key",
    "C38_rename_keeps_the_entries",
    "C38_lookup_after_rename_refuted"
   ],
   "note": "Setter and renamer effects exact; setters keep keys sorted. Refuted: a renamed key is left out of order and binary search then misses other keys."
  },
  {
   "property": "C39",
   "status": "partial",
   "theorems": [
    "C39_buffer_holds_the_representation",
    "C39_tidy_selections",
    "C39_representation_is_json",
    "C39_members_of_a_representation",
    "C39_objects_left_out",
    "C39_untyped_objects_left_out",
    "C39_leaf_values_are_sent_whole",
    "C39_null_items_are_sent_refuted",
    "C39_bare_fragment_is_json_refuted"
   ],
   "note": "Buffer equals the tree representation, contents exact, JSON decodes. Refuted: null list items are dropped; a fragment with only the type name after another field gives malformed JSON."
  },
  {
   "property": "C40",
   "status": "proved",
   "theorems": [
    "C40_naming_changes_only_the_name",
    "C40_generated_names_are_valid",
    "C40_forwarding_follows_the_configuration",
    "C40_request_body_decodes",
    "C40_request_body_never_panics"
   ],
   "note": "Every printed operation and valid name; both transports; request body decodes to named query, variables, name and extensions."
  },
  {
   "property": "C41",
   "status": "proved",
   "theorems": [
    "C41_answered_means",
    "C41_answered_is_unique",
    "C41_batch_is_split_losslessly"
   ],
   "note": "Batches with distinct aliases; merging must not move the targets of the batch's own paths (steady)."
  },
  {
   "property": "C42",
   "status": "partial",
   "theorems": [
    "C42_failures_add_no_data",
    "C42_every_error_is_reported",
    "C42_siblings_are_independent",
    "C42_every_fetch_gets_its_turn",
    "C42_steps_in_order",
    "C42_a_plan_always_finishes",
    "C42_any_arrival_order_is_possible",
    "C42_arrival_order_is_irrelevant",
    "C42_sequence_in_parallel_is_dropped_refuted"
   ],
   "note": "All plans and arrival orders: failed requests add no data, every failure is reported, siblings are independent, steps run in order, plans always finish, arrival order irrelevant for compatible answers; refuted for a sequence nested in a parallel node, which is skipped (the planner does not build it)."
  },
  {
   "property": "C43",
   "status": "partial",
   "theorems": [
    "C43_announced_boundary_is_used",
    "C43_parts_are_delivered_whole_partial",
    "C43_delimiter_inside_a_line_refuted"
   ],
   "note": "Parts whose text does not contain the delimiter are delivered whole; refuted when the delimiter text occurs inside a line."
  },
  {
   "property": "C44",
   "status": "partial",
   "theorems": [
    "C44_descendants_are_found",
    "C44_pruning_keeps_the_order",
    "C44_dropped_steps_have_nothing_after_them",
    "C44_merging_redirects_edges",
    "C44_merging_makes_no_cycle",
    "C44_optimising_keeps_the_order",
    "C44_waves_follow_the_order",
    "C44_planning_succeeds_or_reports",
    "C44_pruned_graphs_have_plans",
    "C44_merging_children_unpruned_refuted",
    "C44_merging_siblings_succeeds_refuted"
   ],
   "note": "All graphs and all sequences of passes: order kept, no cycles, waves correct, planning fails only without an order; refuted: merging a child into its parent before the first pruning can create a cycle, and merging siblings can look up a step that is already gone."
  },
  {
   "property": "C45",
   "status": "partial",
   "theorems": [
    "C45_mutations_are_planned_in_order",
    "C45_mutation_plans_exist",
    "C45_later_steps_are_in_later_waves",
    "C45_mutations_wait_for_completion_refuted"
   ],
   "note": "Top-level mutation fetches are ordered by field; refuted: a mutation does not wait for the fetches completing the previous one."
  },
  {
   "property": "C46",
   "status": "partial",
   "theorems": [
    "C46_shared_client_requests_agree",
    "C46_json_bytes_injective",
    "C46_included_headers_agree_partial",
    "C46_opaque_headers_refuted",
    "C46_header_order_refuted"
   ],
   "note": "All requests and policies, under the hypothesis that the hashes of the two requests do not collide: method, path, schema, operation, variables, extensions and the multiset of printable included header values agree. Refuted: non-ASCII values and the order of repeated values are ignored."
  },
  {
   "property": "C47",
   "status": "partial",
   "theorems": [
    "C47_client_reads_from_the_first_event",
    "C47_deserted_subscription_ends",
    "C47_shared_subscriptions_run_on",
    "C47_deserted_shared_subscription_ends_refuted",
    "C47_shared_leader_reads_from_the_first_event_refuted"
   ],
   "note": "Proved for subscriptions that are not shared; refuted for shared ones, which never stop by themselves and whose leader can miss the first events."
  },
  {
   "property": "C48",
   "status": "partial",
   "theorems": [
    "C48_plan_shows_the_selection_partial",
    "C48_plan_keeps_nullability_partial",
    "C48_response_keys_partial",
    "C48_nested_fragments_refuted",
    "C48_covariant_fields_refuted",
    "C48_object_nullability_refuted",
    "C48_key_order_refuted"
   ],
   "note": "Proved for schemas whose implementers keep the interface's field types and operations whose abstract fragments have fields only: the plan exists (no error, no fuel), shows on every typed path exactly what CollectFields selects, answers no key twice, keeps nullability when implementers declare the interface's, and the projected objects have exactly the selected keys. Four refutations: nested fragments in abstract fragments, covariant field types, nullability of the object's own field, key order."
  },
  {
   "property": "C49",
   "status": "partial",
   "theorems": [
    "C49_text_denotes_the_document_partial",
    "C49_text_reads_back_partial",
    "C49_text_tells_trees_apart_partial",
    "C49_what_was_read_is_written_partial",
    "C49_a_name_is_put_in_partial",
    "C49_a_name_is_read_partial",
    "C49_floats_refuted",
    "C49_infinity_refuted",
    "C49_large_floats_refuted",
    "C49_backspace_refuted",
    "C49_kindless_refuted"
   ],
   "note": "Trees that can be written (names are names, floats print with a fraction, fragments non-empty, a kind where one is needed) denote the right document by the specification, are read back by the router's own parser when no string has U+0008, have distinct texts, and take a name; whatever was read can be written. Refuted: integral, infinite and large floats, U+0008, and variables without a kind."
  },
  {
   "property": "C50",
   "status": "partial",
   "theorems": [
    "C50_reads_what_is_written_partial",
    "C50_reads_every_document_partial",
    "C50_nesting_is_bounded",
    "C50_tokens_are_bounded_partial",
    "C50_reading_ends",
    "C50_no_panic_partial",
    "C50_tokens_are_bounded_refuted",
    "C50_limit_is_reachable_refuted",
    "C50_no_panic_refuted",
    "C50_backspace_refuted",
    "C50_block_lines_refuted",
    "C50_block_returns_refuted",
    "C50_block_indents_refuted",
    "C50_surrogates_refuted",
    "C50_exponents_refuted",
    "C50_adjacent_tokens_refuted",
    "C50_fragment_called_on_refuted"
   ],
   "note": "Grammar exact at token level; text level proved both ways for a sublanguage that has block strings (no \\b, surrogate escapes, odd exponents; block strings without other white space, lone carriage returns or short blank lines inside); refuted where the router departs from the specification"
  },
  {
   "property": "C51",
   "status": "partial",
   "theorems": [
    "C51_minified_reads_the_same",
    "C51_minified_once",
    "C51_minified_alike",
    "C51_written_denotes_partial",
    "C51_written_reads_back_partial",
    "C51_written_is_minified_partial",
    "C51_written_distinct_partial",
    "C51_read_and_written_partial",
    "C51_two_ways_partial",
    "C51_control_characters_refuted",
    "C51_astral_characters_refuted",
    "C51_last_newline_refuted",
    "C51_indentation_refuted",
    "C51_three_quotes_refuted",
    "C51_distinct_texts_refuted",
    "C51_exponents_refuted",
    "C51_shorter_refuted",
    "C51_texts_refuted"
   ],
   "note": "minify_query proved in full on documents; minify_query_document proved for documents whose strings and floats can be written (line_fit, block_fit), refuted for control characters from U+000B, characters above U+FFFF beside an escape, trailing newlines, indentation, three quotes and exponents starting with 9; different documents can share a text"
  },
  {
   "property": "C52",
   "status": "partial",
   "theorems": [
    "C52_fragments_mean_the_operation_partial",
    "C52_fragments_mean_exactly_the_operation_partial",
    "C52_minification_succeeds",
    "C52_fragments_are_named_apart",
    "C52_names_are_injective",
    "C52_order_does_not_matter",
    "C52_arguments_kept_refuted",
    "C52_null_kept_refuted",
    "C52_nesting_kept_refuted",
    "C52_numbers_kept_refuted",
    "C52_repeated_selections_refuted",
    "C52_names_are_usable_refuted"
   ],
   "note": "The meaning is kept whenever identifiers tell the selection sets of the operation apart, proved for every supergraph, operation and identifier function, together with totality, unique names and order independence. Partial because the router's identifiers do not tell apart: sets whose arguments differ only in the kind or nesting of a value ($id, \"id\" and id; null and \"null\"; true and 1; [1] and 1), sets with a selection made twice, and because the 691st fragment is called on; all refuted for every hash function."
  },
  {
   "property": "C53",
   "status": "partial",
   "theorems": [
    "C53_shows_all",
    "C53_shows_only_partial",
    "C53_references_resolve",
    "C53_all_fields_hidden_refuted",
    "C53_hidden_member_refuted",
    "C53_hidden_interface_refuted",
    "C53_context_types_refuted",
    "C53_nothing_replaced_refuted",
    "C53_extensions_panic"
   ],
   "note": "Everything visible and public is in the consumer schema with exactly its public directives, the introspection fields are on the query type, and under the composition guarantee that an accessible type keeps an accessible field nothing else is there and all references resolve. Refuted: a type whose fields are all hidden keeps them, hidden types stay as union members and interfaces, unlisted join__ types stay, a schema with nothing to replace is returned unpruned; type extensions panic."
  },
  {
   "property": "C54",
   "status": "partial",
   "theorems": [
    "C54_answers_as_specified_partial",
    "C54_default_reason_refuted",
    "C54_interfaces_of_interfaces_refuted",
    "C54_possible_types_refuted",
    "C54_deprecated_arguments_refuted",
    "C54_fragment_in_schema_refuted",
    "C54_repeated_keys_refuted",
    "C54_stray_mutation_refuted",
    "C54_unknown_type_panics"
   ],
   "note": "Answers agree with the specification for every query and schema outside seven refuted cases, each stated as a condition of the theorem."
  },
  {
   "property": "C55",
   "status": "proved",
   "theorems": [
    "C55_asked_once",
    "C55_splits",
    "C55_nothing_more",
    "C55_same_heading",
    "C55_variables",
    "C55_variables_defined"
   ],
   "note": ""
  },
  {
   "property": "C56",
   "status": "partial",
   "theorems": [
    "C56_one_path_per_leaf",
    "C56_cheapest_partial",
    "C56_cheapest_refuted",
    "C56_search_never_starts",
    "C56_mutations_apart",
    "C56_no_plan",
    "C56_requirement_tree"
   ],
   "note": "the plan is a combination of one path per leaf, never dearer than paying each leaf apart, and cheapest when at most one leaf has alternatives; refuted in general: the branch-and-bound search is always cut off at once"
  },
  {
   "property": "C57",
   "status": "partial",
   "theorems": [
    "C57_lookup",
    "C57_sound",
    "C57_required",
    "C57_optional",
    "C57_accepted_partial",
    "C57_refused",
    "C57_accepted_refuted",
    "C57_reload_refuted",
    "C57_audience_refuted",
    "C57_locations_refuted",
    "C57_not_before_refuted",
    "C57_scopes",
    "C57_prefetch",
    "C57_keys_kept",
    "C57_keys_renewed",
    "C57_on_demand_refuted"
   ],
   "note": "soundness over all histories, required/optional, exact lookup, refusal and scopes proved; acceptance of every valid token is refuted (only one key set is tried, an encryption key aborts the search, a set being replaced is skipped, all audiences must match, a mismatching header hides later locations), nbf is not checked and keys are never fetched on demand (refuted)"
  },
  {
   "property": "C58",
   "status": "partial",
   "theorems": [
    "C58_no_false_alarm",
    "C58_silence_partial",
    "C58_ends",
    "C58_decides_partial",
    "C58_nested_fragments_refuted",
    "C58_lists_refuted",
    "C58_typename_refuted",
    "C58_ends_refuted"
   ],
   "note": "No false alarms on any document; ending with one answer on documents without fragment cycles; silence is right when fragments spread no fragments beside their fields and arguments have no lists (C58_silence_partial, C58_decides_partial). Refuted beyond that: a visited nested fragment is skipped, lists of different lengths compare equal, __typename has no type, and fragment cycles make the rule recurse without end."
  },
  {
   "property": "C59",
   "status": "partial",
   "theorems": [
    "C59_plain_keeps_both",
    "C59_plain_at_path",
    "C59_path_found",
    "C59_safe_merge_ends",
    "C59_safe_keeps_both_partial",
    "C59_argument_kinds_refuted",
    "C59_argument_kinds_general",
    "C59_kinds_hash_alike",
    "C59_same_alias_refuted",
    "C59_conditions_refuted",
    "C59_fragments_not_compared",
    "C59_fresh_name_refuted",
    "C59_as_first_misnames",
    "C59_no_flag_panics",
    "C59_reader_told_partial",
    "C59_reader_told_refuted",
    "C59_reader_panics",
    "C59_reader_path_renamed"
   ],
   "note": "Merging without renaming is proved in full: the result asks for exactly what both sides ask for, at the root and at a path. Merging with renaming is proved for sides with one item per place, a source without reserved names, and where equal hashes under equal aliases mean equal fields. The last condition fails in the code: the hash of an argument does not cover its kind, so f(a: $x) and f(a: \"x\") are merged into one field, and so are two fields under one alias. Telling the readers of a renamed field is right only one segment below; refuted beyond."
  },
  {
   "property": "C60",
   "status": "partial",
   "theorems": [
    "C60_required_runs_stored_text",
    "C60_required_ignores_query",
    "C60_required_without_id",
    "C60_optional_query_wins",
    "C60_optional_without_query",
    "C60_disabled",
    "C60_reported_id",
    "C60_selector_order",
    "C60_id_not_empty",
    "C60_capture_enough",
    "C60_body_query",
    "C60_body_without_query",
    "C60_json_path",
    "C60_query_param",
    "C60_query_pairs",
    "C60_percent_decoding",
    "C60_path_template",
    "C60_relative_path",
    "C60_document_id_selector",
    "C60_json_selector",
    "C60_query_selector",
    "C60_websocket_document_id_refuted",
    "C60_empty_query_refuted",
    "C60_path_escape_refuted"
   ],
   "note": "Choice of the text by mode, order of selectors and the meaning of each selector are proved for all requests. Refuted: messages over websockets cannot carry a document id; an empty query text beside an id is executed as text; path parameters are not percent-decoded. Path templates with literal braces, the end hooks of plugins and the decoding of GET parameters by ntex are not modelled."
  },
  {
   "property": "C61",
   "status": "partial",
   "theorems": [
    "C61_app_id_syntax",
    "C61_plain_id_syntax",
    "C61_document_of_client",
    "C61_address_tells_document_partial",
    "C61_first_endpoint",
    "C61_refusal",
    "C61_text_was_served",
    "C61_not_found_why",
    "C61_failover",
    "C61_caches_agree",
    "C61_text_stays",
    "C61_manifest_entry",
    "C61_manifest_kinds",
    "C61_settled_is_fresh",
    "C61_reload_catches_up",
    "C61_last_good_is_kept",
    "C61_poll_is_fresh",
    "C61_poll_keeps",
    "C61_address_tells_document_refuted",
    "C61_address_escapes_refuted",
    "C61_client_name_refuted",
    "C61_failure_is_not_absence_refuted",
    "C61_absence_is_reported_refuted",
    "C61_change_before_watch_refuted",
    "C61_failed_read_refuted"
   ],
   "note": "The cache of the SDK, the choice among endpoints, the manifest, the watcher of the file and the polling of S3 are proved for all histories and interleavings. Addresses are proved distinct for names and versions without slashes; with slashes this is refuted. Also refuted: failures of the CDN are answered and remembered as absence; absence is masked by a later failing endpoint; a change before the watcher starts or a failed read leaves stale documents. Coalescing of concurrent lookups and the circuit breaker are not modelled."
  },
  {
   "property": "C62",
   "status": "partial",
   "theorems": [
    "C62_validate",
    "C62_panic",
    "C62_operation_names",
    "C62_fragment_names",
    "C62_anonymous",
    "C62_types",
    "C62_composite",
    "C62_input_types",
    "C62_leaves",
    "C62_fields",
    "C62_fragments",
    "C62_spreads",
    "C62_spreads_partial",
    "C62_arguments",
    "C62_arguments_partial",
    "C62_argument_names",
    "C62_variable_names",
    "C62_required",
    "C62_directives",
    "C62_input_fields",
    "C62_directive_names",
    "C62_reserved_refuted",
    "C62_typename_refuted",
    "C62_spreads_refuted"
   ],
   "note": "All seventeen rules are characterised exactly; partial because four of them deviate from the specification (refuted theorems): names starting with two underscores pass, selections and arguments of __typename are not checked, arguments of unknown fields are looked up in the field around, and interfaces without a common object type count as overlapping."
  },
  {
   "property": "C63",
   "status": "partial",
   "theorems": [
    "C63_unused_fragments",
    "C63_unused_variables",
    "C63_undefined_variables",
    "C63_positions_partial",
    "C63_positions_sound",
    "C63_cycles_real",
    "C63_cycles_found_partial",
    "C63_cycles_shallow_partial",
    "C63_subscriptions",
    "C63_positions_refuted",
    "C63_cycles_refuted",
    "C63_subscriptions_refuted"
   ],
   "note": "Exact for unused fragments, unused and undefined variables and subscriptions by field name; sound for positions and cycles. Positions of items of non-null lists, cycles nested two fields deep and subscriptions that repeat a field under aliases are missed (refuted)."
  },
  {
   "property": "C64",
   "status": "partial",
   "theorems": [
    "C64_reports_partial",
    "C64_sound",
    "C64_complete_partial",
    "C64_complete_refuted"
   ],
   "note": "Soundness proved in full; exact reports and completeness hold for the values the walk reaches with a type. Refuted: items of [T]! lists, lists and objects for scalars, Int out of 32 bits."
  },
  {
   "property": "C65",
   "status": "partial",
   "theorems": [
    "C65_ends",
    "C65_satisfied",
    "C65_forbidden",
    "C65_direct",
    "C65_indirect",
    "C65_same_cost",
    "C65_one_move_partial",
    "C65_complete_refuted",
    "C65_best",
    "C65_continuation",
    "C65_self",
    "C65_circular",
    "C65_detected_partial",
    "C65_detected_refuted"
   ],
   "note": "Everything that the search returns is sound and the search ends on all graphs in order; completeness holds for direct edges without requirements and for one move (C65_one_move_partial) and is refuted for several moves with the same requirements (C65_complete_refuted); a requirement equal to the target is detected for plain fields and refuted below type conditions."
  },
  {
   "property": "C66",
   "status": "partial",
   "theorems": [
    "C66_walk_partial",
    "C66_uniform",
    "C66_ends",
    "C66_candidates",
    "C66_shared_members",
    "C66_no_union",
    "C66_one_path",
    "C66_shared_fields",
    "C66_resolvable",
    "C66_found_refuted",
    "C66_fragment_refuted",
    "C66_no_entry_refuted"
   ],
   "note": "Soundness of every leaf's paths for graphs whose subgraphs agree on types (C66_walk_partial, needs well_typed), candidates, shared union members, resolution from one path, and termination are proved; that a reachable leaf is found is refuted (C66_found_refuted), as are the type conditions when subgraphs disagree on a field's type (C66_fragment_refuted) and the absence of panics for a root without edges (C66_no_entry_refuted)."
  },
  {
   "property": "C67",
   "status": "partial",
   "theorems": [
    "C67_edges",
    "C67_nodes",
    "C67_once",
    "C67_members",
    "C67_builds",
    "C67_sound",
    "C67_typed_partial",
    "C67_walk_partial",
    "C67_views_refuted",
    "C67_view_depth_refuted",
    "C67_slash_refuted",
    "C67_object_refuted"
   ],
   "note": "Edges (iff), nodes, members, absence of duplicates, totality on closed supergraphs, and the composition with the walk of C66 (without interface objects) are proved for supergraphs whose names are clean (`fine`); that a view shows only what its own @provides selects is refuted (C67_views_refuted, C67_view_depth_refuted), as are distinct nodes when subgraph names contain slashes (C67_slash_refuted) and the typing of interface-object moves (C67_object_refuted)."
  },
  {
   "property": "C68",
   "status": "partial",
   "theorems": [
    "C68_ack_first",
    "C68_ack_once",
    "C68_asked",
    "C68_words",
    "C68_passes",
    "C68_ends",
    "C68_protocol_partial",
    "C68_protocol_refuted",
    "C68_cancel_partial",
    "C68_down",
    "C68_reuse_refuted",
    "C68_early_refuted",
    "C68_not_ready",
    "C68_second_init",
    "C68_taken_partial",
    "C68_taken_refuted",
    "C68_bad_frames"
   ],
   "note": "Acknowledgement first and once, ids asked for, the words of every operation, the passing on of events, how operations end, and the refusals are proved for all interleavings. That nothing follows an Error is refuted for streams (C68_protocol_refuted); that a stream stops exactly when the client asks is proved when no id is used twice (C68_cancel_partial) and refuted otherwise (C68_reuse_refuted) and for a completion that comes before the stream has started (C68_early_refuted); the refusal of an id in use is proved for running streams (C68_taken_partial) and refuted for operations that have no stream yet (C68_taken_refuted)."
  },
  {
   "property": "C69",
   "status": "partial",
   "theorems": [
    "C69_streams",
    "C69_map",
    "C69_names",
    "C69_ended",
    "C69_open",
    "C69_protocol",
    "C69_complete",
    "C69_replies",
    "C69_exhausted",
    "C69_running",
    "C69_told",
    "C69_late_refuted",
    "C69_given_up_refuted",
    "C69_acked",
    "C69_waits",
    "C69_refuses",
    "C69_ready_partial",
    "C69_ready_refuted"
   ],
   "note": "The client refines, for each subscription, a machine that follows this subscription alone (C69_streams); the map, the contents of ended and open streams, what is written, and the handshake follow for all interleavings. Refuted: that no stream is left once the connection ended (C69_late_refuted), that a subscription whose message was written is completed when its start is given up (C69_given_up_refuted), and that the handshake fails after a frame that cannot be read (C69_ready_refuted, with C69_ready_partial for what does hold)."
  },
  {
   "property": "C70",
   "status": "proved",
   "theorems": [
    "C70_identity",
    "C70_offered",
    "C70_one_attempt",
    "C70_entries",
    "C70_nobody_lost",
    "C70_apart",
    "C70_once",
    "C70_kept",
    "C70_outcomes",
    "C70_never_stale",
    "C70_shared",
    "C70_joined",
    "C70_begun",
    "C70_open",
    "C70_lookup",
    "C70_evict",
    "C70_close"
   ],
   "note": "Proved for all interleavings of calls, cancellations, ends of attempts, closings and evictions. As a consequence the branch for stale initialisations is never taken (C70_never_stale)."
  },
  {
   "property": "C71",
   "status": "partial",
   "theorems": [
    "C71_legal",
    "C71_sources",
    "C71_twice",
    "C71_apart",
    "C71_connection",
    "C71_operation",
    "C71_remembered_partial",
    "C71_case_refuted",
    "C71_nested_refuted",
    "C71_absent_refuted",
    "C71_accents_refuted",
    "C71_relay",
    "C71_several_refuted"
   ],
   "note": "Proved: legality, sources and precedence, independence of the order of iteration, isolation without persist, persist without effect on one source, relay of single-valued headers. Partial/refuted: persist remembers only when the connection came with flat lower-case fields and values are ASCII; the documented case (Authorization with a capital letter) depends on the order of a hash map; nested headers, an absent payload and non-ASCII values are forgotten; of several values of a header only the last is told to a subgraph."
  },
  {
   "property": "C72",
   "status": "proved",
   "theorems": [
    "C72_client_round_trip",
    "C72_server_round_trip",
    "C72_client_messages",
    "C72_server_messages",
    "C72_unambiguous",
    "C72_directions"
   ],
   "note": "Round trips and exact characterisation of what is read, for values without repeated keys. Left to sonic_rs: the text of values, payloads given as arrays (a parameter), GraphQLError (parameters)."
  },
  {
   "property": "C73",
   "status": "partial",
   "theorems": [
    "C73_once",
    "C73_kept",
    "C73_nobody_lost",
    "C73_apart",
    "C73_active",
    "C73_idle",
    "C73_bounded",
    "C73_order",
    "C73_shut",
    "C73_settled",
    "C73_over",
    "C73_abort_partial",
    "C73_abort_refuted"
   ],
   "note": "Proved for every schedule with an ordinary shutdown. Refuted when the task of the owner is dropped or panics: a caller that had a permit at that moment is never answered. Trusted: the bounded channel of tokio (fair permits, close, outstanding permits)."
  },
  {
   "property": "C74",
   "status": "partial",
   "theorems": [
    "C74_window",
    "C74_kept",
    "C74_kept_one",
    "C74_first",
    "C74_sizes",
    "C74_flushed",
    "C74_posted_partial",
    "C74_fine",
    "C74_calm_partial",
    "C74_panic_refuted",
    "C74_schema_refuted",
    "C74_lost_refuted"
   ],
   "note": "Proved: the window of seen keys, what is kept and that it is handled once, the bounds, the contents of reports of one schema. Refuted: a panic when the cache evicts an entry between contains_key and get; coordinates from an earlier schema; a first report that cannot be posted is not made up for. The processing of an operation and the hash are parameters."
  },
  {
   "property": "C75",
   "status": "partial",
   "theorems": [
    "C75_list",
    "C75_hidden",
    "C75_hides",
    "C75_blind",
    "C75_bare",
    "C75_idempotent",
    "C75_rearranged",
    "C75_order_partial",
    "C75_sort",
    "C75_inline_refuted",
    "C75_field_refuted",
    "C75_spread_refuted",
    "C75_object_refuted",
    "C75_fragment_refuted"
   ],
   "note": "Proved: hiding of literals and aliases characterised exactly, no literal left, idempotence, nothing lost, independence of order where there are no ties. Refuted: two inline fragments or two fields of one name side by side, the directives of a spread, fields of object values and arguments of directives on fragment definitions keep their order. Printing and minifying the document are not in the model."
  },
  {
   "property": "C76",
   "status": "partial",
   "theorems": [
    "C76_collected",
    "C76_references",
    "C76_nested",
    "C76_default",
    "C76_directive_refuted",
    "C76_inline_refuted",
    "C76_operation_refuted",
    "C76_list_refuted",
    "C76_order_refuted",
    "C76_same_coordinate"
   ],
   "note": "Proved: the collected coordinates characterised exactly by the calls of the walk, for every order of the hash set; termination and completeness on cyclic input types. Refuted: arguments of directives are reported as arguments of fields, or make the report fail; objects in a non-null list are passed over; the mark of a given value depends on the order of definitions. The text of a coordinate is not in the model."
  },
  {
   "property": "C77",
   "status": "partial",
   "theorems": [
    "C77_delivered",
    "C77_authentic",
    "C77_answer",
    "C77_taken",
    "C77_completion",
    "C77_beat",
    "C77_apart",
    "C77_bounded",
    "C77_registered",
    "C77_ends",
    "C77_silent",
    "C77_evicted",
    "C77_spared",
    "C77_complete_refuted",
    "C77_gone_refuted",
    "C77_heartbeat_refuted"
   ],
   "note": "Proved for all histories with fresh identifiers: delivery, authenticity, answers, bounds, registration, draining, eviction. Refuted: the errors of a completion, and the error for a subgraph that is gone, are lost when the channel is full; a heartbeat between the two loops of the enforcer does not save the subscription. The parsing of bodies and the request to the subgraph are not in the model."
  },
  {
   "property": "C78",
   "status": "partial",
   "theorems": [
    "C78_protected",
    "C78_accepts",
    "C78_error",
    "C78_effect",
    "C78_kept",
    "C78_written",
    "C78_selected",
    "C78_atomic_refuted",
    "C78_echo_refuted"
   ],
   "note": "Proved for all contexts and patches: protection, acceptance, effect, errors, what is written. Refuted: a refused patch keeps the entries before the refused one; a coprocessor that returns the context as it got it is refused."
  },
  {
   "property": "C79",
   "status": "partial",
   "theorems": [
    "C79_control",
    "C79_control_exact",
    "C79_break",
    "C79_continue",
    "C79_failed",
    "C79_params",
    "C79_headers",
    "C79_echo",
    "C79_echo_refuted",
    "C79_break_values_refuted",
    "C79_failed_headers_refuted"
   ],
   "note": "Proved for all stages, messages and answers: what continues, breaks, fails, and which headers remain. Refuted: a break keeps the last value of a header only; a failure may have dropped the headers; headers returned as sent lose values that are not text."
  },
  {
   "property": "C80",
   "status": "partial",
   "theorems": [
    "C80_mode",
    "C80_laboratory",
    "C80_unparsed",
    "C80_boundary",
    "C80_secret",
    "C80_secret_message",
    "C80_errors",
    "C80_framing",
    "C80_status_stream",
    "C80_status_graphql",
    "C80_status_json",
    "C80_answered",
    "C80_answered_refuted",
    "C80_run",
    "C80_stream_only_refuted"
   ],
   "note": "Proved for all headers, errors and modes: the mode, the form, the status and the errors of a response, and that text inside the router is not shown. Refuted: a GET for the Laboratory page is not answered if the coprocessor fails on the response; queries are refused if only a stream is agreed on."
  }
 ]
}