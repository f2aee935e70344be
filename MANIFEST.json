{
 "claims": [
  {
   "property": "C01",
   "status": "partial",
   "theorems": [
    "C01_terminates",
    "C01_reads_reachable",
    "C01_statements_once",
    "C01_statements_from_files",
    "C01_import_before_use",
    "C01_two_names_refuted",
    "C01_one_name_partial"
   ],
   "note": "plain reader (with the C preprocessor the read set also has included files); a file reached under two names (relative root) is read twice: refuted, guarded by an absolute root name; the order claim needs that the imported file does not lead back"
  },
  {
   "property": "C02",
   "status": "proved",
   "theorems": [
    "C02_unique_names"
   ],
   "note": "for all hierarchies; siblings distinct and dot-free (what stages 3/4 guarantee)"
  },
  {
   "property": "C03",
   "status": "proved",
   "theorems": [
    "C03_address_spaces"
   ],
   "note": "iff, for all pairs of flattened instances"
  },
  {
   "property": "C04",
   "status": "proved",
   "theorems": [
    "C04_instances",
    "C04_settings",
    "C04_walk_complete",
    "C04_paths_once"
   ],
   "note": "equality of lists with the path enumeration of an independent specification"
  },
  {
   "property": "C05",
   "status": "proved",
   "theorems": [
    "C05_flatten_total",
    "C05_connections",
    "C05_chain_end_real",
    "C05_chain_end_unique",
    "C05_toplevel_end_rejected"
   ],
   "note": "total correctness: success, termination of alias chasing, ends resolved through export chains"
  },
  {
   "property": "C06",
   "status": "proved",
   "theorems": [
    "C06_terminates",
    "C06_resolved_values",
    "C06_no_reference_left",
    "C06_value_unique",
    "C06_complete",
    "C06_loop_rejected",
    "C06_loop_parse_error"
   ],
   "note": "resolved values, termination, loop rejection; values theorem assumes lookups only on direct dictionary references (see C07)"
  },
  {
   "property": "C07",
   "status": "partial",
   "theorems": [
    "C07_direct_lookup_partial",
    "C07_chained_lookup_refuted",
    "C07_order_dependent_refuted"
   ],
   "note": "refuted through chains (lookup dropped, order dependent); proved for direct references"
  },
  {
   "property": "C08",
   "status": "partial",
   "theorems": [
    "C08_no_shared_end",
    "C08_ends_together",
    "C08_only_linked",
    "C08_partition",
    "C08_untouched",
    "C08_type_conflict_rejected",
    "C08_accepts_partial",
    "C08_bridge_crash_refuted"
   ],
   "note": "soundness for every sharing pattern on which merging succeeds: the connections are partitioned, each part gives one result with its ends and its name; no shared end left, only linked connections merged, untouched kept; type conflicts rejected; acceptance proved when each connection has at most one shared end; refuted for bridging patterns (ValueError crash)"
  },
  {
   "property": "C09",
   "status": "proved",
   "theorems": [
    "C09_composed",
    "C09_no_assembly_rejected",
    "C09_error_kind"
   ],
   "note": "any number of assemblies, any interleaving with other items"
  },
  {
   "property": "C10",
   "status": "partial",
   "theorems": [
    "C10_instances_kept",
    "C10_ungrouped_own",
    "C10_group_shares",
    "C10_groups_apart_partial",
    "C10_made_up_name_refuted"
   ],
   "note": "no loss, sharing inside a group, own space outside; separation needs user names different from unamed_group_<n> (refuted otherwise)"
  },
  {
   "property": "C11",
   "status": "proved",
   "theorems": [
    "C11_history",
    "C11_innermost",
    "C11_not_found",
    "C11_qualified",
    "C11_duplicate_rejected",
    "C11_close_restores"
   ],
   "note": "refinement of the dictionary stack against lists of declarations, over all histories"
  },
  {
   "property": "C12",
   "status": "proved",
   "theorems": [
    "C12_connected",
    "C12_rejects"
   ],
   "note": "Exact characterisation of acceptance for an assembly's composition; rejections are diagnosed."
  },
  {
   "property": "C13",
   "status": "proved",
   "theorems": [
    "C13_typed",
    "C13_rejects"
   ],
   "note": "Exact characterisation for a connection that was not frozen before (see C55)."
  },
  {
   "property": "C14",
   "status": "proved",
   "theorems": [
    "C14_lookup",
    "C14_component",
    "C14_duplicates"
   ],
   "note": "Lookup characterised for all settings and instances; duplicates rejected iff present."
  },
  {
   "property": "C15",
   "status": "partial",
   "theorems": [
    "C15_frozen",
    "C15_assign_fails",
    "C15_unfreeze_fails",
    "C15_new",
    "C15_assign",
    "C15_assign_refused",
    "C15_freeze_only",
    "C15_settled",
    "C15_deep",
    "C15_deep_fail",
    "C15_terminates",
    "C15_again",
    "C15_again_partial",
    "C15_again_refuted",
    "C15_list_refuted"
   ],
   "note": "Frozen objects never change through the API; freezing is deep and preserves data. Refuted: a list held by a frozen Group (and other fields freeze does not turn into tuples) can still be mutated; a Composition or the LiftedAST cannot be frozen twice. Missing: plain attributes without the property mechanism (settings_dict, Reference.name) are not protected."
  },
  {
   "property": "C16",
   "status": "partial",
   "theorems": [
    "C16_meaning",
    "C16_refl",
    "C16_sym",
    "C16_trans",
    "C16_hash",
    "C16_ignored",
    "C16_total_refuted",
    "C16_total_partial",
    "C16_trichotomy_partial",
    "C16_order_refuted"
   ],
   "note": "Equality coincides with sameness of data, is an equivalence and agrees with hashing. Refuted: comparison raises TypeError on different dict values; proved total for dict-free values."
  },
  {
   "property": "C17",
   "status": "proved",
   "theorems": [
    "C17_location",
    "C17_line_unique",
    "C17_file_unique",
    "C17_marker",
    "C17_outside",
    "C17_no_source",
    "C17_no_line",
    "C17_columns",
    "C17_stable"
   ],
   "note": "File and line follow from the markers before; stable under repeated access. Latin-1 text; extraction of numbers from plyplus error messages not modelled."
  },
  {
   "property": "C18",
   "status": "partial",
   "theorems": [
    "C18_pack",
    "C18_pack_fits",
    "C18_pack_overflow",
    "C18_unpack",
    "C18_unpacker",
    "C18_unpacker_ends",
    "C18_zero_cells_refuted",
    "C18_short_refuted"
   ],
   "note": "Packing/unpacking inverse, overflow rejected. Refuted: zero cell counts loop forever; a table with a short last tuple is not rejected."
  },
  {
   "property": "C19",
   "status": "partial",
   "theorems": [
    "C19_translation",
    "C19_unique",
    "C19_overrun",
    "C19_overrun_only",
    "C19_node",
    "C19_node_rejected",
    "C19_node_fields",
    "C19_node_no_reg",
    "C19_buses",
    "C19_path",
    "C19_bytes_partial",
    "C19_bytes_refuted"
   ],
   "note": "Translation follows the ranges bus by bus, overruns rejected, node-level theorem on cells. Refuted: a region starting below a range and reaching into it is passed untranslated; guarded byte-level theorem. Only word properties; nested subnodes in the result not modelled."
  },
  {
   "property": "C20",
   "status": "proved",
   "theorems": [
    "C20_untyped_partition",
    "C20_untyped_cover"
   ],
   "note": "exact partition for every start > 0 and every size; ctz of the capdl library is modelled"
  },
  {
   "property": "C21",
   "status": "partial",
   "theorems": [
    "C21_next_page_multiple",
    "C21_page_size",
    "C21_frame_size",
    "C21_frame_size_found",
    "C21_explicit_frame_size",
    "C21_shared_frames",
    "C21_shared_frames_cover_partial",
    "C21_shared_frames_cover_refuted",
    "C21_round_up",
    "C21_round_down",
    "C21_align_page_address"
   ],
   "note": "all parts; frame cover needs the frame size to divide the size (explicit frame size is unchecked: refuted)"
  },
  {
   "property": "C22",
   "status": "partial",
   "theorems": [
    "C22_distinct_partial",
    "C22_default_mask",
    "C22_one_bit_partial",
    "C22_count_partial",
    "C22_exact_partial",
    "C22_exhaustion_reported",
    "C22_distinct_refuted",
    "C22_width_refuted",
    "C22_spurious_exhaustion_refuted"
   ],
   "note": "exact characterisation under mask within badge width and base disjoint from mask; refuted otherwise; spurious exhaustion for interrupts"
  },
  {
   "property": "C23",
   "status": "partial",
   "theorems": [
    "C23_distinct_partial",
    "C23_within_mask",
    "C23_count",
    "C23_exact",
    "C23_enumeration",
    "C23_enumeration_increasing",
    "C23_exhaustion_reported",
    "C23_distinct_refuted",
    "C23_spurious_exhaustion_refuted"
   ],
   "note": "exact characterisation; distinctness needs base disjoint from mask (refuted otherwise); the mask value itself is never handed out"
  },
  {
   "property": "C24",
   "status": "proved",
   "theorems": [
    "C24_allocate_badges"
   ],
   "note": "any list of explicit badges"
  },
  {
   "property": "C25",
   "status": "proved",
   "theorems": [
    "C25_id_found",
    "C25_configured_kept",
    "C25_distinct"
   ],
   "note": "any list of ends and configured ids"
  },
  {
   "property": "C26",
   "status": "partial",
   "theorems": [
    "C26_canonical",
    "C26_failure_reported",
    "C26_follows_partial",
    "C26_domain_partial",
    "C26_connections_partial",
    "C26_cycle_partial",
    "C26_follows_refuted",
    "C26_cycle_refuted"
   ],
   "note": "canonical and failure theorems unconditional; label equations and cycle equivalence under separated names; two refutations without"
  },
  {
   "property": "C27",
   "status": "proved",
   "theorems": [
    "C27_control_first",
    "C27_names",
    "C27_every_name",
    "C27_thread_counts",
    "C27_thread_indices",
    "C27_names_distinct",
    "C27_symbols_distinct",
    "C27_fault_handler"
   ],
   "note": "interfaces connected once (what Composition.freeze enforces)"
  },
  {
   "property": "C28",
   "status": "partial",
   "theorems": [
    "C28_dictionary",
    "C28_isolated",
    "C28_guard_once_partial",
    "C28_guard_once_refuted"
   ],
   "note": "Refuted for a guarded function that returns None: it is called again."
  },
  {
   "property": "C29",
   "status": "partial",
   "theorems": [
    "C29_same_object",
    "C29_object",
    "C29_distinct_object_partial",
    "C29_distinct_object_refuted",
    "C29_same_slot",
    "C29_distinct_slot",
    "C29_rights",
    "C29_other_slots",
    "C29_other_objects",
    "C29_failure",
    "C29_object_of_cap_refuted"
   ],
   "note": "Refuted: object names label_name are ambiguous, so two requesters can share an object; a second request for a capability name ignores a different object."
  },
  {
   "property": "C30",
   "status": "partial",
   "theorems": [
    "C30_c_symbols",
    "C30_c_isabelle",
    "C30_isabelle_partial",
    "C30_isabelle_refuted"
   ],
   "note": "C symbols unique for all tags; the extra claim about Isabelle symbols is refuted for tags ending in a digit."
  },
  {
   "property": "C31",
   "status": "proved",
   "theorems": [
    "C31_request",
    "C31_response",
    "C31_accepts"
   ],
   "note": "Requests and responses, IPC and shared-buffer transport, 32- and 64-bit; buffers below 2 GiB."
  },
  {
   "property": "C32",
   "status": "partial",
   "theorems": [
    "C32_array_length_refuted",
    "C32_string_array_refuted",
    "C32_request_partial",
    "C32_response_partial",
    "C32_request_from_message",
    "C32_response_from_message"
   ],
   "note": "False in full: the array byte size wraps in size_t (zero-byte block with a huge count; heap overrun for string arrays). The partial theorems show these are the only cases."
  },
  {
   "property": "C33",
   "status": "proved",
   "theorems": [
    "C33_index",
    "C33_rejects"
   ],
   "note": "All interface sizes up to 2^64."
  },
  {
   "property": "C34",
   "status": "proved",
   "theorems": [
    "C34_no_callback_with_pending",
    "C34_mutual_exclusion",
    "C34_register_empty",
    "C34_events_accounted",
    "C34_drop_reason",
    "C34_counter_bounds",
    "C34_waiters_served",
    "C34_callback_once",
    "C34_callback_not_lost",
    "C34_lock_progress",
    "C34_wait_outcome",
    "C34_poll_outcome",
    "C34_begin",
    "C34_refuse_reason"
   ],
   "note": "one delivery thread, any number of user threads, any interleaving; semaphores of libsel4sync are modelled as atomic primitives; liveness under fairness not covered"
  },
  {
   "property": "C35",
   "status": "proved",
   "theorems": [
    "C35_provide",
    "C35_alloc_total",
    "C35_exclusive",
    "C35_answers_request",
    "C35_success_iff",
    "C35_free_iff_held",
    "C35_freed_available",
    "C35_twice_provided_shared"
   ],
   "note": "allocator.c modelled with the kernel objects abstract; the history of provide/allocate/free calls is unbounded. Exclusive holding is proved under the assumption made by the generated code that each capability is provided once; C35_twice_provided_shared shows what happens without it."
  },
  {
   "property": "C36",
   "status": "partial",
   "theorems": [
    "C36_partition",
    "C36_alloc",
    "C36_alloc_total",
    "C36_free_total",
    "C36_block_size",
    "C36_init",
    "C36_huge_size_refuted",
    "C36_odd_alignment_refuted"
   ],
   "note": "Proved for power-of-two alignments and sizes whose rounding does not overflow size_t; the two _refuted theorems show what happens otherwise. Page-size 0 initialisation and addresses that wrap are not modelled."
  },
  {
   "property": "C37",
   "status": "proved",
   "theorems": [
    "C37_defrag"
   ],
   "note": ""
  },
  {
   "property": "C38",
   "status": "partial",
   "theorems": [
    "C38_refuted",
    "C38_partial"
   ],
   "note": "Refuted: remainder regions keep a stale cached flag. Proved when no stale flag disagrees with its frame."
  },
  {
   "property": "C39",
   "status": "partial",
   "theorems": [
    "C39_inside_and_disjoint",
    "C39_fails_iff",
    "C39_freed_available",
    "C39_never_stuck",
    "C39_driver_pool",
    "C39_small_buffer_refuted",
    "C39_double_free_refuted"
   ],
   "note": "Block allocator of libvirtqueue users modelled over unbounded alloc/free histories. Refuted: shared buffer smaller than the rings wraps the usable length; a double free is accepted. Not modelled: scatter/gather chains."
  },
  {
   "property": "C40",
   "status": "partial",
   "theorems": [
    "C40_found_iff_registered",
    "C40_find_handler",
    "C40_no_handler",
    "C40_accepted_iff_partial",
    "C40_unregister",
    "C40_second_instance_refuted",
    "C40_duplicate_refuted",
    "C40_never_again_refuted"
   ],
   "note": "Interface registration and lookup over unbounded histories. Refuted: the duplicate test is inverted, so a second distinct instance is refused, an exact duplicate is accepted, and a type stays closed after unregistering. properties argument not modelled beyond the recorded findings."
  },
  {
   "property": "C41",
   "status": "proved",
   "theorems": [
    "C41_register",
    "C41_at_most_once",
    "C41_registered_iff",
    "C41_refused_iff",
    "C41_unregister_iff",
    "C41_hardware_delivery",
    "C41_dtb_delivery",
    "C41_global_delivery"
   ],
   "note": "irq.c registration and acknowledgement plus the run loops of seL4HardwareInterrupt and seL4DTBHardware; kernel notification semantics modelled as bits of the badge."
  },
  {
   "property": "C42",
   "status": "partial",
   "theorems": [
    "C42_replies_in_order_partial",
    "C42_never_lost_partial",
    "C42_might_block",
    "C42_dropped_message_refuted",
    "C42_wrong_recipient_refuted"
   ],
   "note": "Reply capability state machine over unbounded rounds. Refuted: a dropped malformed message stops the server or misdirects the next reply. Partial theorems cover rounds in which every message is served."
  },
  {
   "property": "C43",
   "status": "partial",
   "theorems": [
    "C43_keeps_partial",
    "C43_keeps_refuted",
    "C43_names",
    "C43_whole",
    "C43_lookup",
    "C43_settings",
    "C43_unknown"
   ],
   "note": "Keys renamed without loss if the new names are distinct; refuted otherwise (reg-names and reg_names)."
  },
  {
   "property": "C44",
   "status": "partial",
   "theorems": [
    "C44_value_partial",
    "C44_python_value",
    "C44_logical_and_refuted",
    "C44_conditional_chain",
    "C44_unambiguous",
    "C44_errors",
    "C44_leading_zero",
    "C44_dataport_size",
    "C44_thread_count"
   ],
   "note": "Grammar of camkes.g:179-216 as derivation trees with their token text, and stage3's lifting of them. Integers only: float literals and negative exponents are marked and excluded. The lexer and the LALR parser of plyplus are not modelled; the grammar is proved unambiguous, so any correct parser yields the same tree. Refuted: && and || give an operand instead of 0 or 1."
  },
  {
   "property": "C45",
   "status": "proved",
   "theorems": [
    "C45_resolves",
    "C45_no_reference_left",
    "C45_accepts"
   ],
   "note": "default mode (no forward references); sound and complete against the visibility rules"
  },
  {
   "property": "C46",
   "status": "partial",
   "theorems": [
    "C46_exactly_one",
    "C46_distinct",
    "C46_objects",
    "C46_rendered_with",
    "C46_rendered",
    "C46_space_name",
    "C46_names_refuted"
   ],
   "note": "One set of spaces per software address space, items rendered with their own; refuted only for the allocator's printed names (a.b and a_b share one)."
  },
  {
   "property": "C47",
   "status": "partial",
   "theorems": [
    "C47_lined_up_partial",
    "C47_component_item",
    "C47_connector_item",
    "C47_rejected_partial",
    "C47_mismatch_refuted",
    "C47_duplicates_refuted"
   ],
   "note": "Refuted: the chained comparison accepts a mismatch and silently drops outputs, and duplicate outputs are never noticed."
  },
  {
   "property": "C48",
   "status": "partial",
   "theorems": [
    "C48_accepted",
    "C48_injective",
    "C48_start",
    "C48_dots",
    "C48_kinds",
    "C48_valid",
    "C48_dataports_partial",
    "C48_parentheses",
    "C48_no_parentheses",
    "C48_dataports_refuted",
    "C48_assertion_refuted"
   ],
   "note": "Identifiers over arbitrary strings; only the mangling functions are modelled, not the theory templates. Refuted: a type called Buf_4096 clashes with Buf(4096); the guarding assertion has no end anchor."
  },
  {
   "property": "C49",
   "status": "partial",
   "theorems": [
    "C49_settings_partial",
    "C49_effective_partial",
    "C49_accepts",
    "C49_defaults_filled",
    "C49_range_refuted",
    "C49_default_refuted",
    "C49_missing_refuted"
   ],
   "note": "Explicit settings are of the declared type (language values, ranges aside); refuted: ranges, unchecked defaults, missing struct field crashes."
  },
  {
   "property": "C50",
   "status": "partial",
   "theorems": [
    "C50_arm_partial",
    "C50_arm_extended_partial",
    "C50_generic",
    "C50_generic_extended",
    "C50_generic_short",
    "C50_too_many",
    "C50_remainder",
    "C50_none",
    "C50_both_refuted",
    "C50_arm_extended_refuted",
    "C50_arm_malformed_refuted",
    "C50_arm_mask_refuted",
    "C50_three_refuted",
    "C50_pair_refuted"
   ],
   "note": "Interrupt cells as numbers or references; the two properties are given to the function, the query engine is in C18/C19. Refuted on ARM: several extended interrupts, left-over cells, CPU masks in flags; elsewhere: three one-cell interrupts, two-cell interrupts."
  },
  {
   "property": "C51",
   "status": "partial",
   "theorems": [
    "C51_dangling_never_accepted_partial",
    "C51_forget_alias_refuted"
   ],
   "note": "refuted: assigning None trips the property assertion; proved that every such configuration fails"
  },
  {
   "property": "C52",
   "status": "partial",
   "theorems": [
    "C52_schedule_refuted",
    "C52_first_schedule_partial"
   ],
   "note": "refuted: only the schedule of the first assembly survives"
  },
  {
   "property": "C53",
   "status": "partial",
   "theorems": [
    "C53_refuted",
    "C53_unaligned_partial"
   ],
   "note": "Refuted for aligned requests; proved for requests without alignment requirement."
  },
  {
   "property": "C54",
   "status": "partial",
   "theorems": [
    "C54_refuted",
    "C54_partial",
    "C54_whole_call"
   ],
   "note": "The error paths of the client stub return without releasing the lock; proved for successful calls."
  },
  {
   "property": "C55",
   "status": "partial",
   "theorems": [
    "C55_connection_refuted",
    "C55_procedure_refuted",
    "C55_method_partial"
   ],
   "note": "Refuted for connections and procedures (frozen flag set before the checks); holds for methods."
  },
  {
   "property": "C56",
   "status": "partial",
   "theorems": [
    "C56_method",
    "C56_procedure",
    "C56_component",
    "C56_keywords",
    "C56_struct",
    "C56_struct_refuted",
    "C56_hardware_refuted"
   ],
   "note": "Exact characterisation for procedures, methods, components; refuted: struct fields, binary semaphores of hardware."
  },
  {
   "property": "C57",
   "status": "partial",
   "theorems": [
    "C57_query_partial",
    "C57_query_refuted",
    "C57_props",
    "C57_answers",
    "C57_select",
    "C57_first",
    "C57_key"
   ],
   "note": "Selection exact if the path expression matches some node; refuted otherwise (the whole tree is searched). Regular expressions and int() are parameters; pyfdt's Empty and byte properties simplified."
  },
  {
   "property": "C58",
   "status": "partial",
   "theorems": [
    "C58_alias_partial",
    "C58_chosen_partial",
    "C58_alias_ambiguous",
    "C58_child_refuted",
    "C58_other_refuted"
   ],
   "note": "Resolves to the only node whose path contains the aliased path, up to case; refuted for nodes with children and for longer paths."
  },
  {
   "property": "C59",
   "status": "partial",
   "theorems": [
    "C59_regions",
    "C59_absent",
    "C59_no_size",
    "C59_covered_partial",
    "C59_misaligned_refuted",
    "C59_frame_alignment_refuted"
   ],
   "note": "Cell counts and properties are inputs. Refuted: regions not starting on a page; large frames at misaligned addresses."
  },
  {
   "property": "C60",
   "status": "proved",
   "theorems": [
    "C60_holds_every_index",
    "C60_found"
   ],
   "note": ""
  },
  {
   "property": "C61",
   "status": "partial",
   "theorems": [
    "C61_pre_init_first",
    "C61_post_init_last",
    "C61_run_last",
    "C61_passive_ready",
    "C61_one_by_one",
    "C61_once",
    "C61_bounded",
    "C61_reaches_run_partial",
    "C61_reaches_run_refuted",
    "C61_stays_partial",
    "C61_control_stays",
    "C61_stays_refuted"
   ],
   "note": "The order, readiness, at-most-once and boundedness parts hold for all configurations. Progress is proved for instances whose name needs no sanitising; for nested instances with a passive interface start-up deadlocks (refuted). No thread returns without fault handlers; with them a finished interface thread can steal the fault handler's token (refuted)."
  },
  {
   "property": "C62",
   "status": "partial",
   "theorems": [
    "C62_round_trip_partial",
    "C62_foreign_partial",
    "C62_foreign_refuted",
    "C62_round_trip_refuted",
    "C62_unknown",
    "C62_offset_refuted"
   ],
   "note": "Partial: on 64-bit machines a hardware dataport whose size is a number accepts every pointer below it (refuted); unwrap does not check offsets (refuted)."
  },
  {
   "property": "C63",
   "status": "partial",
   "theorems": [
    "C63_bytes_partial",
    "C63_bytes_refuted",
    "C63_empty_refuted",
    "C63_refused",
    "C63_unknown"
   ],
   "note": "Partial: exact when the end offset is the last byte's; the kernel's end is exclusive, so the last byte of each piece is left out and single bytes give empty ranges (refuted). x86 and RISC-V variants not modelled."
  },
  {
   "property": "C64",
   "status": "partial",
   "theorems": [
    "C64_translated_partial",
    "C64_translated_refuted"
   ],
   "note": "Partial: exact unless paddr + size wraps (refuted)."
  },
  {
   "property": "C65",
   "status": "partial",
   "theorems": [
    "C65_object_partial",
    "C65_file_partial",
    "C65_configuration_by_name_refuted",
    "C65_composition_by_name_refuted",
    "C65_dictionary"
   ],
   "note": "Proved for declarations whose compositions and configurations are given in place. Given by name (composition foo; / configuration foo;) they lift to references, which the filters for Composition and Configuration drop silently; both refutations give witnesses. Values of numeric expressions are C44."
  },
  {
   "property": "C66",
   "status": "partial",
   "theorems": [
    "C66_accepted_partial",
    "C66_named_composition_refuted"
   ],
   "note": "Same guard as C65. An assembly that names its composition is refused with an AssertionError (refuted)."
  },
  {
   "property": "C67",
   "status": "partial",
   "theorems": [
    "C67_packet_partial",
    "C67_other",
    "C67_overrun_refuted"
   ],
   "note": "Packets of more than 511 characters are read out of bounds; zero bytes end a command (C68)."
  },
  {
   "property": "C68",
   "status": "partial",
   "theorems": [
    "C68_right_partial",
    "C68_wrong_partial",
    "C68_not_hexadecimal_refuted",
    "C68_binary_refuted"
   ],
   "note": "Correct for hexadecimal checksums and packets without zero bytes (C67_packet_partial); anything that is not hexadecimal is taken for a number, and binary data after a zero byte is left out of the sum."
  },
  {
   "property": "C69",
   "status": "partial",
   "theorems": [
    "C69_replies",
    "C69_queries",
    "C69_unsupported_refuted",
    "C69_vcont_refuted"
   ],
   "note": "Unsupported commands get no reply; vCont actions are looked for one character too far."
  },
  {
   "property": "C70",
   "status": "partial",
   "theorems": [
    "C70_read_partial",
    "C70_read_error",
    "C70_write_partial",
    "C70_write_error_partial",
    "C70_write_error_refuted",
    "C70_binary_partial",
    "C70_binary_error_partial",
    "C70_binary_error_refuted",
    "C70_length_refuted",
    "C70_high_refuted",
    "C70_crash_refuted"
   ],
   "note": "Lengths are parsed as decimal, addresses saturate at 2^31-1, X overruns the stack, missing arguments and ranges ending in unmapped memory crash the server."
  },
  {
   "property": "C71",
   "status": "partial",
   "theorems": [
    "C71_all",
    "C71_one_partial",
    "C71_one_refuted",
    "C71_write_partial",
    "C71_overread_refuted",
    "C71_write_all_refuted"
   ],
   "note": "P reads beyond its array; p refuses registers that g shows; G changes nothing and writes out of bounds for more than ten registers."
  },
  {
   "property": "C72",
   "status": "partial",
   "theorems": [
    "C72_insert",
    "C72_refused",
    "C72_remove",
    "C72_absent",
    "C72_kernel_partial",
    "C72_threads_refuted"
   ],
   "note": "The table is shared between threads, the kernel's breakpoints are per thread."
  },
  {
   "property": "C73",
   "status": "partial",
   "theorems": [
    "C73_report",
    "C73_other_fault",
    "C73_again_partial",
    "C73_again_refuted",
    "C73_exception_refuted"
   ],
   "note": "Asked again, the server does not mention watchpoints; user exceptions overrun the array for the message."
  },
  {
   "property": "C74",
   "status": "partial",
   "theorems": [
    "C74_session_partial",
    "C74_round_partial",
    "C74_other_fault_partial",
    "C74_breakpoint_refuted"
   ],
   "note": "For one thread whose steps are not interrupted by a breakpoint, watchpoint or fault; otherwise the thread keeps stepping."
  },
  {
   "property": "C75",
   "status": "partial",
   "theorems": [
    "C75_right_memory_partial",
    "C75_found_partial",
    "C75_other_memory_refuted",
    "C75_found_refuted"
   ],
   "note": "Sound when frames adjacent in physical memory are adjacent in virtual memory, complete when no earlier frame contains the start; both hypotheses are shown to be needed by the refuted theorems."
  },
  {
   "property": "C76",
   "status": "proved",
   "theorems": [
    "C76_diagnosed"
   ],
   "note": ""
  },
  {
   "property": "C77",
   "status": "partial",
   "theorems": [
    "C77_each",
    "C77_rounds",
    "C77_progress",
    "C77_cycle_refuted",
    "C77_twice_refuted"
   ],
   "note": "Termination is proved for dependencies without cycle; a cycle runs for ever, and a second call after a deferral uses freed memory (refuted theorems). Exhaustion of memory for list nodes is not modelled."
  },
  {
   "property": "C78",
   "status": "partial",
   "theorems": [
    "C78_transfer_partial",
    "C78_refused",
    "C78_refused_refuted",
    "C78_leak_refuted",
    "C78_empty_refuted"
   ],
   "note": "Proved as long as everything sent is not empty and fits; refused and empty messages behave otherwise than claimed (refuted theorems). The rings belong to a library outside /repo and are modelled from its interface; the two sides take turns between calls."
  },
  {
   "property": "C79",
   "status": "proved",
   "theorems": [
    "C79_messages"
   ],
   "note": ""
  },
  {
   "property": "C80",
   "status": "partial",
   "theorems": [
    "C80_mlock",
    "C80_madvise",
    "C80_mincore",
    "C80_mlock_partial",
    "C80_madvise_partial",
    "C80_mincore_partial",
    "C80_last_refuted",
    "C80_invalid"
   ],
   "note": "The converse needs one byte behind the range to be mapped; the exact range is refuted."
  },
  {
   "property": "C81",
   "status": "partial",
   "theorems": [
    "C81_select_partial",
    "C81_overlap_refuted",
    "C81_null_refuted"
   ],
   "note": "Socket numbers must be distinct and below descriptor numbers; both excluded cases are refuted by witnesses."
  },
  {
   "property": "C82",
   "status": "partial",
   "theorems": [
    "C82_picture_partial",
    "C82_located",
    "C82_address",
    "C82_report",
    "C82_unknown",
    "C82_inverted",
    "C82_same_end",
    "C82_top_refuted",
    "C82_overlap_refuted",
    "C82_cause_refuted"
   ],
   "note": "Top region ending at the last address, overlap and unknown cause are refuted by witnesses."
  },
  {
   "property": "C83",
   "status": "partial",
   "theorems": [
    "C83_found",
    "C83_only",
    "C83_init",
    "C83_result_partial",
    "C83_count_partial",
    "C83_name_partial",
    "C83_absent_partial",
    "C83_gap_refuted",
    "C83_last_refuted",
    "C83_negative_refuted",
    "C83_twice_refuted"
   ],
   "note": "Names need all smaller ids registered; gap, greatest id, negative id and double registration are refuted by witnesses."
  },
  {
   "property": "C84",
   "status": "partial",
   "theorems": [
    "C84_found",
    "C84_accepts_partial",
    "C84_negative_refuted"
   ],
   "note": "Negative ids leave the array (refuted by witness)."
  },
  {
   "property": "C85",
   "status": "partial",
   "theorems": [
    "C85_stack_partial",
    "C85_guard_below",
    "C85_unaligned_refuted",
    "C85_stack_memory",
    "C85_ipc",
    "C85_fill",
    "C85_fill_memory",
    "C85_dtb"
   ],
   "note": "Sizes that are not multiples of the page size are refuted."
  },
  {
   "property": "C86",
   "status": "partial",
   "theorems": [
    "C86_rights_partial",
    "C86_default",
    "C86_only",
    "C86_refused",
    "C86_order_refuted",
    "C86_empty_refuted",
    "C86_newline_refuted"
   ],
   "note": "Other orders of the letters and the empty string are refuted."
  },
  {
   "property": "C87",
   "status": "partial",
   "theorems": [
    "C87_tcb",
    "C87_sc",
    "C87_passive",
    "C87_isolated_partial",
    "C87_fault_handler",
    "C87_max_refuted",
    "C87_suffix_refuted"
   ],
   "note": "Interfaces named max or ending in _max are refuted."
  },
  {
   "property": "C88",
   "status": "partial",
   "theorems": [
    "C88_value_partial",
    "C88_type",
    "C88_declared_partial",
    "C88_unset",
    "C88_unset_array_refuted",
    "C88_string_refuted"
   ],
   "note": "Strings with backslash or newline and unset arrays are refuted."
  },
  {
   "property": "C89",
   "status": "partial",
   "theorems": [
    "C89_well_formed",
    "C89_all_defined",
    "C89_lengths_partial",
    "C89_generated_partial",
    "C89_first_refuted",
    "C89_nested_refuted",
    "C89_unset_refuted"
   ],
   "note": "Different lengths of one struct, arrays of nested structs and unset nested structs are refuted."
  },
  {
   "property": "C90",
   "status": "partial",
   "theorems": [
    "C90_shown_partial",
    "C90_colour_partial",
    "C90_line",
    "C90_missing",
    "C90_nowhere",
    "C90_last_refuted"
   ],
   "note": "Places with columns are shown right if the line ends with a newline; otherwise the marks are behind the line (refuted)."
  },
  {
   "property": "C91",
   "status": "partial",
   "theorems": [
    "C91_read_partial",
    "C91_files_partial",
    "C91_refused",
    "C91_written_partial",
    "C91_again_partial",
    "C91_quoted_refuted",
    "C91_colon_refuted",
    "C91_blank_refuted"
   ],
   "note": "Proved for names without blanks, dollar, hash, backslash, and targets without colon; the others are misread (refuted)."
  },
  {
   "property": "C92",
   "status": "partial",
   "theorems": [
    "C92_accepted",
    "C92_markers_partial",
    "C92_nested_partial",
    "C92_checked_partial",
    "C92_refused",
    "C92_else_refuted",
    "C92_open_refuted"
   ],
   "note": "Complete; what is accepted is characterised exactly, and is more than the grammar of templates (refuted: else twice, elif behind else, break in a macro, last start marker open). The scanners are not modelled."
  },
  {
   "property": "C93",
   "status": "proved",
   "theorems": [
    "C93_instances",
    "C93_spaces",
    "C93_different_names"
   ],
   "note": "stages 5 to 10 together: instances and address spaces in terms of paths through the specification"
  },
  {
   "property": "C94",
   "status": "proved",
   "theorems": [
    "C94_ends",
    "C94_kept",
    "C94_parts",
    "C94_made",
    "C94_apart"
   ],
   "note": "stages 5 to 10 together: connections in terms of exports and shared interfaces, with the partition and the names"
  },
  {
   "property": "C95",
   "status": "partial",
   "theorems": [
    "C95_values_partial",
    "C95_chained_lookup_refuted"
   ],
   "note": "Proved for specifications whose lookups in dictionaries go to attributes set directly to a dictionary; chained lookups are refuted."
  },
  {
   "property": "C96",
   "status": "partial",
   "theorems": [
    "C96_accepts_partial"
   ],
   "note": "missing: lookups into attributes that are themselves references (refuted in C95), connections that share several ends (refuted for bridging patterns in C08)"
  },
  {
   "property": "C97",
   "status": "partial",
   "theorems": [
    "C97_queue_emit",
    "C97_queue_failure",
    "C97_queue_counts",
    "C97_queue_receive",
    "C97_queue_no_more",
    "C97_queue_range",
    "C97_one_full_end_refuted",
    "C97_notification_emit",
    "C97_notification_pending",
    "C97_notification_no_more"
   ],
   "note": "All statements proved; the expectation that an emit reaches every end with room is refuted (a full counter at one end stops the loop)."
  },
  {
   "property": "C98",
   "status": "partial",
   "theorems": [
    "C98_once",
    "C98_all_called",
    "C98_result",
    "C98_busy",
    "C98_never_blocks",
    "C98_argument_refuted",
    "C98_argument_partial",
    "C98_failed_refuted",
    "C98_reenabled"
   ],
   "note": "Holds for all interleavings except for the argument and the effect of -1, both refuted with reachable states and proved for the executions that avoid the race"
  },
  {
   "property": "C99",
   "status": "partial",
   "theorems": [
    "C99_bounded",
    "C99_poll",
    "C99_wait",
    "C99_asserts",
    "C99_once_refuted",
    "C99_one_interrupt",
    "C99_wakeup_refuted",
    "C99_wakeup_partial",
    "C99_wakes"
   ],
   "note": "Bounds, poll, wait and assertions hold; single report and wake-up are refuted with reachable states; wake-up is proved for executions without the race"
  },
  {
   "property": "C100",
   "status": "partial",
   "theorems": [
    "C100_described",
    "C100_message",
    "C100_rejects",
    "C100_driver_refuted",
    "C100_driver_partial"
   ],
   "note": "Exact for all settings; the link to driver requests fails for the type arm with another core than 0 (refuted) and is proved otherwise"
  },
  {
   "property": "C101",
   "status": "proved",
   "theorems": [
    "C101_distinct",
    "C101_new",
    "C101_destroy",
    "C101_stock"
   ],
   "note": "Exact for all sequences of calls"
  },
  {
   "property": "C102",
   "status": "partial",
   "theorems": [
    "C102_accepted",
    "C102_count_partial",
    "C102_enumeration_partial",
    "C102_outside",
    "C102_compiles",
    "C102_distinct_partial",
    "C102_untyped_partial",
    "C102_last",
    "C102_cnode",
    "C102_small_refuted",
    "C102_distinct_refuted"
   ],
   "note": "distinctness and objects for pools of at least page size; small pools and repeated pools refuted"
  },
  {
   "property": "C103",
   "status": "partial",
   "theorems": [
    "C103_frame_partial",
    "C103_mixed_refuted",
    "C103_wrap_refuted",
    "C103_ioport",
    "C103_irq",
    "C103_iospace",
    "C103_iospace_compiles",
    "C103_bootinfo_partial",
    "C103_bootinfo_refuted"
   ],
   "note": "lookups for settings whose frames agree and do not wrap; mixed sizes, wrapping regions and long bootinfo refuted"
  },
  {
   "property": "C104",
   "status": "partial",
   "theorems": [
    "C104_result",
    "C104_single",
    "C104_qualified_partial",
    "C104_duplicates",
    "C104_outcomes",
    "C104_accepts_partial",
    "C104_crash_refuted"
   ],
   "note": "Forward resolution: completeness, meaning of unqualified references, acceptance of every specification whose references have a meaning, including interfaces named in connections of assemblies. Partial: qualified references become one of their meanings (not shown: the nearest); acceptance leaves out assemblies that refer to their composition and other qualified references. Refuted: errors are always errors for the user."
  },
  {
   "property": "C105",
   "status": "partial",
   "theorems": [
    "C105_in",
    "C105_out",
    "C105_outside",
    "C105_over",
    "C105_contained",
    "C105_shared_refuted",
    "C105_large_refuted"
   ],
   "note": "Interfaces that share no port and whose ports exist; see the refuted statements for both conditions."
  },
  {
   "property": "C106",
   "status": "partial",
   "theorems": [
    "C106_write",
    "C106_write_all",
    "C106_write_whole",
    "C106_read_partial",
    "C106_read_all",
    "C106_read_refuted",
    "C106_bind",
    "C106_bind_refuted",
    "C106_listen",
    "C106_socket_partial",
    "C106_socket_refuted",
    "C106_accept",
    "C106_close",
    "C106_others",
    "C106_descriptors"
   ],
   "note": "Partial theorems: failures of the server, which the code mishandles, see the refuted statements."
  },
  {
   "property": "C107",
   "status": "proved",
   "theorems": [
    "C107_top_down",
    "C107_bottom_up",
    "C107_contexts_top_down",
    "C107_contexts_bottom_up",
    "C107_replaces",
    "C107_orders_agree",
    "C107_frozen",
    "C107_freeze"
   ],
   "note": "Actions do not change the objects they are given; the class checks of setters are not modelled."
  },
  {
   "property": "C108",
   "status": "partial",
   "theorems": [
    "C108_open_out",
    "C108_open_in_refuted",
    "C108_read",
    "C108_write",
    "C108_close",
    "C108_send_partial",
    "C108_send_refuted",
    "C108_recv",
    "C108_reply_recv",
    "C108_wait",
    "C108_message_partial",
    "C108_cnode_refuted",
    "C108_cnode_partial",
    "C108_virtqueue_partial",
    "C108_virtqueue_refuted"
   ],
   "note": "Opening for reading and setting the cnode are refuted; sending and virtqueues are proved for messages and arrays of sufficient size only, since the code does not check them."
  },
  {
   "property": "C109",
   "status": "partial",
   "theorems": [
    "C109_one_reading_partial",
    "C109_declaration_partial",
    "C109_one_reading_refuted",
    "C109_readings",
    "C109_either_way",
    "C109_inclusion_partial",
    "C109_configuration_alone",
    "C109_one_slot",
    "C109_procedure_semicolon"
   ],
   "note": "One reading is refuted for the grammar as written (a type of one identifier) and proved for a parser that always takes it in the same way; the lexer and the parser generator are not modelled."
  },
  {
   "property": "C110",
   "status": "partial",
   "theorems": [
    "C110_stack_partial",
    "C110_ipc_partial",
    "C110_image_partial",
    "C110_elsewhere",
    "C110_lock_partial",
    "C110_mincore_partial",
    "C110_stack_locks_partial",
    "C110_unaligned_refuted",
    "C110_end_refuted",
    "C110_pool_partial",
    "C110_cached",
    "C110_cached_refuted"
   ],
   "note": "Partial: whole pages and no overlap in the address space (in particular the end symbol is below the stacks); otherwise refuted. The linker and the loader are not modelled."
  },
  {
   "property": "C111",
   "status": "partial",
   "theorems": [
    "C111_own",
    "C111_distinct",
    "C111_scheduling_context",
    "C111_invalid",
    "C111_name",
    "C111_no_name",
    "C111_fault",
    "C111_handler",
    "C111_unknown_fault",
    "C111_stack_shown_partial",
    "C111_ipc_shown_partial",
    "C111_no_stack_refuted",
    "C111_pid"
   ],
   "note": "The memory map of a fault is partial: the stack is a whole, positive number of pages; an empty one is refuted."
  },
  {
   "property": "C112",
   "status": "partial",
   "theorems": [
    "C112_invariant",
    "C112_host_partial",
    "C112_domain_partial",
    "C112_uname",
    "C112_one_text",
    "C112_errors",
    "C112_length_ignored",
    "C112_length_refuted",
    "C112_unterminated_refuted",
    "C112_time_partial",
    "C112_time_when",
    "C112_time_range",
    "C112_monotone_refuted",
    "C112_yield"
   ],
   "note": "Partial: names end with a NUL and time is below 2^32 ms; otherwise refuted."
  },
  {
   "property": "C113",
   "status": "partial",
   "theorems": [
    "C113_reaches",
    "C113_others",
    "C113_originals",
    "C113_succeeds",
    "C113_twice_refuted",
    "C113_sigaction_refuted"
   ],
   "note": "Refuted for sigaction and for a second installation; the C library's side is one dictionary update."
  },
  {
   "property": "C114",
   "status": "partial",
   "theorems": [
    "C114_renders",
    "C114_held",
    "C114_meet",
    "C114_only_partial",
    "C114_only_refuted",
    "C114_own_refuted",
    "C114_apart_partial",
    "C114_one_way_partial",
    "C114_queue_refuted",
    "C114_bind_refuted",
    "C114_private",
    "C114_objects_partial",
    "C114_order"
   ],
   "note": "Partial: names that do not run into each other, and queues and bound notifications excepted from one-wayness; otherwise refuted. The capability to a component's own CNode and badges (C22 to C24) are left out."
  },
  {
   "property": "C115",
   "status": "partial",
   "theorems": [
    "C115_lookups",
    "C115_sorted",
    "C115_objects",
    "C115_one_label",
    "C115_policy_labels",
    "C115_irqs",
    "C115_asids_partial",
    "C115_asids_refuted",
    "C115_extra_partial",
    "C115_extra_refuted",
    "C115_sanity_partial",
    "C115_sanity_refuted",
    "C115_untyped_refuted"
   ],
   "note": "Partial: ASIDs and further edges only where nothing is grouped, claims about components only without integrity_label; otherwise refuted."
  },
  {
   "property": "C116",
   "status": "partial",
   "theorems": [
    "C116_in_order",
    "C116_once_partial",
    "C116_default_names",
    "C116_once_refuted",
    "C116_describes_partial",
    "C116_generated",
    "C116_refused",
    "C116_required",
    "C116_ends",
    "C116_last_partial",
    "C116_last_refuted",
    "C116_exported_refuted",
    "C116_control_refuted"
   ],
   "note": "Partial: single definition and description need that the assembly, composition and configuration are not named like generated constants; the last lemma needs an assembly without a name; both are refuted otherwise, as are leaving out exported dataports and the claim about control."
  },
  {
   "property": "C117",
   "status": "partial",
   "theorems": [
    "C117_from",
    "C117_to",
    "C117_to_cakeml",
    "C117_only",
    "C117_component",
    "C117_optional",
    "C117_environment",
    "C117_succeeds",
    "C117_included",
    "C117_distinct_partial",
    "C117_distinct_refuted",
    "C117_cakeml_refuted"
   ],
   "note": "Partial: that no file is requested twice is proved for connector types without underscores, components without own templates and at most one CakeML end for an instance; refuted otherwise."
  },
  {
   "property": "C118",
   "status": "partial",
   "theorems": [
    "C118_groups",
    "C118_relocatable_partial",
    "C118_relocatable_refuted",
    "C118_private",
    "C118_copies",
    "C118_direct_partial",
    "C118_clear",
    "C118_accepted",
    "C118_lost_refuted",
    "C118_double_refuted"
   ],
   "note": "Partial: direct calls are bound for names that can be told apart (for example methods and interfaces without underscores), refuted otherwise; relocatable binaries for groups without hardware, refuted otherwise. What objcopy and the linker do is an assumption about these tools, stated as functions on tables of symbols."
  },
  {
   "property": "C119",
   "status": "partial",
   "theorems": [
    "C119_defined",
    "C119_refused",
    "C119_freed",
    "C119_no_leak",
    "C119_values",
    "C119_response",
    "C119_untouched_refuted"
   ],
   "note": "Partial: proved for implementations that set their outputs; refuted for those that do not."
  },
  {
   "property": "C120",
   "status": "partial",
   "theorems": [
    "C120_defined",
    "C120_unsent",
    "C120_returned",
    "C120_values",
    "C120_failed_partial",
    "C120_failed_refuted"
   ],
   "note": "Partial: after a reply that cannot be unmarshalled the variables passed both ways are usable only from some parameter on; refuted for the others."
  },
  {
   "property": "C121",
   "status": "partial",
   "theorems": [
    "C121_header",
    "C121_stub",
    "C121_implementation",
    "C121_names_partial",
    "C121_names_refuted"
   ],
   "note": "Partial: names of parameters may clash with generated ones (refuted); types are proved for all methods."
  },
  {
   "property": "C122",
   "status": "partial",
   "theorems": [
    "C122_functions",
    "C122_caller",
    "C122_server",
    "C122_pointers",
    "C122_result_pointers",
    "C122_sent",
    "C122_read",
    "C122_returned",
    "C122_result",
    "C122_names_partial",
    "C122_names_refuted"
   ],
   "note": "Partial: names of variables may clash (refuted); everything else is proved for all methods."
  },
  {
   "property": "C123",
   "status": "partial",
   "theorems": [
    "C123_delivered",
    "C123_called",
    "C123_one",
    "C123_answer",
    "C123_stopped",
    "C123_returned",
    "C123_restored",
    "C123_location",
    "C123_no_error",
    "C123_other_modes",
    "C123_defined_partial",
    "C123_overflow_refuted",
    "C123_null_refuted"
   ],
   "note": "Partial: overflows without a handler, and NULL for the component, are undefined (refuted); delivery and answers are proved for all programs."
  },
  {
   "property": "C124",
   "status": "partial",
   "theorems": [
    "C124_served",
    "C124_unknown",
    "C124_own_partial",
    "C124_own_refuted",
    "C124_braces_partial",
    "C124_braces_refuted"
   ],
   "note": "Partial: with CEA_IGNORE a client gets another response, and the code does not compile for several ends of one of several types (both refuted)."
  },
  {
   "property": "C125",
   "status": "partial",
   "theorems": [
    "C125_request",
    "C125_call",
    "C125_parameter_types",
    "C125_result_types",
    "C125_unknown_badge",
    "C125_unknown_method",
    "C125_short_refuted",
    "C125_long_refuted"
   ],
   "note": "Partial: requests that are too short and results that are too long are not refused (refuted); calls that fit are proved for all interfaces."
  },
  {
   "property": "C126",
   "status": "partial",
   "theorems": [
    "C126_open_out",
    "C126_open_in_refuted",
    "C126_read",
    "C126_write",
    "C126_close"
   ],
   "note": "Partial: opening for reading reports the opposite (refuted); the other functions are proved."
  },
  {
   "property": "C127",
   "status": "partial",
   "theorems": [
    "C127_output",
    "C127_ends",
    "C127_registers",
    "C127_fifo_refuted",
    "C127_fifo_partial"
   ],
   "note": "Partial: the FIFO of a 16550 is never used (refuted); output is proved for all texts and timings."
  },
  {
   "property": "C128",
   "status": "partial",
   "theorems": [
    "C128_command_line",
    "C128_values",
    "C128_succeeds",
    "C128_dependencies",
    "C128_bad_file_refuted",
    "C128_missing_refuted"
   ],
   "note": "Partial: diagnosis of missing and bad files refuted; values, command line and dependencies are proved for all inputs."
  },
  {
   "property": "C129",
   "status": "partial",
   "theorems": [
    "C129_read",
    "C129_write_partial",
    "C129_write_refuted",
    "C129_unique",
    "C129_delegate"
   ],
   "note": "Partial: reading proved in full; writing proved for words that can be read, refuted otherwise."
  }
 ]
}
