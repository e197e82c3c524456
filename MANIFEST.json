{
 "claims": [
  {
   "property": "C01",
   "status": "proved",
   "theorems": [
    "C01_encode_fills_size"
   ],
   "note": ""
  },
  {
   "property": "C02",
   "status": "proved",
   "theorems": [
    "C02_decode_encode",
    "C02_unconditional_refuted",
    "C02_unconditional_refuted_invalid"
   ],
   "note": "Proved for coherent types; the unconditional statement of the spec is refuted by enums that pass the well-formedness check."
  },
  {
   "property": "C03",
   "status": "proved",
   "theorems": [
    "C03_encode_decode",
    "C03_unconditional_refuted"
   ],
   "note": "Proved for coherent types; refuted in general."
  },
  {
   "property": "C04",
   "status": "proved",
   "theorems": [
    "C04_decode_mono"
   ],
   "note": ""
  },
  {
   "property": "C05",
   "status": "proved",
   "theorems": [
    "C05_encode_mono",
    "C05_order_is_relation"
   ],
   "note": ""
  },
  {
   "property": "C06",
   "status": "proved",
   "theorems": [
    "C06_encodable_iff_in_range",
    "C06_decode_encode",
    "C06_encode_decode",
    "C06_little_endian_bytes",
    "C06_big_endian_reversed"
   ],
   "note": ""
  },
  {
   "property": "C07",
   "status": "proved",
   "theorems": [
    "C07_pointer_roundtrip",
    "C07_int_ignores_provenance",
    "C07_provenance_exact"
   ],
   "note": ""
  },
  {
   "property": "C08",
   "status": "proved",
   "theorems": [
    "C08_decode_shape",
    "C08_check_value_no_crash"
   ],
   "note": ""
  },
  {
   "property": "C09",
   "status": "proved",
   "theorems": [
    "C09_store_load",
    "C09_store_load_tree",
    "C09_place_store_load"
   ],
   "note": "For basic memory and Tree Borrows, in every machine state."
  },
  {
   "property": "C10",
   "status": "proved",
   "theorems": [
    "C10_transmute_exact",
    "C10_transmute_same"
   ],
   "note": ""
  },
  {
   "property": "C11",
   "status": "proved",
   "theorems": [
    "C11_wrapping_binary",
    "C11_neg",
    "C11_not",
    "C11_unique"
   ],
   "note": ""
  },
  {
   "property": "C12",
   "status": "proved",
   "theorems": [
    "C12_div",
    "C12_rem",
    "C12_div_exact",
    "C12_unchecked",
    "C12_shl_unchecked",
    "C12_shr_unchecked"
   ],
   "note": ""
  },
  {
   "property": "C13",
   "status": "proved",
   "theorems": [
    "C13_overflow"
   ],
   "note": ""
  },
  {
   "property": "C14",
   "status": "proved",
   "theorems": [
    "C14_three_way",
    "C14_relations",
    "C14_total_order",
    "C14_comparable",
    "C14_ignores_provenance"
   ],
   "note": ""
  },
  {
   "property": "C15",
   "status": "proved",
   "theorems": [
    "C15_count_ones",
    "C15_count_ones_refuted"
   ],
   "note": "Proved for integer types of fewer than 2^32 bits; wider ones pass the well-formedness check and crash (C15_count_ones_refuted)."
  },
  {
   "property": "C16",
   "status": "proved",
   "theorems": [
    "C16_cast",
    "C16_cast_round_trip"
   ],
   "note": ""
  },
  {
   "property": "C17",
   "status": "proved",
   "theorems": [
    "C17_allocations_disjoint",
    "C17_allocations_disjoint_tree"
   ],
   "note": ""
  },
  {
   "property": "C18",
   "status": "proved",
   "theorems": [
    "C18_load_returns_last_store",
    "C18_load_returns_last_store_tree",
    "C18_load_length"
   ],
   "note": ""
  },
  {
   "property": "C19",
   "status": "proved",
   "theorems": [
    "C19_store_frame",
    "C19_store_frame_tree"
   ],
   "note": ""
  },
  {
   "property": "C20",
   "status": "proved",
   "theorems": [
    "C20_load_ub_exactly",
    "C20_store_ub_exactly",
    "C20_deref_ub_exactly",
    "C20_bad_access_ub_tree"
   ],
   "note": ""
  },
  {
   "property": "C21",
   "status": "proved",
   "theorems": [
    "C21_dealloc_exact",
    "C21_dealloc_final",
    "C21_dealloc_final_tree"
   ],
   "note": ""
  },
  {
   "property": "C22",
   "status": "proved",
   "theorems": [
    "C22_zero_sized",
    "C22_zero_sized_tree"
   ],
   "note": ""
  },
  {
   "property": "C23",
   "status": "proved",
   "theorems": [
    "C23_leak_check",
    "C23_leak_check_tree"
   ],
   "note": ""
  },
  {
   "property": "C24",
   "status": "proved",
   "theorems": [
    "C24_allocate",
    "C24_allocate_tree"
   ],
   "note": ""
  },
  {
   "property": "C25",
   "status": "proved",
   "theorems": [
    "C25_offset_inbounds",
    "C25_offset_inbounds_tree"
   ],
   "note": "The offset is defined exactly if the bytes moved over are in one live allocation; otherwise UB."
  },
  {
   "property": "C26",
   "status": "proved",
   "theorems": [
    "C26_int_to_pointer",
    "C26_expose_keeps"
   ],
   "note": ""
  },
  {
   "property": "C27",
   "status": "proved",
   "theorems": [
    "C27_protected_mut_exclusive"
   ],
   "note": ""
  },
  {
   "property": "C28",
   "status": "proved",
   "theorems": [
    "C28_protected_shared_frozen",
    "C28_protected_frozen_read"
   ],
   "note": ""
  },
  {
   "property": "C29",
   "status": "proved",
   "theorems": [
    "C29_disabled_forever",
    "C29_frozen_never_writes",
    "C29_foreign_write_disables",
    "C29_foreign_read_freezes"
   ],
   "note": ""
  },
  {
   "property": "C30",
   "status": "proved",
   "theorems": [
    "C30_strong_protector_dealloc",
    "C30_entry_retag_strong",
    "C30_check_exact"
   ],
   "note": ""
  },
  {
   "property": "C31",
   "status": "proved",
   "theorems": [
    "C31_refines_basic",
    "C31_erasure_keeps"
   ],
   "note": ""
  },
  {
   "property": "C32",
   "status": "proved",
   "theorems": [
    "C32_access_outside_unchanged",
    "C32_access_outcome_local"
   ],
   "note": ""
  },
  {
   "property": "C33",
   "status": "proved",
   "theorems": [
    "C33_access_shape",
    "C33_add_node_stable",
    "C33_local_iff_prefix",
    "C33_node_persists"
   ],
   "note": ""
  },
  {
   "property": "C34",
   "status": "proved",
   "theorems": [
    "C34_load_keeps_loads",
    "C34_loads_commute",
    "C34_read_ub_local"
   ],
   "note": ""
  },
  {
   "property": "C35",
   "status": "proved",
   "theorems": [
    "C35_protectors_exact",
    "C35_end_call_exact",
    "C35_end_call_total"
   ],
   "note": ""
  },
  {
   "property": "C36",
   "status": "partial",
   "theorems": [
    "C36_freeze_mask_partial",
    "C36_freeze_mask_no_tuple",
    "C36_freeze_mask_refuted"
   ],
   "note": "Proved for sized pointees, slices, trait objects and for unsized tuples without padding around the tail; with padding the mask is shorter than the pointee (C36_freeze_mask_refuted)."
  },
  {
   "property": "C37",
   "status": "partial",
   "theorems": [
    "C37_retag_total_partial",
    "C37_provenance_valid",
    "C37_retag_total_refuted"
   ],
   "note": "Proved except for references to zero-sized pointees that lie before their allocation, which crash (C37_retag_total_refuted)."
  },
  {
   "property": "C38",
   "status": "partial",
   "theorems": [
    "C38_C39_scheduler",
    "C38_waiters",
    "C38_exclusion",
    "C38_acquire",
    "C38_release",
    "C38_waiter",
    "C38_only_holder",
    "C38_block",
    "C38_acquire_operand",
    "C38_release_operand",
    "C38_acquire_ub",
    "C38_release_ub",
    "C38_another_refuted"
   ],
   "note": "A waiter always has a holder, but the holder need not be another thread: a thread can wait for a lock it holds itself (C38_another_refuted)."
  },
  {
   "property": "C39",
   "status": "proved",
   "theorems": [
    "C39_join",
    "C39_not_lost",
    "C39_starts_waiting",
    "C39_join_operand",
    "C39_join_ub",
    "C39_terminates"
   ],
   "note": ""
  },
  {
   "property": "C40",
   "status": "proved",
   "theorems": [
    "C40_deadlock_basic",
    "C40_deadlock_tree",
    "C40_picks",
    "C40_only_enabled"
   ],
   "note": ""
  },
  {
   "property": "C41",
   "status": "partial",
   "theorems": [
    "C41_races_partial",
    "C41_races_refuted",
    "C41_synchronised",
    "C41_no_false_alarm",
    "C41_never_synchronised"
   ],
   "note": "False of the code: a thread with which any earlier step synchronised is never checked again (C41_races_refuted). Proved for threads with which no step synchronised; no false reports."
  },
  {
   "property": "C42",
   "status": "proved",
   "theorems": [
    "C42_races_exact",
    "C42_races_symmetric",
    "C42_races_exact_refuted"
   ],
   "note": "Proved for accesses of at least one byte; an access of no bytes inside another range counts as a race (C42_races_exact_refuted)."
  },
  {
   "property": "C43",
   "status": "proved",
   "theorems": [
    "C43_size_aligned_and_bounded",
    "C43_parts_inside",
    "C43_fields_disjoint"
   ],
   "note": ""
  },
  {
   "property": "C44",
   "status": "proved",
   "theorems": [
    "C44_size_aligned",
    "C44_tail_inside",
    "C44_size_grows",
    "C44_slice_is_array"
   ],
   "note": ""
  },
  {
   "property": "C45",
   "status": "proved",
   "theorems": [
    "C45_decides",
    "C45_equivalence",
    "C45_layout"
   ],
   "note": ""
  },
  {
   "property": "C46",
   "status": "proved",
   "theorems": [
    "C46_pair_type_wf",
    "C46_pair_type_wf_x86_64",
    "C46_pair_value_wf"
   ],
   "note": "For x86_64 unconditional; for other targets the pair's size must be valid, which the target decides."
  },
  {
   "property": "C47",
   "status": "proved",
   "theorems": [
    "C47_constant_refuted",
    "C47_global_refuted",
    "C47_allocate_refuted",
    "C47_expose_refuted",
    "C47_entry_refuted",
    "C47_vtable_refuted",
    "C47_transmute_refuted",
    "C47_offset_refuted",
    "C47_start",
    "C47_panic",
    "C47_size_refuted",
    "C47_escape_refuted",
    "C47_number_refuted",
    "C47_fetch_refuted",
    "C47_empty_refuted",
    "C47_no_panic_basic",
    "C47_no_panic_tree",
    "C47_check"
   ],
   "note": "Accepted programs can panic (the C47_*_refuted theorems, one per gap of the check and one per remaining cause). Without the gaps (strict_program) a step panics only for the causes of panic_cause (C47_panic), and never for programs without the constructs behind these causes, while there are at most 127 threads and locks (C47_no_panic_*)."
  },
  {
   "property": "C48",
   "status": "partial",
   "theorems": [
    "C48_values_partial",
    "C48_places",
    "C48_values_simple",
    "C48_constant_refuted",
    "C48_size_refuted"
   ],
   "note": "Proved for expressions without the gaps of the check, except for values computed from a size or alignment that is not a usize; both exceptions are real (C48_constant_refuted, C48_size_refuted)."
  },
  {
   "property": "C49",
   "status": "proved",
   "theorems": [
    "C49_locals",
    "C49_params",
    "C49_no_alias",
    "C49_nothing_else",
    "C49_pop"
   ],
   "note": ""
  },
  {
   "property": "C50",
   "status": "proved",
   "theorems": [
    "C50_stacks",
    "C50_moves"
   ],
   "note": "For programs whose functions start in an existing regular block, which the well-formedness check does not ensure."
  },
  {
   "property": "C51",
   "status": "proved",
   "theorems": [
    "C51_appends",
    "C51_text",
    "C51_execution"
   ],
   "note": ""
  },
  {
   "property": "C52",
   "status": "proved",
   "theorems": [
    "C52_ends_basic",
    "C52_ends_tree",
    "C52_exit_basic",
    "C52_exit_tree",
    "C52_no_return",
    "C52_main"
   ],
   "note": ""
  },
  {
   "property": "C53",
   "status": "proved",
   "theorems": [
    "C53_objects",
    "C53_no_others",
    "C53_distinct",
    "C53_contents",
    "C53_constant"
   ],
   "note": "names_unique says that no name is declared twice, which holds for the code's maps by their type."
  },
  {
   "property": "C54",
   "status": "proved",
   "theorems": [
    "C54_functions",
    "C54_vtables",
    "C54_methods",
    "C54_calls"
   ],
   "note": "names_unique as for C53."
  },
  {
   "property": "C55",
   "status": "partial",
   "theorems": [
    "C55_covers_partial",
    "C55_copy_partial",
    "C55_nothing_else",
    "C55_wide_refuted"
   ],
   "note": "Proved for fields without wide pointers. mark_used_bytes marks one word of every pointer, so copying a union drops the metadata of wide pointers (C55_wide_refuted)."
  },
  {
   "property": "C56",
   "status": "proved",
   "theorems": [
    "C56_chunks",
    "C56_unique",
    "C56_union_wf"
   ],
   "note": ""
  },
  {
   "property": "C57",
   "status": "partial",
   "theorems": [
    "C57_cells_partial",
    "C57_array_two",
    "C57_missing_refuted",
    "C57_outside_refuted"
   ],
   "note": "Proved for types whose arrays of cells have two elements. The code only looks at elements 0 and 1 (C57_array_two), so it misses cells of longer arrays and makes ranges outside shorter ones."
  },
  {
   "property": "C58",
   "status": "proved",
   "theorems": [
    "C58_direct_enum_coherent",
    "C58_niche_enum_coherent",
    "C58_option_ref_coherent"
   ],
   "note": "Direct and niche tag encodings of minimize's enums.rs, with the layout facts rustc guarantees as hypotheses, and Option<&T> without them."
  },
  {
   "property": "C59",
   "status": "proved",
   "theorems": [
    "C59_check_value",
    "C59_typed_load",
    "C59_typed_store",
    "C59_transmute"
   ],
   "note": ""
  },
  {
   "property": "C60",
   "status": "proved",
   "theorems": [
    "C60_payloads",
    "C60_stop_unwind"
   ],
   "note": "Same hypotheses as C50."
  },
  {
   "property": "C61",
   "status": "proved",
   "theorems": [
    "C61_frees",
    "C61_allocates"
   ],
   "note": ""
  },
  {
   "property": "C62",
   "status": "proved",
   "theorems": [
    "C62_assign",
    "C62_deinit",
    "C62_set_discriminant",
    "C62_validate",
    "C62_silent_statements",
    "C62_silent_terminators"
   ],
   "note": ""
  },
  {
   "property": "C63",
   "status": "proved",
   "theorems": [
    "C63_call"
   ],
   "note": ""
  },
  {
   "property": "C64",
   "status": "proved",
   "theorems": [
    "C64_return"
   ],
   "note": ""
  },
  {
   "property": "C65",
   "status": "proved",
   "theorems": [
    "C65_goto",
    "C65_switch",
    "C65_intrinsic",
    "C65_statement",
    "C65_storage_live",
    "C65_storage_dead",
    "C65_start_unwind",
    "C65_stop_unwind",
    "C65_resume_unwind"
   ],
   "note": ""
  },
  {
   "property": "C66",
   "status": "proved",
   "theorems": [
    "C66_others",
    "C66_fixed"
   ],
   "note": ""
  },
  {
   "property": "C67",
   "status": "proved",
   "theorems": [
    "C67_values",
    "C67_places"
   ],
   "note": ""
  },
  {
   "property": "C68",
   "status": "proved",
   "theorems": [
    "C68_results",
    "C68_atomic_load",
    "C68_atomic_store",
    "C68_compare_exchange",
    "C68_fetch_and_op"
   ],
   "note": ""
  },
  {
   "property": "C69",
   "status": "proved",
   "theorems": [
    "C69_raw_eq"
   ],
   "note": ""
  },
  {
   "property": "C70",
   "status": "proved",
   "theorems": [
    "C70_values",
    "C70_places",
    "C70_values_exact",
    "C70_places_exact"
   ],
   "note": ""
  },
  {
   "property": "C71",
   "status": "proved",
   "theorems": [
    "C71_states",
    "C71_steps",
    "C71_starts",
    "C71_stops",
    "C71_behaviours",
    "C71_forever"
   ],
   "note": ""
  },
  {
   "property": "C72",
   "status": "proved",
   "theorems": [
    "C72_initialise",
    "C72_undefined"
   ],
   "note": ""
  },
  {
   "property": "C73",
   "status": "proved",
   "theorems": [
    "C73_code",
    "C73_run"
   ],
   "note": "For functions written with the methods that Cmd covers; stop_unwind (whose next block the client makes itself) is not among them."
  },
  {
   "property": "C74",
   "status": "proved",
   "theorems": [
    "C74_accepts",
    "C74_panics",
    "C74_variables"
   ],
   "note": ""
  },
  {
   "property": "C75",
   "status": "proved",
   "theorems": [
    "C75_wf"
   ],
   "note": ""
  },
  {
   "property": "C76",
   "status": "proved",
   "theorems": [
    "C76_not",
    "C76_ops",
    "C76_to_int",
    "C76_strict",
    "C76_typed"
   ],
   "note": ""
  },
  {
   "property": "C77",
   "status": "proved",
   "theorems": [
    "C77_start",
    "C77_step",
    "C77_never_stuck"
   ],
   "note": ""
  },
  {
   "property": "C78",
   "status": "proved",
   "theorems": [
    "C78_goes_on",
    "C78_ends",
    "C78_ub",
    "C78_not_allowed",
    "C78_exact"
   ],
   "note": "Programs without gaps of the check (strict_program); that a step that is not allowed is undefined behaviour, rather than a panic, is for the programs of C47_no_panic_basic."
  },
  {
   "property": "C79",
   "status": "partial",
   "theorems": [
    "C79_no_panic_partial",
    "C79_well_formed_partial",
    "C79_assert_in_cleanup_refuted",
    "C79_catch_in_cleanup_refuted",
    "C79_drop_slice_refuted",
    "C79_drop_auto_trait_refuted",
    "C79_supertrait_vtable_refuted",
    "C79_supertrait_method_refuted",
    "C79_constant_spread_refuted"
   ],
   "note": "Proved for MIR without the constructs listed in MirSpec.covered and covered_vtables: panics and catch_unwind in cleanup blocks, dropping unsized places other than trait objects with a drop method, methods of supertraits and vtables of traits with supertraits, and closure calls with a constant tuple. For each of these the property is refuted by a well-typed program."
  },
  {
   "property": "C80",
   "status": "proved",
   "theorems": [
    "C80_names"
   ],
   "note": ""
  },
  {
   "property": "C81",
   "status": "proved",
   "theorems": [
    "C81_functions"
   ],
   "note": ""
  },
  {
   "property": "C82",
   "status": "proved",
   "theorems": [
    "C82_executions"
   ],
   "note": "Invariant over executions: every frame has a task, every step is a step of MIR by the top task. Same assumptions as C81."
  },
  {
   "property": "C83",
   "status": "partial",
   "theorems": [
    "C83_types_partial",
    "C83_kinds_partial",
    "C83_fields_partial",
    "C83_pointee_partial",
    "C83_facts",
    "C83_compiler_partial",
    "C83_zero_sized_refuted",
    "C83_empty_refuted",
    "C83_pattern_refuted",
    "C83_array_refuted",
    "C83_absent_refuted"
   ],
   "note": "Proved for the layouts with MirTySpec's conditions marked plain; each kind of sane layout that they exclude is refuted by an example (C83_zero_sized_refuted, C83_empty_refuted, C83_absent_refuted, C83_pattern_refuted, C83_array_refuted). Pointers to structs with an unsized last field are not supported by the code and not covered. What kind of type each kind of Rust type becomes is C83_kinds_partial, the flags of pointees C83_facts."
  },
  {
   "property": "C84",
   "status": "partial",
   "theorems": [
    "C84_meaning",
    "C84_read_partial",
    "C84_read_single_partial",
    "C84_variants_partial",
    "C84_absent_refuted",
    "C84_signed_refuted"
   ],
   "note": "Proved for the enums with MirTySpec's conditions marked plain; the others are refuted (C84_absent_refuted, C84_signed_refuted). That tags mean exactly one thing (C84_meaning) holds for all."
  },
  {
   "property": "C85",
   "status": "proved",
   "theorems": [
    "C85_runs",
    "C85_program",
    "C85_crash",
    "C85_forever",
    "C85_rounds",
    "C85_ill_formed",
    "C85_check",
    "C85_refused"
   ],
   "note": "The choices of a run are an oracle (libspecr, which makes them, is not part of the repository); the unbounded loop is run for any number of rounds. C85_refused_hyps shows an accepted program whose start is undefined behaviour."
  },
  {
   "property": "C86",
   "status": "proved",
   "theorems": [
    "C86_captured",
    "C86_prints",
    "C86_shown",
    "C86_other",
    "C86_crash"
   ],
   "note": "The texts are those of the state before the last step (see Step.v)."
  },
  {
   "property": "C87",
   "status": "proved",
   "theorems": [
    "C87_arguments",
    "C87_silent",
    "C87_messages",
    "C87_tree_borrows"
   ],
   "note": "Loading a program from JSON is a parameter."
  },
  {
   "property": "C88",
   "status": "proved",
   "theorems": [
    "C88_once",
    "C88_eventually",
    "C88_attempts",
    "C88_race",
    "C88_no_race",
    "C88_always",
    "C88_can_miss"
   ],
   "note": "C88_can_miss shows a program with a data race for which 32 runs stop normally, so that the tests pass."
  },
  {
   "property": "C89",
   "status": "partial",
   "theorems": [
    "C89_local_refuted",
    "C89_elements_refuted",
    "C89_union_field_refuted",
    "C89_transmute_refuted",
    "C89_overflow_refuted",
    "C89_lookup_refuted",
    "C89_argument_refuted",
    "C89_layout",
    "C89_types_partial",
    "C89_decides_partial",
    "C89_never_accepted"
   ],
   "note": "The full statement is false: C89_local_refuted, C89_elements_refuted, C89_union_field_refuted, C89_transmute_refuted, C89_overflow_refuted, C89_lookup_refuted and C89_argument_refuted give programs for which the check panics. C89_decides_partial proves it for all programs without these constructs, C89_never_accepted that a program with one of them is never accepted; C89_layout says exactly which types have no layout."
  },
  {
   "property": "C90",
   "status": "partial",
   "theorems": [
    "C90_addr_of_refuted",
    "C90_transmute_refuted",
    "C90_exact",
    "C90_text_unique",
    "C90_accepted_partial"
   ],
   "note": "The full statement is false: C90_addr_of_refuted and C90_transmute_refuted give accepted programs on which the printer panics. C90_exact says exactly which programs are printed (fuel is the bound on the loop over composite types; C90_text_unique: the text does not depend on it). C90_accepted_partial: accepted programs are printed unless they have one of the two constructs."
  },
  {
   "property": "C91",
   "status": "proved",
   "theorems": [
    "C91_composite_types"
   ],
   "note": "F is the table of all declared types; that the functions are printed with F and leave it as it is says that the numbers in their text are positions in F."
  },
  {
   "property": "C92",
   "status": "proved",
   "theorems": [
    "C92_values",
    "C92_places",
    "C92_statements",
    "C92_terminators",
    "C92_texts",
    "C92_ill_typed_refuted",
    "C92_parentheses_refuted",
    "C92_programs_refuted"
   ],
   "note": "forget_value, forget_place, forget_stmt and forget_term (PrettySpec) say what the text leaves out. Proved with a reader of texts (PrettyRead). C92_ill_typed_refuted, C92_parentheses_refuted and C92_programs_refuted show limits: ambiguous texts of ill-typed expressions, unbalanced parentheses, and two accepted programs with the same text of which only one has undefined behaviour. C92_texts is about whole programs: printed (PrettyAlike) also fixes the list of declared types, and alike_programs says what of a program the text shows; the calling convention of functions, the cells of vtables and a start block that does not exist are not shown."
  },
  {
   "property": "C93",
   "status": "partial",
   "theorems": [
    "C93_methods_refuted",
    "C93_cases_refuted",
    "C93_order_partial"
   ],
   "note": "The full statement is false: C93_methods_refuted and C93_cases_refuted. C93_order_partial proves it for all other maps (same_program, PrettyOrder). Variants of enums are part of types, which are compared as they are in the model."
  },
  {
   "property": "C94",
   "status": "proved",
   "theorems": [
    "C94_load",
    "C94_expression",
    "C94_mention",
    "C94_basic",
    "C94_converse_fails"
   ],
   "note": "XSim: two states of the machine that differ only in the memory, by any relation that the memory operations keep. TreeDrop: the relation is that permissions have seen more reads. C94_converse_fails shows that the other direction is false."
  },
  {
   "property": "C95",
   "status": "proved",
   "theorems": [
    "C95_accepts",
    "C95_panics",
    "C95_start",
    "C95_functions",
    "C95_globals",
    "C95_traits",
    "C95_vtables",
    "C95_wf"
   ],
   "note": "SessionSpec: a session is a list of calls; what was declared is read off the list. Using a builder that was not handed out or was moved away is no Rust program (NoBehavior)."
  },
  {
   "property": "C96",
   "status": "proved",
   "theorems": [
    "C96_load",
    "C96_again",
    "C96_order",
    "C96_between",
    "C96_basic"
   ],
   "note": "The expressions are those without address-of at a reference or box type, as in C94. The state is the same except for the accesses recorded in the current step, whose order differs. Address-of at a reference type creates a new tree node, so it is out of scope by design."
  },
  {
   "property": "C97",
   "status": "proved",
   "theorems": [
    "C97_arguments",
    "C97_refused",
    "C97_compiler",
    "C97_as_rustc",
    "C97_only",
    "C97_sysroot",
    "C97_runs",
    "C97_dumps",
    "C97_target_ignored"
   ],
   "note": "The compiler, the JSON library and the build of the sysroot are parameters of the model. C97_target_ignored is a finding: a target given as --target=... is not seen when the sysroot is built, so the sysroot is one for the host."
  },
  {
   "property": "C98",
   "status": "proved",
   "theorems": [
    "C98_shared_same",
    "C98_shared_again",
    "C98_mutable_read",
    "C98_mutable_written"
   ],
   "note": "Histories are those of the memory interface with tree borrows; the loads are by any pointers into the allocation."
  },
  {
   "property": "C99",
   "status": "proved",
   "theorems": [
    "C99_step",
    "C99_start",
    "C99_history",
    "C99_execution",
    "C99_leave",
    "C99_calls",
    "C99_protectors",
    "C99_shared",
    "C99_mutable",
    "C99_entry",
    "C99_reload_shared",
    "C99_reload_mutable"
   ],
   "note": "C99_step, _start, _execution and _history hold for every memory model, C99_leave too. C99_calls and C99_protectors lift C35 to reachable states, C99_shared and C99_mutable lift C98 to executions; C99_reload_shared and C99_reload_mutable say the same about values loaded at a type. C99_entry shows that the retag at function entry establishes what they ask for. No well-formedness is assumed."
  },
  {
   "property": "C100",
   "status": "proved",
   "theorems": [
    "C100_disjoint",
    "C100_dead",
    "C100_live",
    "C100_readable",
    "C100_reload",
    "C100_invalidated"
   ],
   "note": "C100_disjoint and C100_dead lift C17 and C21 to executions. C100_live, C100_readable and C100_reload start at the retag statement of the function (no condition on the state is assumed but that it is reachable) and hold for every execution in which the call does not end (without_end in KeepSpec); that the protector stays in place is proved, not assumed. C100_live and C100_reload exclude mutable references to types that are not Unpin, which the code does not protect, and bytes of shared references in cells. C100_invalidated lifts C29."
  }
 ]
}