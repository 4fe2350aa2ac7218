{
 "claims": [
  {
   "property": "C01",
   "status": "proved",
   "theorems": [
    "C01_unsigned_exact"
   ],
   "note": ""
  },
  {
   "property": "C02",
   "status": "proved",
   "theorems": [
    "C02_signed_exact"
   ],
   "note": ""
  },
  {
   "property": "C03",
   "status": "proved",
   "theorems": [
    "C03_unsigned_errors",
    "C03_signed_errors",
    "C03_unsigned_unended",
    "C03_signed_unended"
   ],
   "note": ""
  },
  {
   "property": "C04",
   "status": "partial",
   "theorems": [
    "C04_int_length_refuted",
    "C04_int_length_partial"
   ],
   "note": "full statement refuted: overlong encodings of any length are accepted (C04_int_length_refuted); up to ceil(N/7) bytes exactly the official grammar is accepted"
  },
  {
   "property": "C05",
   "status": "partial",
   "theorems": [
    "C05_float_exact_partial",
    "C05_float_big_endian_refuted",
    "C05_float_big_endian_partial"
   ],
   "note": "proved for little-endian hosts; refuted on big-endian hosts (C05_float_big_endian_refuted), where the bytes are proved to be read in reverse, right exactly for palindromes"
  },
  {
   "property": "C06",
   "status": "proved",
   "theorems": [
    "C06_string_exact"
   ],
   "note": ""
  },
  {
   "property": "C07",
   "status": "proved",
   "theorems": [
    "C07_vectors_exact"
   ],
   "note": ""
  },
  {
   "property": "C08",
   "status": "proved",
   "theorems": [
    "C08_compact_vec_exact"
   ],
   "note": ""
  },
  {
   "property": "C09",
   "status": "proved",
   "theorems": [
    "C09_sized_exact"
   ],
   "note": ""
  },
  {
   "property": "C10",
   "status": "proved",
   "theorems": [
    "C10_instr_exact"
   ],
   "note": ""
  },
  {
   "property": "C11",
   "status": "proved",
   "theorems": [
    "C11_well_nested"
   ],
   "note": ""
  },
  {
   "property": "C12",
   "status": "proved",
   "theorems": [
    "C12_reserved_bytes",
    "C12_reserved_in_code",
    "C12_assigned_opcodes"
   ],
   "note": ""
  },
  {
   "property": "C13",
   "status": "proved",
   "theorems": [
    "C13_module_exact"
   ],
   "note": ""
  },
  {
   "property": "C14",
   "status": "proved",
   "theorems": [
    "C14_official_modules_parse"
   ],
   "note": ""
  },
  {
   "property": "C15",
   "status": "proved",
   "theorems": [
    "C15_round_trip",
    "C15_encode_official"
   ],
   "note": ""
  },
  {
   "property": "C16",
   "status": "proved",
   "theorems": [
    "C16_section_order",
    "C16_sections_unique"
   ],
   "note": ""
  },
  {
   "property": "C17",
   "status": "proved",
   "theorems": [
    "C17_custom_transparent"
   ],
   "note": ""
  },
  {
   "property": "C18",
   "status": "partial",
   "theorems": [
    "C18_missing_code_refuted",
    "C18_no_code_partial",
    "C18_pairing_partial",
    "C18_wrong_count_partial"
   ],
   "note": "a function section without a code section is accepted (C18_missing_code_refuted); the pairing and the count check are proved"
  },
  {
   "property": "C19",
   "status": "proved",
   "theorems": [
    "C19_parse_total"
   ],
   "note": ""
  },
  {
   "property": "C20",
   "status": "proved",
   "theorems": [
    "C20_parsers_local"
   ],
   "note": ""
  },
  {
   "property": "C21",
   "status": "proved",
   "theorems": [
    "C21_element_truncation",
    "C21_module_truncation"
   ],
   "note": ""
  },
  {
   "property": "C22",
   "status": "proved",
   "theorems": [
    "C22_preamble"
   ],
   "note": ""
  },
  {
   "property": "C23",
   "status": "partial",
   "theorems": [
    "C23_locals_refuted",
    "C23_reservation_refuted",
    "C23_locals_partial",
    "C23_vectors_partial"
   ],
   "note": "refuted for locals and reserved capacity (C23_locals_refuted, C23_reservation_refuted); the bounds that hold are proved"
  },
  {
   "property": "C24",
   "status": "proved",
   "theorems": [
    "C24_ranges"
   ],
   "note": ""
  },
  {
   "property": "C25",
   "status": "proved",
   "theorems": [
    "C25_depth_bound",
    "C25_depth_unbounded"
   ],
   "note": ""
  },
  {
   "property": "C26",
   "status": "proved",
   "theorems": [
    "C26_function_typing",
    "C26_ill_typed_rejected"
   ],
   "note": ""
  },
  {
   "property": "C27",
   "status": "partial",
   "theorems": [
    "C27_accepted_typed_refuted",
    "C27_accepted_typed_partial",
    "C27_alignment_only"
   ],
   "note": "refuted: alignment is not checked (C27_accepted_typed_refuted); proved for naturally aligned code, and over-alignment is the only cause"
  },
  {
   "property": "C28",
   "status": "partial",
   "theorems": [
    "C28_typed_accepted_refuted",
    "C28_typed_accepted_partial",
    "C28_own_label_only"
   ],
   "note": "refuted: branches to the label of the function itself are rejected (C28_typed_accepted_refuted); such branches are proved to be the only cause"
  },
  {
   "property": "C29",
   "status": "partial",
   "theorems": [
    "C29_validate_total",
    "C29_label_64_bits",
    "C29_label_32_bits_refuted",
    "C29_label_32_bits_partial"
   ],
   "note": "proved for every module value on 64-bit hosts; on 32-bit hosts br 4294967295 panics (C29_label_32_bits_refuted), and no other label does"
  },
  {
   "property": "C30",
   "status": "proved",
   "theorems": [
    "C30_no_dangling_index"
   ],
   "note": ""
  },
  {
   "property": "C31",
   "status": "proved",
   "theorems": [
    "C31_external_types"
   ],
   "note": ""
  },
  {
   "property": "C32",
   "status": "proved",
   "theorems": [
    "C32_export_names_unique",
    "C32_export_renaming"
   ],
   "note": ""
  },
  {
   "property": "C33",
   "status": "proved",
   "theorems": [
    "C33_start_type"
   ],
   "note": ""
  },
  {
   "property": "C34",
   "status": "partial",
   "theorems": [
    "C34_table_limits",
    "C34_memory_limits_refuted",
    "C34_memory_limits_partial"
   ],
   "note": "tables proved; memories refuted at 65536 pages (C34_memory_limits_refuted), exact bound 65535 proved"
  },
  {
   "property": "C35",
   "status": "partial",
   "theorems": [
    "C35_one_table_memory_refuted",
    "C35_any_number",
    "C35_one_table_memory_partial"
   ],
   "note": "refuted: imports are not counted (C35_one_table_memory_refuted); proved for definitions"
  },
  {
   "property": "C36",
   "status": "partial",
   "theorems": [
    "C36_global_init_refuted",
    "C36_imported_global_refuted",
    "C36_global_init_partial"
   ],
   "note": "refuted: initialisers see the module's own globals (C36_global_init_refuted) and not the imported ones (C36_imported_global_refuted); proved over own globals, and officially for initialisers without global.get"
  },
  {
   "property": "C37",
   "status": "proved",
   "theorems": [
    "C37_element_segments",
    "C37_data_segments"
   ],
   "note": ""
  },
  {
   "property": "C38",
   "status": "proved",
   "theorems": [
    "C38_functions_independent",
    "C38_functions_mix",
    "C38_contents_mix",
    "C38_segment_order"
   ],
   "note": ""
  },
  {
   "property": "C39",
   "status": "proved",
   "theorems": [
    "C39_global_set_mutable",
    "C39_no_global_set_in_init"
   ],
   "note": ""
  },
  {
   "property": "C40",
   "status": "proved",
   "theorems": [
    "C40_validation_exact",
    "C40_accepted_official",
    "C40_official_accepted"
   ],
   "note": ""
  },
  {
   "property": "C41",
   "status": "partial",
   "theorems": [
    "C41_no_stray_end",
    "C41_stray_else_refuted",
    "C41_stray_else_partial"
   ],
   "note": "End proved; Else refuted in function bodies (C41_stray_else_refuted), proved in constant expressions; what is accepted instead is characterised exactly by C50"
  },
  {
   "property": "C42",
   "status": "partial",
   "theorems": [
    "C42_exit_zero",
    "C42_exit_one_refuted",
    "C42_exit_one_partial",
    "C42_crash",
    "C42_messages"
   ],
   "note": "proved except for an empty argument vector, which makes the program panic (C42_exit_one_refuted)"
  },
  {
   "property": "C43",
   "status": "proved",
   "theorems": [
    "C43_pipeline",
    "C43_official_files",
    "C43_accepted_files"
   ],
   "note": ""
  },
  {
   "property": "C44",
   "status": "proved",
   "theorems": [
    "C44_one_pass",
    "C44_errors_final"
   ],
   "note": ""
  },
  {
   "property": "C45",
   "status": "proved",
   "theorems": [
    "C45_one_reading",
    "C45_code_prefix_free"
   ],
   "note": ""
  },
  {
   "property": "C46",
   "status": "partial",
   "theorems": [
    "C46_same_64",
    "C46_same_labels",
    "C46_same_32_refuted",
    "C46_same_32_partial",
    "C46_cause_32"
   ],
   "note": "64 bits proved equal; refuted for 32 bits (C46_same_32_refuted: br 4294967295 crashes instead of being rejected); acceptance is proved equal on 32 bits and that branch the only cause"
  },
  {
   "property": "C47",
   "status": "proved",
   "theorems": [
    "C47_files_safe",
    "C47_values_safe",
    "C47_pseudo_stuck"
   ],
   "note": ""
  },
  {
   "property": "C48",
   "status": "partial",
   "theorems": [
    "C48_instantiate_refuted",
    "C48_instantiate_partial",
    "C48_official",
    "C48_unfit_stuck",
    "C48_segments",
    "C48_tables"
   ],
   "note": "refuted: an accepted global can be initialised with its own value (C48_instantiate_refuted); proved when initialisers that read a global read an imported one of the right type, and reading a global that is not imported is proved to get stuck always"
  },
  {
   "property": "C49",
   "status": "proved",
   "theorems": [
    "C49_canonical",
    "C49_unique",
    "C49_shortest",
    "C49_image",
    "C49_official_image",
    "C49_official_counterpart",
    "C49_lengths"
   ],
   "note": ""
  },
  {
   "property": "C50",
   "status": "proved",
   "theorems": [
    "C50_function_verdict",
    "C50_module_verdict",
    "C50_alternatives_plain",
    "C50_plain_unchanged"
   ],
   "note": ""
  },
  {
   "property": "C51",
   "status": "proved",
   "theorems": [
    "C51_module_exact",
    "C51_module_agree",
    "C51_total"
   ],
   "note": ""
  },
  {
   "property": "C52",
   "status": "proved",
   "theorems": [
    "C52_elements_exact",
    "C52_elements_total",
    "C52_widths_exact",
    "C52_widths_total",
    "C52_core_agree"
   ],
   "note": ""
  },
  {
   "property": "C53",
   "status": "proved",
   "theorems": [
    "C53_accepted_exact",
    "C53_official_exact",
    "C53_files_exact"
   ],
   "note": ""
  },
  {
   "property": "C54",
   "status": "proved",
   "theorems": [
    "C54_skeleton",
    "C54_files"
   ],
   "note": ""
  },
  {
   "property": "C55",
   "status": "proved",
   "theorems": [
    "C55_assembly",
    "C55_put_together",
    "C55_reordered"
   ],
   "note": ""
  },
  {
   "property": "C56",
   "status": "partial",
   "theorems": [
    "C56_every_failure_speaks",
    "C56_text_partial",
    "C56_text_refuted",
    "C56_error_text",
    "C56_numbers",
    "C56_validation_text_refuted"
   ],
   "note": "refuted: signed and unsigned integers out of range have one text (C56_text_refuted), and rejected modules are blamed on the end of the file (C56_validation_text_refuted); proved to be the only two failures with a common text"
  },
  {
   "property": "C57",
   "status": "proved",
   "theorems": [
    "C57_possible_errors"
   ],
   "note": ""
  },
  {
   "property": "C58",
   "status": "proved",
   "theorems": [
    "C58_module",
    "C58_module_ok",
    "C58_elements",
    "C58_ending",
    "C58_ending_elements",
    "C58_fuel",
    "C58_fuel_elements"
   ],
   "note": ""
  },
  {
   "property": "C59",
   "status": "proved",
   "theorems": [
    "C59_endless_rejects",
    "C59_stops_iff",
    "C59_endless_number",
    "C59_endless_module",
    "C59_endless_viable",
    "C59_endless_sections"
   ],
   "note": ""
  },
  {
   "property": "C60",
   "status": "partial",
   "theorems": [
    "C60_printout_partial",
    "C60_printout_refuted"
   ],
   "note": "refuted: floats that are NaN all print alike, so files that differ in a NaN payload share a printout (C60_printout_refuted); proved to be the only difference that is lost"
  },
  {
   "property": "C61",
   "status": "proved",
   "theorems": [
    "C61_silent",
    "C61_status",
    "C61_crash"
   ],
   "note": ""
  },
  {
   "property": "C62",
   "status": "partial",
   "theorems": [
    "C62_equal_partial",
    "C62_reflexive_partial",
    "C62_symmetric",
    "C62_transitive",
    "C62_reflexive_refuted",
    "C62_zeros_refuted",
    "C62_markers"
   ],
   "note": "refuted: a module with a NaN constant is not equal to itself (C62_reflexive_refuted), and modules that differ in the sign of a zero are equal (C62_zeros_refuted); proved to be the only two exceptions, symmetry and transitivity proved"
  },
  {
   "property": "C63",
   "status": "proved",
   "theorems": [
    "C63_prompt",
    "C63_code",
    "C63_names_late",
    "C63_sizes_late"
   ],
   "note": ""
  },
  {
   "property": "C64",
   "status": "partial",
   "theorems": [
    "C64_same",
    "C64_outcome",
    "C64_reserved",
    "C64_reserved_sharp",
    "C64_each",
    "C64_locals",
    "C64_hosts_partial",
    "C64_hosts_refuted",
    "C64_accepted_refuted",
    "C64_accepted_partial",
    "C64_needs"
   ],
   "note": "refuted on 32-bit hosts, where 15 bytes make Vec::with_capacity panic (C64_hosts_refuted) and 30 bytes of an acceptable file exhaust the address space (C64_accepted_refuted); proved on 64-bit hosts for files below 2 GiB, and on any host for accepted files when the file and the local variables fit, both when the call stack suffices (C68)"
  },
  {
   "property": "C65",
   "status": "proved",
   "theorems": [
    "C65_module",
    "C65_elements",
    "C65_either"
   ],
   "note": ""
  },
  {
   "property": "C66",
   "status": "partial",
   "theorems": [
    "C66_any",
    "C66_no_crash_partial",
    "C66_accepted_partial",
    "C66_no_crash_refuted",
    "C66_accepted_refuted",
    "C66_checking_refuted"
   ],
   "note": "refuted on 32-bit hosts, by a file of 15 bytes that cannot be parsed (C66_no_crash_refuted) a valid one of 30 bytes (C66_accepted_refuted) and another that is read but cannot be checked (C66_checking_refuted); proved on 64-bit hosts for files below 512 MiB, on 32-bit hosts for accepted files that fit into memory, both when the call stack suffices, and that nothing but a crash can differ from an unlimited machine on any host"
  },
  {
   "property": "C67",
   "status": "partial",
   "theorems": [
    "C67_same_but_segments",
    "C67_read",
    "C67_accepted_partial",
    "C67_accepted_refuted",
    "C67_includes_old",
    "C67_distinct"
   ],
   "note": "refuted with several tables: flag 2 of an element segment is taken for table 2 (C67_accepted_refuted); proved for modules with one table and memory, and that only segments of other tables and memories can be misread"
  },
  {
   "property": "C68",
   "status": "partial",
   "theorems": [
    "C68_bound",
    "C68_limit",
    "C68_deepest",
    "C68_exact",
    "C68_shallow",
    "C68_needs",
    "C68_no_crash_partial",
    "C68_no_crash_refuted"
   ],
   "note": "refuted: for every host with fewer than 1431655762 levels of stack there is a valid file of 3 bytes per level that crashes the program (C68_no_crash_refuted); proved for files below 512 MiB of at most twice as many bytes as there are safe levels, and that calls nest exactly as deeply as the code that is read"
  },
  {
   "property": "C69",
   "status": "proved",
   "theorems": [
    "C69_local",
    "C69_removal",
    "C69_types"
   ],
   "note": ""
  },
  {
   "property": "C70",
   "status": "proved",
   "theorems": [
    "C70_same",
    "C70_outcome",
    "C70_each",
    "C70_file",
    "C70_exact",
    "C70_piles_up",
    "C70_needs",
    "C70_enough"
   ],
   "note": ""
  },
  {
   "property": "C71",
   "status": "proved",
   "theorems": [
    "C71_no_panic",
    "C71_unsettled_refuted",
    "C71_instr",
    "C71_module",
    "C71_reading",
    "C71_stacks"
   ],
   "note": ""
  },
  {
   "property": "C72",
   "status": "proved",
   "theorems": [
    "C72_sound",
    "C72_complete",
    "C72_stuck",
    "C72_reuse_refuted",
    "C72_pseudo_refuted",
    "C72_locals_refuted"
   ],
   "note": ""
  },
  {
   "property": "C73",
   "status": "proved",
   "theorems": [
    "C73_same",
    "C73_exact",
    "C73_bound",
    "C73_file",
    "C73_square",
    "C73_not_linear"
   ],
   "note": ""
  },
  {
   "property": "C74",
   "status": "proved",
   "theorems": [
    "C74_same",
    "C74_linear",
    "C74_least",
    "C74_calls",
    "C74_calls_any",
    "C74_calls_exact",
    "C74_calls_accepted",
    "C74_copies",
    "C74_copies_many",
    "C74_total"
   ],
   "note": ""
  },
  {
   "property": "C75",
   "status": "proved",
   "theorems": [
    "C75_equality",
    "C75_error_texts",
    "C75_file_errors",
    "C75_module_text",
    "C75_module_line",
    "C75_bytes",
    "C75_sized",
    "C75_sized_text",
    "C75_validation_error"
   ],
   "note": ""
  },
  {
   "property": "C76",
   "status": "proved",
   "theorems": [
    "C76_settled",
    "C76_prompt"
   ],
   "note": ""
  },
  {
   "property": "C77",
   "status": "proved",
   "theorems": [
    "C77_principal",
    "C77_frame"
   ],
   "note": ""
  },
  {
   "property": "C78",
   "status": "proved",
   "theorems": [
    "C78_replace",
    "C78_nop",
    "C78_tee",
    "C78_if",
    "C78_dead",
    "C78_module",
    "C78_module_dead"
   ],
   "note": ""
  },
  {
   "property": "C79",
   "status": "proved",
   "theorems": [
    "C79_accepted",
    "C79_official",
    "C79_files",
    "C79_files_later"
   ],
   "note": ""
  },
  {
   "property": "C80",
   "status": "proved",
   "theorems": [
    "C80_one_meaning",
    "C80_four",
    "C80_exact",
    "C80_independent",
    "C80_relaxed",
    "C80_accepted_files",
    "C80_official_files"
   ],
   "note": ""
  },
  {
   "property": "C81",
   "status": "proved",
   "theorems": [
    "C81_cut",
    "C81_cut_unique",
    "C81_mix",
    "C81_replace",
    "C81_drop",
    "C81_separate"
   ],
   "note": ""
  },
  {
   "property": "C82",
   "status": "proved",
   "theorems": [
    "C82_exact",
    "C82_begin",
    "C82_host",
    "C82_enough",
    "C82_file"
   ],
   "note": ""
  },
  {
   "property": "C83",
   "status": "proved",
   "theorems": [
    "C83_exact",
    "C83_printed",
    "C83_file",
    "C83_ifs",
    "C83_locals",
    "C83_length",
    "C83_square"
   ],
   "note": ""
  },
  {
   "property": "C84",
   "status": "proved",
   "theorems": [
    "C84_first",
    "C84_after",
    "C84_file",
    "C84_whole",
    "C84_calls",
    "C84_never",
    "C84_elements",
    "C84_elements_after",
    "C84_elements_never",
    "C84_fuel",
    "C84_fuel_elements"
   ],
   "note": ""
  },
  {
   "property": "C85",
   "status": "proved",
   "theorems": [
    "C85_iff",
    "C85_grows",
    "C85_short",
    "C85_refused",
    "C85_pad",
    "C85_never",
    "C85_zeros",
    "C85_second"
   ],
   "note": ""
  },
  {
   "property": "C86",
   "status": "proved",
   "theorems": [
    "C86_linked",
    "C86_exported",
    "C86_imports",
    "C86_funcs",
    "C86_globals",
    "C86_tables",
    "C86_mems",
    "C86_assembly"
   ],
   "note": ""
  },
  {
   "property": "C87",
   "status": "proved",
   "theorems": [
    "C87_requests",
    "C87_module",
    "C87_shortest",
    "C87_shortest_host",
    "C87_shortest_program"
   ],
   "note": ""
  },
  {
   "property": "C88",
   "status": "proved",
   "theorems": [
    "C88_exact",
    "C88_every",
    "C88_accepted",
    "C88_eight"
   ],
   "note": ""
  },
  {
   "property": "C89",
   "status": "proved",
   "theorems": [
    "C89_official",
    "C89_accepted",
    "C89_exactly",
    "C89_same",
    "C89_instantiates",
    "C89_runs"
   ],
   "note": ""
  },
  {
   "property": "C90",
   "status": "proved",
   "theorems": [
    "C90_runs",
    "C90_both",
    "C90_more",
    "C90_nop",
    "C90_tee",
    "C90_if",
    "C90_dead",
    "C90_const",
    "C90_getset"
   ],
   "note": ""
  },
  {
   "property": "C91",
   "status": "proved",
   "theorems": [
    "C91_verdict",
    "C91_official",
    "C91_same",
    "C91_instantiates",
    "C91_unused",
    "C91_reordered"
   ],
   "note": ""
  },
  {
   "property": "C92",
   "status": "proved",
   "theorems": [
    "C92_official",
    "C92_accepted",
    "C92_same",
    "C92_back",
    "C92_instantiates",
    "C92_runs"
   ],
   "note": ""
  },
  {
   "property": "C93",
   "status": "proved",
   "theorems": [
    "C93_official",
    "C93_accepted",
    "C93_exec",
    "C93_runs"
   ],
   "note": ""
  },
  {
   "property": "C94",
   "status": "proved",
   "theorems": [
    "C94_official",
    "C94_accepted",
    "C94_exec",
    "C94_does",
    "C94_runs"
   ],
   "note": ""
  }
 ]
}