{
 "claims": [
  {
   "property": "C01",
   "status": "proved",
   "theorems": [
    "C01_next_terminates"
   ],
   "note": "Every call from every state reachable by any number of calls with the retain flags set arbitrarily."
  },
  {
   "property": "C02",
   "status": "proved",
   "theorems": [
    "C02_no_runtime_panic"
   ],
   "note": ""
  },
  {
   "property": "C03",
   "status": "proved",
   "theorems": [
    "C03_spans_ordered"
   ],
   "note": ""
  },
  {
   "property": "C04",
   "status": "partial",
   "theorems": [
    "C04_progress_partial",
    "C04_token_count_partial",
    "C04_progress_refuted"
   ],
   "note": "False as stated: '-->' , '<!--' and a dot before a signed or dotted number give empty tokens for ever. Proved: these are the only inputs where a token is empty, and files without them give at most one token per byte."
  },
  {
   "property": "C05",
   "status": "proved",
   "theorems": [
    "C05_gaps",
    "C05_first_gap",
    "C05_eof_at_end",
    "C05_gaps_strict_refuted"
   ],
   "note": "The lexer folds a carriage return into the next character, so for files with a lone CR the gap may contain '*' CR '/' as comment end; with CR only before LF the strict reading holds."
  },
  {
   "property": "C06",
   "status": "proved",
   "theorems": [
    "C06_token_text"
   ],
   "note": ""
  },
  {
   "property": "C07",
   "status": "proved",
   "theorems": [
    "C07_line_and_column",
    "C07_huge_file_refuted"
   ],
   "note": "For files below 2 GiB; above, the column wraps (int32)."
  },
  {
   "property": "C08",
   "status": "partial",
   "theorems": [
    "C08_line_table",
    "C08_parser_line_table_partial",
    "C08_parser_line_set",
    "C08_line_table_refuted"
   ],
   "note": "Proved for tokenising, for parsing without broken declarations, and for all files as a set. False as an increasing list when the parser re-reads a broken declaration: its lines are entered twice."
  },
  {
   "property": "C09",
   "status": "proved",
   "theorems": [
    "C09_error_rendering_total",
    "C09_error_rendering_content",
    "C09_huge_file_refuted"
   ],
   "note": "For files below 2 GiB."
  },
  {
   "property": "C20",
   "status": "proved",
   "theorems": [
    "C20_vlq_round_trip"
   ],
   "note": "For magnitudes below 2^30; C21 is about the rest."
  },
  {
   "property": "C21",
   "status": "partial",
   "theorems": [
    "C21_vlq_exact_range",
    "C21_vlq_int32_refuted"
   ],
   "note": "False as stated; the exact range is proved."
  },
  {
   "property": "C42",
   "status": "partial",
   "theorems": [
    "C42_underline_aligned_partial",
    "C42_underline_aligned_refuted"
   ],
   "note": "False as stated; proved to hold exactly when no tab follows the span start on its line."
  },
  {
   "property": "C38",
   "status": "partial",
   "theorems": [
    "C38_existing_file_partial",
    "C38_existing_file_no_broken_entry",
    "C38_existing_file_refuted"
   ],
   "note": "False as stated when a package's style or index.css is a directory and oops.Wrapf(nil) is nil: the empty path is returned without error. Proved: this is the only exception."
  },
  {
   "property": "C39",
   "status": "partial",
   "theorems": [
    "C39_relative",
    "C39_nearest_partial",
    "C39_place_path",
    "C39_root_refuted"
   ],
   "note": "False for /node_modules, which is never searched; proved for all other places."
  },
  {
   "property": "C40",
   "status": "partial",
   "theorems": [
    "C40_terminates_partial",
    "C40_relative_directory_refuted"
   ],
   "note": "False for relative directories (the loop waits for \"/\"); proved for every absolute directory (the only kind Compile passes) and for relative specifiers."
  },
  {
   "property": "C19",
   "status": "proved",
   "theorems": [
    "C19_map_keeps_css",
    "C19_map_total"
   ],
   "note": ""
  },
  {
   "property": "C22",
   "status": "proved",
   "theorems": [
    "C22_map_points_at_rules",
    "C22_map_positions",
    "C22_same_unit_refuted"
   ],
   "note": "Generated columns count characters and original columns count bytes, as the code does; C22_same_unit_refuted records the mismatch."
  },
  {
   "property": "C23",
   "status": "partial",
   "theorems": [
    "C23_passthrough_partial",
    "C23_identity",
    "C23_unchanged_refuted"
   ],
   "note": "False as stated: @import is duplicated, @custom-media and empty rules disappear. Proved: exactly that happens and nothing else."
  },
  {
   "property": "C24",
   "status": "partial",
   "theorems": [
    "C24_any_link_sound",
    "C24_any_link_partial",
    "C24_any_link_refuted"
   ],
   "note": "False as stated for a selector with two :any-link (mixed combinations are lost). Proved: never matches more; equal sets when each selector has at most one."
  },
  {
   "property": "C25",
   "status": "proved",
   "theorems": [
    "C25_inclusive",
    "C25_strict",
    "C25_large_bound"
   ],
   "note": "For < and > the bound must be a number that adding .001 moves; C25_large_bound shows what happens otherwise. The float round trip is a hypothesis."
  },
  {
   "property": "C26",
   "status": "partial",
   "theorems": [
    "C26_custom_media_partial",
    "C26_use_before_definition_refuted",
    "C26_nested_definition_refuted",
    "C26_negated_definition_refuted"
   ],
   "note": "False as stated for uses before the definition, definitions by other custom queries and negated definitions. Proved for all others."
  },
  {
   "property": "C27",
   "status": "partial",
   "theorems": [
    "C27_var_partial",
    "C27_root_without_space_refuted",
    "C27_nested_use_refuted",
    "C27_chained_definition_refuted",
    "C27_use_before_definition_refuted",
    "C27_not_root_refuted"
   ],
   "note": "False as stated: ':root{' is not recognised, nested and chained references are left dangling. Proved for top-level references to flat definitions in ':root {' rules."
  },
  {
   "property": "C28",
   "status": "proved",
   "theorems": [
    "C28_calc_sound",
    "C28_value_unique",
    "C28_calc_complete"
   ],
   "note": "For every arithmetic with format/parse round trip and commutative multiplication."
  },
  {
   "property": "C29",
   "status": "partial",
   "theorems": [
    "C29_order_partial",
    "C29_order_inlined",
    "C29_duplicated_import_refuted"
   ],
   "note": "Order proved for every sheet and options; 'no duplicates' is false for @import without inlining, and only there."
  },
  {
   "property": "C30",
   "status": "partial",
   "theorems": [
    "C30_media_block_untouched",
    "C30_transforms_reach_media_refuted"
   ],
   "note": "False as stated: the block of a media rule is never transformed (proved)."
  },
  {
   "property": "C31",
   "status": "partial",
   "theorems": [
    "C31_transform_returns_partial",
    "C31_parsed_partial",
    "C31_inlining_returns_partial",
    "C31_transform_crash_refuted"
   ],
   "note": "False as stated: '{}' and '@media{}' parse and make Transform panic. Proved to return for every structurally sound sheet."
  },
  {
   "property": "C32",
   "status": "proved",
   "theorems": [
    "C32_inlining"
   ],
   "note": ""
  },
  {
   "property": "C10",
   "status": "partial",
   "theorems": [
    "C10_terminates_partial",
    "C10_lost_declaration_loops",
    "C10_stray_token_loops",
    "C10_marker_loops",
    "C10_terminates_refuted"
   ],
   "note": "False as stated. Proved: Parse returns unless it reaches one of the situations named in C10_terminates_partial, and each of these does loop for ever."
  },
  {
   "property": "C11",
   "status": "partial",
   "theorems": [
    "C11_no_crash_partial",
    "C11_no_crash_refuted"
   ],
   "note": "False as stated for an unterminated leading comment, '@custom-media --x;' and a broken math function in an attribute selector. Proved: no other crash exists."
  },
  {
   "property": "C12",
   "status": "proved",
   "theorems": [
    "C12_deterministic",
    "C12_stable"
   ],
   "note": ""
  },
  {
   "property": "C13",
   "status": "partial",
   "theorems": [
    "C13_recovery_partial",
    "C13_verbatim",
    "C13_neighbours_refuted"
   ],
   "note": "False as stated when there is no later semicolon (Parse loops) and when the next semicolon belongs to another rule (that rule is lost). Proved for all others; kept text is always printed."
  },
  {
   "property": "C14",
   "status": "proved",
   "theorems": [
    "C14_imports"
   ],
   "note": ""
  },
  {
   "property": "C15",
   "status": "proved",
   "theorems": [
    "C15_sound"
   ],
   "note": "A rule beginning with its block and a @media without queries have no list at all (nil in Go); every list that exists is non-empty."
  },
  {
   "property": "C16",
   "status": "partial",
   "theorems": [
    "C16_round_trip_partial",
    "C16_with_map_partial",
    "C16_round_trip_refuted",
    "C16_more_refuted"
   ],
   "note": "False as stated; witnesses proved. Proved for every stylesheet in an explicit decidable class of constructs (writable): the printed text parses to the same tree up to positions and trailing selector white space, and prints to the same text again."
  },
  {
   "property": "C17",
   "status": "partial",
   "theorems": [
    "C17_injective_partial",
    "C17_injective_refuted"
   ],
   "note": "False as stated; witnesses proved. Proved for every pair of stylesheets in the same class (writable)."
  },
  {
   "property": "C18",
   "status": "partial",
   "theorems": [
    "C18_print_succeeds_partial",
    "C18_print_succeeds_refuted"
   ],
   "note": "False as stated; the exact set of parsed stylesheets on which Print fails is proved."
  },
  {
   "property": "C33",
   "status": "partial",
   "theorems": [
    "C33_imported_definitions_refuted",
    "C33_own_rules",
    "C33_never_reach"
   ],
   "note": "False as stated; witness proved, and the opposite for all files: the importing file's own rules do not depend on the imported file at all."
  },
  {
   "property": "C34",
   "status": "partial",
   "theorems": [
    "C34_bounded_partial",
    "C34_returns_partial",
    "C34_inlined_chain_partial",
    "C34_no_result",
    "C34_circular_imports_never_return",
    "C34_circular_imports_refuted",
    "C34_overlapping_calls_refuted"
   ],
   "note": "False as stated: circular imports never end under any schedule, and overlapping addSource calls may run for ever. Proved: all other executions are bounded; one entry with a chain of inlined imports returns under every schedule exactly if the chain has a result."
  },
  {
   "property": "C35",
   "status": "partial",
   "theorems": [
    "C35_outputs_partial",
    "C35_loop_variable_refuted",
    "C35_overlapping_calls_refuted"
   ],
   "note": "False as stated; two independent witnesses proved. Proved without inlining and without overlapping addSource calls: outputs are right, and the last entry always has one."
  },
  {
   "property": "C36",
   "status": "partial",
   "theorems": [
    "C36_one_result_partial",
    "C36_self_import_refuted"
   ],
   "note": "False as stated for an entry that imports itself; proved for every other, over all schedules."
  },
  {
   "property": "C37",
   "status": "partial",
   "theorems": [
    "C37_indices_partial",
    "C37_overlapping_calls_refuted"
   ],
   "note": "False as stated; proved for all executions in which addSource calls do not overlap."
  },
  {
   "property": "C41",
   "status": "partial",
   "theorems": [
    "C41_messages_partial",
    "C41_once_at_its_line_refuted",
    "C41_syntax_error_refuted"
   ],
   "note": "False as stated; what the messages are is proved for every list of errors."
  },
  {
   "property": "C43",
   "status": "partial",
   "theorems": [
    "C43_same_text_partial",
    "C43_entries_independent_refuted"
   ],
   "note": "False as stated with inlining; proved for the CSS text without inlining and without overlapping addSource calls."
  },
  {
   "property": "C45",
   "status": "partial",
   "theorems": [
    "C45_no_crash_partial",
    "C45_inlined_chain_partial",
    "C45_no_crash_refuted"
   ],
   "note": "False as stated; proved without inlining and without overlapping addSource calls, and under every schedule for one entry with a chain of inlined imports."
  },
  {
   "property": "C46",
   "status": "proved",
   "theorems": [
    "C46_plugin_answer",
    "C46_plugin_does_not_panic"
   ],
   "note": "That rendering an error does not panic is proved except with inlining (C52) and above 2 GiB (C09)."
  },
  {
   "property": "C47",
   "status": "proved",
   "theorems": [
    "C47_tree_is_a_reading",
    "C47_tokens_cover_file"
   ],
   "note": "The grammar (ReadSpec.v) is the one the parser implements, including its liberties; these are listed there and in DESIGN.md."
  },
  {
   "property": "C44",
   "status": "partial",
   "theorems": [
    "C44_map_is_json_partial",
    "C44_path_refuted"
   ],
   "note": "False as stated for paths that need escaping (witnesses proved), and bytes that are not UTF-8 are replaced. Proved for all other paths."
  },
  {
   "property": "C48",
   "status": "partial",
   "theorems": [
    "C48_walk_partial",
    "C48_tree_is_listed",
    "C48_walk_exact",
    "C48_panic_refuted",
    "C48_missed_refuted"
   ],
   "note": "False as stated; witnesses proved, and exactly what Walk does on every tree."
  },
  {
   "property": "C49",
   "status": "proved",
   "theorems": [
    "C49_plain_reading_is_found",
    "C49_plain_reading_is_unique"
   ],
   "note": "Completeness of the parser for readings that take no liberties; the liberties are marked in ReadSpec.v."
  },
  {
   "property": "C50",
   "status": "proved",
   "theorems": [
    "C50_next_follows_grammar",
    "C50_first_follows_grammar",
    "C50_token_is_delivered",
    "C50_error_is_reported",
    "C50_grammar_unambiguous",
    "C50_tokens_of_file",
    "C50_tokens_unique",
    "C50_tree_reads_bytes",
    "C50_plain_bytes_accepted",
    "C50_plain_bytes_one_tree"
   ],
   "note": "Soundness, completeness and unambiguity against LexGrammar.v, for single calls and whole files; bytes to tree together with C47 and C49."
  },
  {
   "property": "C51",
   "status": "proved",
   "theorems": [
    "C51_nodes_are_placed"
   ],
   "note": "All nodes of all parsed trees."
  },
  {
   "property": "C52",
   "status": "partial",
   "theorems": [
    "C52_reports_are_at_nodes",
    "C52_errors_point_into_file_partial",
    "C52_errors_render_partial",
    "C52_errors_point_somewhere",
    "C52_inlined_refuted"
   ],
   "note": "False as stated with inlined imports; witness proved. Proved for every other project and every schedule; with inlining the span is one of some file that was read."
  },
  {
   "property": "C53",
   "status": "proved",
   "theorems": [
    "C53_inlined_chain",
    "C53_inlined_unique",
    "C53_chain_ends"
   ],
   "note": "All schedules. Files with several @imports are not covered: there the loop variable decides what replaces what (C35)."
  },
  {
   "property": "C54",
   "status": "proved",
   "theorems": [
    "C54_one_entry",
    "C54_entries",
    "C54_inlined",
    "C54_overflow_refuted",
    "C54_link_refuted",
    "C54_sum_refuted"
   ],
   "note": "The conditions are decidable on the source, except that computed numbers are decimal. The refuted theorems show what happens without them."
  },
  {
   "property": "C55",
   "status": "partial",
   "theorems": [
    "C55_races_exactly",
    "C55_one_at_a_time",
    "C55_refuted",
    "C55_outputs_refuted",
    "C55_next_refuted",
    "C55_nodes_refuted"
   ],
   "note": "False as stated; C55_races_exactly says for which projects races exist, C55_one_at_a_time what holds for the others, the _refuted theorems on which variables."
  },
  {
   "property": "C56",
   "status": "partial",
   "theorems": [
    "C56_twice_partial",
    "C56_twice_refuted",
    "C56_compiled_partial",
    "C56_compiled_refuted"
   ],
   "note": "False as stated; witnesses proved. Proved for chains of files, over all schedules, when no file leaves anything to compute for a second pass (settledNode, decidable on the source) and each @import is the first rule."
  },
  {
   "property": "C57",
   "status": "partial",
   "theorems": [
    "C57_one_entry_partial",
    "C57_entries_partial",
    "C57_inlined_partial",
    "C57_unsettled_refuted",
    "C57_imports_refuted",
    "C57_sums_refuted"
   ],
   "note": "False as stated; witnesses proved. Proved, over all schedules of both runs, for files that are plain (C54) and settled (C56) with outputs that have no @import; the theorems also say that the second run does give an output. For sources with a sum in calc() that is not computed, which are not plain, it is false even when they are settled and import nothing (C57_sums_refuted)."
  },
  {
   "property": "C58",
   "status": "partial",
   "theorems": [
    "C58_reports_partial",
    "C58_no_other_reports_partial",
    "C58_inlined_partial",
    "C58_nested_refuted",
    "C58_media_refuted",
    "C58_fallback_refuted",
    "C58_definition_refuted",
    "C58_defined_later_refuted",
    "C58_root_without_space_refuted",
    "C58_local_refuted",
    "C58_empty_fallback_refuted"
   ],
   "note": "False as stated; witnesses proved. What is reported is characterised exactly (list and order) for every file whose selectors are plain, alone and with imports inlined."
  },
  {
   "property": "C59",
   "status": "partial",
   "theorems": [
    "C59_genuine_partial",
    "C59_reported_partial",
    "C59_exact_partial",
    "C59_lost_entry_refuted",
    "C59_lost_import_refuted",
    "C59_lost_file_refuted",
    "C59_blamed_refuted"
   ],
   "note": "False as stated; witnesses proved. Imports not inlined: every error in every state of every schedule is a fault of the project (soundness); the faults of the last entry and of what it leads to by last imports are reported when calls of addSource do not overlap; both halves in full, any schedule, for one entry and at most one @import per file."
  },
  {
   "property": "C60",
   "status": "proved",
   "theorems": [
    "C60_readings_join",
    "C60_parser_joins",
    "C60_texts_join"
   ],
   "note": "From the bytes, by the lexical grammar and the grammar of C50: plain files of any length, with no separator between them."
  },
  {
   "property": "C61",
   "status": "proved",
   "theorems": [
    "C61_added_layout",
    "C61_room_stays",
    "C61_same_tree",
    "C61_same_output",
    "C61_same_inlined_output",
    "C61_same_texts"
   ],
   "note": "From the bytes, by the lexical grammar and the grammar of C50. Additions are at the start, at the end, or after any token, before one that is read with white space skipped: a token that is not one of ; : , ( ) [ ] { } must have no escape or carriage return and be followed by white space, a slash or one of these marks, and the next token must not be one whose string the parser heeds whatever its kind (the finding about !important and attribute operators). Comments with a carriage return are left out."
  },
  {
   "property": "C62",
   "status": "partial",
   "theorems": [
    "C62_blanks_are_parts_partial",
    "C62_parts_are_blanks",
    "C62_always_lost_after_brackets",
    "C62_descendant_refuted"
   ],
   "note": "False as stated; proved in full for all parts but attribute selectors, after which white space is shown to be always lost: a[b] c is printed a[b]c."
  },
  {
   "property": "C63",
   "status": "proved",
   "theorems": [
    "C63_cli",
    "C63_manualtest"
   ],
   "note": "The programs read no input, so the theorems are about their only execution, for every number of steps that is large enough; what spew prints is not modelled."
  },
  {
   "property": "C64",
   "status": "partial",
   "theorems": [
    "C64_map_leads_to_file_partial",
    "C64_raw_declaration_refuted",
    "C64_inlined_refuted"
   ],
   "note": "False as stated; proved for one entry without inlining and files without raw declarations, refuted by a raw declaration over two lines and by an inlined file."
  },
  {
   "property": "C65",
   "status": "partial",
   "theorems": [
    "C65_transform_partial",
    "C65_chain_partial",
    "C65_means_unique",
    "C65_condition_refuted",
    "C65_late_refuted",
    "C65_kept_refuted",
    "C65_empty_refuted",
    "C65_lost_condition_reported"
   ],
   "note": "False as stated; refuted by conditions of inlined imports (which are reported), by imports after other rules, by an import that stays behind an inlined one and by one behind an empty rule. With other options off: proved for the transform and any number of @imports where none of this occurs, and for Compile under every schedule for one entry and files with at most one @import."
  },
  {
   "property": "C66",
   "status": "partial",
   "theorems": [
    "C66_closed_partial",
    "C66_before_partial",
    "C66_errors_later_partial",
    "C66_open_refuted"
   ],
   "note": "False as stated for rules not closed by a bracket (an @import may get a condition after any number of spaces). Proved for all rules closed by a bracket and all rules before one that ends in the common text. If the other file is rejected, its error is placed behind these rules."
  },
  {
   "property": "C67",
   "status": "proved",
   "theorems": [
    "C67_same_error",
    "C67_accepted"
   ],
   "note": "For every file that Parse rejects with an error; an error in the very first token is not reported but ends the program, and is not meant."
  }
 ]
}