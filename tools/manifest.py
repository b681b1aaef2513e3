#!/usr/bin/env python3
"""Regenerates /verif/MANIFEST.json and checks that every theorem named in it exists
in a Prop*.v file, and that every theorem of a Prop*.v file is named."""
import json, os, re, glob
ROOT = os.path.join(os.path.dirname(os.path.abspath(__file__)), "..")
C = []
def c(prop, status, theorems, note):
    C.append(dict(property=prop, status=status, theorems=theorems.split(), note=note))

c("C01", "proved", "C01_next_terminates", "Every call from every state reachable by any number of calls with the retain flags set arbitrarily.")
c("C02", "proved", "C02_no_runtime_panic", "")
c("C03", "proved", "C03_spans_ordered", "")
c("C04", "partial", "C04_progress_partial C04_token_count_partial C04_progress_refuted",
  "False as stated: '-->' , '<!--' and a dot before a signed or dotted number give empty tokens for ever. Proved: these are the only inputs where a token is empty, and files without them give at most one token per byte.")
c("C05", "proved", "C05_gaps C05_first_gap C05_eof_at_end C05_gaps_strict_refuted",
  "The lexer folds a carriage return into the next character, so for files with a lone CR the gap may contain '*' CR '/' as comment end; with CR only before LF the strict reading holds.")
c("C06", "proved", "C06_token_text", "")
c("C07", "proved", "C07_line_and_column C07_huge_file_refuted", "For files below 2 GiB; above, the column wraps (int32).")
c("C08", "partial", "C08_line_table C08_parser_line_table_partial C08_parser_line_set C08_line_table_refuted",
  "Proved for tokenising, for parsing without broken declarations, and for all files as a set. False as an increasing list when the parser re-reads a broken declaration: its lines are entered twice.")
c("C09", "proved", "C09_error_rendering_total C09_error_rendering_content C09_huge_file_refuted", "For files below 2 GiB.")
c("C20", "proved", "C20_vlq_round_trip", "For magnitudes below 2^30; C21 is about the rest.")
c("C21", "partial", "C21_vlq_exact_range C21_vlq_int32_refuted", "False as stated; the exact range is proved.")
c("C42", "partial", "C42_underline_aligned_partial C42_underline_aligned_refuted", "False as stated; proved to hold exactly when no tab follows the span start on its line.")
c("C38", "partial", "C38_existing_file_partial C38_existing_file_no_broken_entry C38_existing_file_refuted",
  "False as stated when a package's style or index.css is a directory and oops.Wrapf(nil) is nil: the empty path is returned without error. Proved: this is the only exception.")
c("C39", "partial", "C39_relative C39_nearest_partial C39_place_path C39_root_refuted",
  "False for /node_modules, which is never searched; proved for all other places.")
c("C40", "partial", "C40_terminates_partial C40_relative_directory_refuted",
  "False for relative directories (the loop waits for \"/\"); proved for every absolute directory (the only kind Compile passes) and for relative specifiers.")
c("C19", "proved", "C19_map_keeps_css C19_map_total", "")
c("C22", "proved", "C22_map_points_at_rules C22_map_positions C22_same_unit_refuted",
  "Generated columns count characters and original columns count bytes, as the code does; C22_same_unit_refuted records the mismatch.")
c("C23", "partial", "C23_passthrough_partial C23_identity C23_unchanged_refuted",
  "False as stated: @import is duplicated, @custom-media and empty rules disappear. Proved: exactly that happens and nothing else.")
c("C24", "partial", "C24_any_link_sound C24_any_link_partial C24_any_link_refuted",
  "False as stated for a selector with two :any-link (mixed combinations are lost). Proved: never matches more; equal sets when each selector has at most one.")
c("C25", "proved", "C25_inclusive C25_strict C25_large_bound",
  "For < and > the bound must be a number that adding .001 moves; C25_large_bound shows what happens otherwise. The float round trip is a hypothesis.")
c("C26", "partial", "C26_custom_media_partial C26_use_before_definition_refuted C26_nested_definition_refuted C26_negated_definition_refuted",
  "False as stated for uses before the definition, definitions by other custom queries and negated definitions. Proved for all others.")
c("C27", "partial", "C27_var_partial C27_root_without_space_refuted C27_nested_use_refuted C27_chained_definition_refuted C27_use_before_definition_refuted C27_not_root_refuted",
  "False as stated: ':root{' is not recognised, nested and chained references are left dangling. Proved for top-level references to flat definitions in ':root {' rules.")
c("C28", "proved", "C28_calc_sound C28_value_unique C28_calc_complete",
  "For every arithmetic with format/parse round trip and commutative multiplication.")
c("C29", "partial", "C29_order_partial C29_order_inlined C29_duplicated_import_refuted",
  "Order proved for every sheet and options; 'no duplicates' is false for @import without inlining, and only there.")
c("C30", "partial", "C30_media_block_untouched C30_transforms_reach_media_refuted", "False as stated: the block of a media rule is never transformed (proved).")
c("C31", "partial", "C31_transform_returns_partial C31_parsed_partial C31_inlining_returns_partial C31_transform_crash_refuted",
  "False as stated: '{}' and '@media{}' parse and make Transform panic. Proved to return for every structurally sound sheet.")
c("C32", "proved", "C32_inlining", "")
c("C10", "partial", "C10_terminates_partial C10_lost_declaration_loops C10_stray_token_loops C10_marker_loops C10_terminates_refuted",
  "False as stated. Proved: Parse returns unless it reaches one of the situations named in C10_terminates_partial, and each of these does loop for ever.")
c("C11", "partial", "C11_no_crash_partial C11_no_crash_refuted",
  "False as stated for an unterminated leading comment, '@custom-media --x;' and a broken math function in an attribute selector. Proved: no other crash exists.")
c("C12", "proved", "C12_deterministic C12_stable", "")
c("C13", "partial", "C13_recovery_partial C13_verbatim C13_neighbours_refuted",
  "False as stated when there is no later semicolon (Parse loops) and when the next semicolon belongs to another rule (that rule is lost). Proved for all others; kept text is always printed.")
c("C14", "proved", "C14_imports", "")
c("C15", "proved", "C15_sound", "A rule beginning with its block and a @media without queries have no list at all (nil in Go); every list that exists is non-empty.")
c("C16", "partial", "C16_round_trip_partial C16_with_map_partial C16_round_trip_refuted C16_more_refuted", "False as stated; witnesses proved. Proved for every stylesheet in an explicit decidable class of constructs (writable): the printed text parses to the same tree up to positions and trailing selector white space, and prints to the same text again.")
c("C17", "partial", "C17_injective_partial C17_injective_refuted", "False as stated; witnesses proved. Proved for every pair of stylesheets in the same class (writable).")
c("C18", "partial", "C18_print_succeeds_partial C18_print_succeeds_refuted", "False as stated; the exact set of parsed stylesheets on which Print fails is proved.")
c("C33", "partial", "C33_imported_definitions_refuted C33_own_rules C33_never_reach", "False as stated; witness proved, and the opposite for all files: the importing file's own rules do not depend on the imported file at all.")
c("C34", "partial", "C34_bounded_partial C34_returns_partial C34_inlined_chain_partial C34_no_result C34_circular_imports_never_return C34_circular_imports_refuted C34_overlapping_calls_refuted",
  "False as stated: circular imports never end under any schedule, and overlapping addSource calls may run for ever. Proved: all other executions are bounded; one entry with a chain of inlined imports returns under every schedule exactly if the chain has a result.")
c("C35", "partial", "C35_outputs_partial C35_loop_variable_refuted C35_overlapping_calls_refuted", "False as stated; two independent witnesses proved. Proved without inlining and without overlapping addSource calls: outputs are right, and the last entry always has one.")
c("C36", "partial", "C36_one_result_partial C36_self_import_refuted", "False as stated for an entry that imports itself; proved for every other, over all schedules.")
c("C37", "partial", "C37_indices_partial C37_overlapping_calls_refuted", "False as stated; proved for all executions in which addSource calls do not overlap.")
c("C41", "partial", "C41_messages_partial C41_once_at_its_line_refuted C41_syntax_error_refuted", "False as stated; what the messages are is proved for every list of errors.")
c("C43", "partial", "C43_same_text_partial C43_entries_independent_refuted", "False as stated with inlining; proved for the CSS text without inlining and without overlapping addSource calls.")
c("C45", "partial", "C45_no_crash_partial C45_inlined_chain_partial C45_no_crash_refuted", "False as stated; proved without inlining and without overlapping addSource calls, and under every schedule for one entry with a chain of inlined imports.")
c("C46", "proved", "C46_plugin_answer C46_plugin_does_not_panic", "That rendering an error does not panic is proved except with inlining (C52) and above 2 GiB (C09).")
c("C47", "proved", "C47_tree_is_a_reading C47_tokens_cover_file", "The grammar (ReadSpec.v) is the one the parser implements, including its liberties; these are listed there and in DESIGN.md.")
c("C44", "partial", "C44_map_is_json_partial C44_path_refuted", "False as stated for paths that need escaping (witnesses proved), and bytes that are not UTF-8 are replaced. Proved for all other paths.")
c("C48", "partial", "C48_walk_partial C48_tree_is_listed C48_walk_exact C48_panic_refuted C48_missed_refuted", "False as stated; witnesses proved, and exactly what Walk does on every tree.")
c("C49", "proved", "C49_plain_reading_is_found C49_plain_reading_is_unique", "Completeness of the parser for readings that take no liberties; the liberties are marked in ReadSpec.v.")
c("C50", "proved", "C50_next_follows_grammar C50_first_follows_grammar C50_token_is_delivered C50_error_is_reported C50_grammar_unambiguous C50_tokens_of_file C50_tokens_unique C50_tree_reads_bytes C50_plain_bytes_accepted C50_plain_bytes_one_tree", "Soundness, completeness and unambiguity against LexGrammar.v, for single calls and whole files; bytes to tree together with C47 and C49.")
c("C51", "proved", "C51_nodes_are_placed", "All nodes of all parsed trees.")
c("C52", "partial", "C52_reports_are_at_nodes C52_errors_point_into_file_partial C52_errors_render_partial C52_errors_point_somewhere C52_inlined_refuted", "False as stated with inlined imports; witness proved. Proved for every other project and every schedule; with inlining the span is one of some file that was read.")
c("C53", "proved", "C53_inlined_chain C53_inlined_unique C53_chain_ends", "All schedules. Files with several @imports are not covered: there the loop variable decides what replaces what (C35).")
c("C54", "proved", "C54_one_entry C54_entries C54_inlined C54_overflow_refuted C54_link_refuted C54_sum_refuted", "The conditions are decidable on the source, except that computed numbers are decimal. The refuted theorems show what happens without them.")
c("C55", "partial", "C55_races_exactly C55_one_at_a_time C55_refuted C55_outputs_refuted C55_next_refuted C55_nodes_refuted", "False as stated; C55_races_exactly says for which projects races exist, C55_one_at_a_time what holds for the others, the _refuted theorems on which variables.")
c("C56", "partial", "C56_twice_partial C56_twice_refuted C56_compiled_partial C56_compiled_refuted", "False as stated; witnesses proved. Proved for chains of files, over all schedules, when no file leaves anything to compute for a second pass (settledNode, decidable on the source) and each @import is the first rule.")
c("C57", "partial", "C57_one_entry_partial C57_entries_partial C57_inlined_partial C57_unsettled_refuted C57_imports_refuted C57_sums_refuted", "False as stated; witnesses proved. Proved, over all schedules of both runs, for files that are plain (C54) and settled (C56) with outputs that have no @import; the theorems also say that the second run does give an output. For sources with a sum in calc() that is not computed, which are not plain, it is false even when they are settled and import nothing (C57_sums_refuted).")
c("C58", "partial", "C58_reports_partial C58_no_other_reports_partial C58_inlined_partial C58_nested_refuted C58_media_refuted C58_fallback_refuted C58_definition_refuted C58_defined_later_refuted C58_root_without_space_refuted C58_local_refuted C58_empty_fallback_refuted", "False as stated; witnesses proved. What is reported is characterised exactly (list and order) for every file whose selectors are plain, alone and with imports inlined.")
c("C59", "partial", "C59_genuine_partial C59_reported_partial C59_exact_partial C59_lost_entry_refuted C59_lost_import_refuted C59_lost_file_refuted C59_blamed_refuted", "False as stated; witnesses proved. Imports not inlined: every error in every state of every schedule is a fault of the project (soundness); the faults of the last entry and of what it leads to by last imports are reported when calls of addSource do not overlap; both halves in full, any schedule, for one entry and at most one @import per file.")
c("C60", "proved", "C60_readings_join C60_parser_joins C60_texts_join", "From the bytes, by the lexical grammar and the grammar of C50: plain files of any length, with no separator between them.")
c("C61", "proved", "C61_added_layout C61_room_stays C61_same_tree C61_same_output C61_same_inlined_output C61_same_texts", "From the bytes, by the lexical grammar and the grammar of C50. Additions are at the start, at the end, or after any token, before one that is read with white space skipped: a token that is not one of ; : , ( ) [ ] { } must have no escape or carriage return and be followed by white space, a slash or one of these marks, and the next token must not be one whose string the parser heeds whatever its kind (the finding about !important and attribute operators). Comments with a carriage return are left out.")
c("C62", "partial", "C62_blanks_are_parts_partial C62_parts_are_blanks C62_always_lost_after_brackets C62_descendant_refuted", "False as stated; proved in full for all parts but attribute selectors, after which white space is shown to be always lost: a[b] c is printed a[b]c.")
c("C63", "proved", "C63_cli C63_manualtest", "The programs read no input, so the theorems are about their only execution, for every number of steps that is large enough; what spew prints is not modelled.")
c("C64", "partial", "C64_map_leads_to_file_partial C64_raw_declaration_refuted C64_inlined_refuted", "False as stated; proved for one entry without inlining and files without raw declarations, refuted by a raw declaration over two lines and by an inlined file.")
c("C65", "partial", "C65_transform_partial C65_chain_partial C65_means_unique C65_condition_refuted C65_late_refuted C65_kept_refuted C65_empty_refuted C65_lost_condition_reported", "False as stated; refuted by conditions of inlined imports (which are reported), by imports after other rules, by an import that stays behind an inlined one and by one behind an empty rule. With other options off: proved for the transform and any number of @imports where none of this occurs, and for Compile under every schedule for one entry and files with at most one @import.")
c("C66", "partial", "C66_closed_partial C66_before_partial C66_errors_later_partial C66_open_refuted", "False as stated for rules not closed by a bracket (an @import may get a condition after any number of spaces). Proved for all rules closed by a bracket and all rules before one that ends in the common text. If the other file is rejected, its error is placed behind these rules.")
c("C67", "proved", "C67_same_error C67_accepted", "For every file that Parse rejects with an error; an error in the very first token is not reported but ends the program, and is not meant.")
#MORE

if __name__ == "__main__":
    thms = set()
    for f in glob.glob(os.path.join(ROOT, "rocq/theories/Prop*.v")):
        thms |= set(re.findall(r"^Theorem (\w+)", open(f).read(), re.M))
    named = set(t for x in C for t in x["theorems"])
    props = [json.loads(l)["id"] for l in open(os.path.join(ROOT, "properties.jsonl"))]
    print("missing theorems:", sorted(named - thms))
    print("unnamed theorems:", sorted(thms - named))
    print("properties without claim:", [p for p in props if p not in [x["property"] for x in C]])
    print("claims without property:", [x["property"] for x in C if x["property"] not in props])
    json.dump(dict(claims=C), open(os.path.join(ROOT, "MANIFEST.json"), "w"), indent=1)
