{
"claims": [
{
"property": "C01",
"status": "proved",
"theorems": [
"C01_cursors_are_independent_readers",
"C01_cursor_from_data"
],
"note": "for every slice growth policy"
},
{
"property": "C02",
"status": "proved",
"theorems": [
"C02_pool_reads_lazily_and_once"
],
"note": ""
},
{
"property": "C03",
"status": "partial",
"theorems": [
"C03_passed_tokens_are_bounded_refuted",
"C03_two_cursors_partial",
"C03_recovery_partial"
],
"note": "The property as stated is violated: a lone cursor never lets go of a token (C03_passed_tokens_are_bounded_refuted). What holds: with two live cursors and none lost, at most 100 passed tokens are kept, always from the start (C03_two_cursors_partial) and, after any history, once more than 100 tokens have been read again (C03_recovery_partial)."
},
{
"property": "C04",
"status": "proved",
"theorems": [
"C04_chunking_is_invisible",
"C04_two_chunkings_agree",
"C04_one_byte_buffer_refuted",
"C04_eof_is_distinguishable_refuted"
],
"note": "for buffer sizes >= 2 and fewer than 100 consecutive empty reads; the two refuted theorems show the limits"
},
{
"property": "C05",
"status": "proved",
"theorems": [
"C05_token_is_what_was_read"
],
"note": ""
},
{
"property": "C06",
"status": "partial",
"theorems": [
"C06_position_of_consumed_bytes",
"C06_columns_count_characters_partial",
"C06_columns_count_characters_refuted",
"C06_back_after_skip_read_refuted"
],
"note": "lines and byte-based columns proved; character columns refuted for 3- and 4-byte characters"
},
{
"property": "C07",
"status": "proved",
"theorems": [
"C07_valid_json_is_decoded",
"C07_only_numbers_need_separation"
],
"note": "for every chunking and buffer size >= 2"
},
{
"property": "C08",
"status": "partial",
"theorems": [
"C08_accepted_texts_partial",
"C08_accepted_utf8_texts_partial",
"C08_strict_escapes_refuted",
"C08_separation_refuted",
"C08_byte_255_refuted"
],
"note": "refuted as stated; the exact liberal language accepted is proved"
},
{
"property": "C09",
"status": "proved",
"theorems": [
"C09_literals_keep_their_spelling"
],
"note": "also for the tokens emitted before an error"
},
{
"property": "C10",
"status": "proved",
"theorems": [
"C10_output_is_a_prefix_of_a_stream"
],
"note": ""
},
{
"property": "C11",
"status": "proved",
"theorems": [
"C11_decoder_terminates_without_panic"
],
"note": ""
},
{
"property": "C12",
"status": "partial",
"theorems": [
"C12_string_flags",
"C12_alnum_flag_refuted"
],
"note": "unescaped flag proved; alnum flag proved for non-empty strings without escapes, refuted otherwise"
},
{
"property": "C13",
"status": "proved",
"theorems": [
"C13_round_trip",
"C13_decode_encode_decode",
"C13_output_is_a_text_per_value"
],
"note": "any layout settings, with or without compaction; the decoded stream equals the input stream with the flags decoding gives to scalars (canon); the identity on decoded streams"
},
{
"property": "C14",
"status": "proved",
"theorems": [
"C14_one_line_per_value",
"C14_json_lines"
],
"note": "scalars without a line feed byte (all valid JSON literals)"
},
{
"property": "C15",
"status": "proved",
"theorems": [
"C15_colors_only_insert_codes",
"C15_stripping_colors_gives_plain_output"
],
"note": "any colour table; with terminal escape codes and scalars without ESC the codes can be stripped mechanically"
},
{
"property": "C16",
"status": "proved",
"theorems": [
"C16_write_errors_are_returned",
"C16_no_panic_on_complete_streams"
],
"note": "JSON encoder on a DefaultPrinter; the writer may fail at any write or flush"
},
{
"property": "C17",
"status": "partial",
"theorems": [
"C17_jpv_round_trip",
"C17_encoder_succeeds",
"C17_only_flags_change",
"C17_empty_key_refuted",
"C17_repeated_key_refuted",
"C17_streams_refuted"
],
"note": "Holds for one value whose keys are not flagged alphanumeric wrongly (the empty key and escaped names are) and whose neighbouring keys differ; refuted for {\"\":1}, for repeated keys and for streams of several values"
},
{
"property": "C18",
"status": "proved",
"theorems": [
"C18_any_subset_of_lines"
],
"note": "For values with distinct keys; for every subset of lines, every chunking and buffer size"
},
{
"property": "C19",
"status": "partial",
"theorems": [
"C19_terminates_partial",
"C19_prefix_path_refuted",
"C19_missing_equals_refuted",
"C19_bad_escape_refuted"
],
"note": "Refuted: three inputs on which the decoder panics. Proved: it ends on every input, by a result, an error or a panic"
},
{
"property": "C20",
"status": "proved",
"theorems": [
"C20_records_become_values"
],
"note": "The csv.Reader of the standard library is a parameter: a sequence of records, then io.EOF or an error"
},
{
"property": "C21",
"status": "partial",
"theorems": [
"C21_fields_keep_their_content_partial",
"C21_number_fields_partial",
"C21_exactly_when",
"C21_strings_denote_the_field",
"C21_truncated_refuted"
],
"note": "Holds for empty fields, JSON numbers and fields with a byte that does not occur in numbers; refuted for 1-2, which becomes the number 1. C21_exactly_when says for which fields of at most 8192 bytes it fails: those made of bytes of numbers that begin with a number which the next byte does not continue. Missing: such fields of more than 8192 bytes."
},
{
"property": "C22",
"status": "partial",
"theorems": [
"C22_values_are_valid_partial",
"C22_control_characters_refuted"
],
"note": "Holds for fields without control characters other than line feeds; refuted for a tab"
},
{
"property": "C23",
"status": "proved",
"theorems": [
"C23_truncates_at_depth",
"C23_negative_depth"
],
"note": "For every stream of values and every depth N: the collections at depth N are emptied and elided, everything above is unchanged. Negative depths, which the Go type allows, give an empty output."
},
{
"property": "C24",
"status": "proved",
"theorems": [
"C24_join_makes_one_array",
"C24_split",
"C24_split_join",
"C24_join_split"
],
"note": "Join makes one array; split spreads arrays and leaves the rest, for every stream; split after join is the identity, join after split gives the array back."
},
{
"property": "C25",
"status": "proved",
"theorems": [
"C25_result_unique",
"C25_schedules_agree",
"C25_ends_alike",
"C25_sequential",
"C25_decode_join_depth"
],
"note": "All schedules agree at all times, end alike, and give what the stages compute one after the other; stages are arbitrary deterministic goroutines, with join, depth, trace and the decoders as instances."
},
{
"property": "C26",
"status": "proved",
"theorems": [
"C26_no_deadlock",
"C26_no_goroutine_left"
],
"note": "Some step is possible until the sink has returned; no goroutine is left behind when the stages read their input to the end (ex_left_behind shows the condition is needed)."
},
{
"property": "C27",
"status": "proved",
"theorems": [
"C27_C28_scripts",
"C27_stream",
"C27_items"
],
"note": "For every stream of values and every script of commands (move on, enter, leave half read, copy, discard, clone, detach; addressed to the iterator and its clones in any interleaving) the API shows what the value-level specification shows; items come in order exactly once whatever was read of each."
},
{
"property": "C28",
"status": "proved",
"theorems": [
"C27_C28_scripts",
"C28_original",
"C28_cloning",
"C28_clone"
],
"note": "Each clone shows what a reader of the whole cloned value alone would show; the original shows the same whatever the clones do, including detaching."
},
{
"property": "C29",
"status": "proved",
"theorems": [
"C29_equal",
"C29_same_reflexive",
"C29_repeated_keys_refuted"
],
"note": "Equal returns true exactly when the values are the same (spec EqualSpec.v: numbers by nearest float64, objects up to order), without panic, and the stream and a clone can be used afterwards. Repeated keys: refuted witness."
},
{
"property": "C30",
"status": "proved",
"theorems": [
"C30_safe_equal"
],
"note": "After SafeValuesEqual every script of iterator operations observes what it would observe on the unread values."
},
{
"property": "C31",
"status": "partial",
"theorems": [
"C31_equal_by_value",
"C31_to_string",
"C31_equals_string",
"C31_strings_compare_by_value",
"C31_reflexive",
"C31_symmetric",
"C31_transitive",
"C31_ignores_key_and_alnum_flags",
"C31_ignores_unescaped_flag",
"C31_same_numbers_are_equal",
"C31_integers_compare_exactly",
"C31_comparison_total_partial",
"C31_out_of_range_refuted",
"C31_liberal_escape_refuted",
"C31_transitivity_refuted",
"C31_large_integers_refuted"
],
"note": "Strings whose escapes are valid RFC 8259 escapes of valid UTF-8 compare exactly by character content, Equal is reflexive/symmetric/transitive there, flags are irrelevant, numbers with the same value compare equal and integers below 2^53 compare exactly. Totality is proved only for readable literals; refuted: out-of-range numbers and liberal escapes panic, ill-formed UTF-8 breaks transitivity, distinct integers above 2^53 compare equal."
},
{
"property": "C32",
"status": "partial",
"theorems": [
"C32_index",
"C32_slice_up_partial",
"C32_slice_down_partial",
"C32_slice_zero",
"C32_slice_refuted"
],
"note": "Indices: all cases. Slices: equal to RFC 9535 unless the step is not 1 or -1 and the start lies outside the array (before the first item going up, after the last going down); there the code is refuted. Bounds within +-(2^53-1), as the parser ensures, arrays below 2^62 items."
},
{
"property": "C33",
"status": "partial",
"theorems": [
"C33_selectors_in_order_partial"
],
"note": "Several selectors in one child segment give the nodes of each selector in turn, for queries and values where every selector is tame; C34_reversed_refuted shows where the order is lost."
},
{
"property": "C34",
"status": "partial",
"theorems": [
"C34_rfc9535_partial",
"C34_ordinary_queries_partial",
"C34_same_nodes_partial",
"C34_reversed_refuted",
"C34_strict_order_refuted"
],
"note": "On tame queries and clean values the tokens written are those of the RFC nodelist, in this order (C34_rfc9535_partial); C34_ordinary_queries_partial has syntactic conditions on the query only; for descendant segments with several selectors the nodes are written in some order (C34_same_nodes_partial). The refuted theorems give queries outside the tame ones whose output differs (reversed slices followed by another segment; order of descendant segments with several selectors in strict mode)."
},
{
"property": "C35",
"status": "partial",
"theorems": [
"C35_filters_partial",
"C35_existence_refuted"
],
"note": "A filter keeps exactly the children for which the RFC condition holds, for tame conditions; an existence test with several selectors can fail although a node exists."
},
{
"property": "C36",
"status": "partial",
"theorems": [
"C36_functions_partial",
"C36_length_object_refuted",
"C36_length_twice_refuted",
"C36_match_refuted"
],
"note": "Function calls in tame conditions have the RFC value; length() of an object, length() of a shared array and match() with alternatives do not."
},
{
"property": "C37",
"status": "partial",
"theorems": [
"C38_well_formed_partial",
"C38_all_selectors_partial",
"C34_ordinary_queries_partial",
"C37_missing_value_refuted",
"C37_scalar_root_refuted"
],
"note": "No panic for tame queries on clean values (C38_well_formed_partial, C38_all_selectors_partial), in particular for all ordinary queries, a syntactic class (C34_ordinary_queries_partial); comparisons with a missing or scalar root value panic."
},
{
"property": "C38",
"status": "partial",
"theorems": [
"C38_well_formed_partial",
"C38_all_selectors_partial",
"C38_reversed_refuted"
],
"note": "Tame queries on clean values write the tokens of whole values, also with several selectors in descendant segments; a reversed slice of arrays does not."
},
{
"property": "C39",
"status": "partial",
"theorems": [
"C39_invalid_rejected_partial",
"C39_parse_error_refuted",
"C39_descendants_refuted",
"C39_no_dollar_refuted",
"C39_blanks_refuted"
],
"note": "Given any tokeniser and parser: an accepted and compiled query has all integers outside ..[ ] in range and is well typed; with the modelled tokeniser and parser C55 gives the rest for strings that begin with a dollar sign. Refuted parts: a string of tokens that does not begin with a dollar sign, for example the empty string or @.a, is accepted as the query $ (the nil tokeniser error is returned); an integer out of range inside ..[ ] is accepted as a segment that selects nothing; blanks before and after the query are accepted."
},
{
"property": "C40",
"status": "proved",
"theorems": [
"C40_compiles_iff_well_typed"
],
"note": "Compilation succeeds exactly on well-typed queries, in both modes."
},
{
"property": "C41",
"status": "partial",
"theorems": [
"C41_json_detected",
"C41_csv_header_detected",
"C41_input_kept",
"C41_json_decoded",
"C41_jpv_refuted",
"C41_fallback_refuted",
"re_match_ok",
"C41_csv_detected"
],
"note": "JSON arrays and objects are recognised and decoded whatever the pieces the input comes in; a header line of names is recognised, exactly; no input is taken as JPV, and there is no fallback to JSON."
},
{
"property": "C42",
"status": "partial",
"theorems": [
"C42_streaming_partial",
"C42_direct_queries_partial"
],
"note": "The output for the values read so far is complete before anything of what follows the last item of an open collection is read. The collection may be as deep as there are child segments without filters in front of the first other segment: for $.users[?@.email] it may be the array of users. For queries as in C58, at any depth: whatever has been received, the results that end in it have been written. Missing: segments up to that one with several selectors, with a reversed slice or counting from the end of arrays (lookahead), a descendant one in strict mode, $ inside filters; items below a filter or descendant segment."
},
{
"property": "C43",
"status": "proved",
"theorems": [
"C43_read_errors_are_reported"
],
"note": ""
},
{
"property": "C44",
"status": "partial",
"theorems": [
"C44_encoder_terminates",
"C49_output_defined",
"C44_truncated_input_refuted"
],
"note": "termination proved, for the JSON and the JPV encoder (C49_output_defined); the claim that truncated input does not crash the output stage is false of the code (witness [1)"
},
{
"property": "C45",
"status": "proved",
"theorems": [
"C45_string_literals",
"C45_valid_queries_read",
"C45_parts"
],
"note": "For any tokeniser and parser (parameters); C54 proves the same from the bytes of the string, with the tokeniser and the parser modelled. strconv.FormatFloat is a parameter. String literals are proved against the RFC's escapes, including the rewriting of single quotes."
},
{
"property": "C46",
"status": "partial",
"theorems": [
"C46_rewriting_partial",
"C46_search_partial",
"C46_match_partial",
"C46_anchor_refuted",
"pattern_unique"
],
"note": "The rewriting preserves the meaning; search() is exact and match() sound for I-Regexps without ^ and $ that Go compiles, given that Go's regexp finds matches (go_regexp). ^ and $ are anchors instead of characters: refuted. match() is not complete: C36_match_refuted."
},
{
"property": "C47",
"status": "partial",
"theorems": [
"C47_invalid_twice_refuted",
"C47_calls_partial"
],
"note": "Refuted: the second use of an invalid pattern panics, because Compile stores the nil pointer. C47_calls_partial says exactly which sequences of calls panic."
},
{
"property": "C48",
"status": "partial",
"theorems": [
"C48_key_extractor",
"C48_deep_partial",
"C48_deep_all_partial",
"C48_deep_all_refuted"
],
"note": "Proved for KeyExtractor. DeepKeyExtractor returns the outermost members only: refuted when a member with the key is below another one; proved for all other streams."
},
{
"property": "C49",
"status": "partial",
"theorems": [
"C49_output_defined",
"C49_complete_output",
"C49_first_bytes",
"C49_status_on_terminals",
"C49_status_partial",
"C49_status_refuted"
],
"note": "All but one part: with status 0 up to 4096 bytes can be missing unless standard output is a terminal, because the error of the last flush is ignored (C49_status_refuted: an output that fits in the buffer, a full device, status 0)."
},
{
"property": "C50",
"status": "partial",
"theorems": [
"C50_status_ignores_the_input",
"C50_status_refuted"
],
"note": "False of the code: for every input the status is 0 as long as standard output works (C50_status_ignores_the_input); C50_status_refuted is a malformed input."
},
{
"property": "C51",
"status": "proved",
"theorems": [
"C51_reformats_valid_json",
"C51_reformatting_is_idempotent"
],
"note": "For every JSON text that is valid (first theorem) or accepted (second)."
},
{
"property": "C52",
"status": "proved",
"theorems": [
"C52_arguments"
],
"note": ""
},
{
"property": "C53",
"status": "partial",
"theorems": [
"C53_query_end_to_end_partial",
"C53_from_query_string_partial",
"C53_ordinary_partial"
],
"note": "For the queries and values of C34 (tame, clean); the refutations of C34 show that other queries depart from RFC 9535. The second theorem starts at the text of the query; the third is for ordinary queries, where the conditions on the query are syntactic."
},
{
"property": "C54",
"status": "proved",
"theorems": [
"C54_rfc_queries_are_read",
"C54_lax_queries_are_read",
"C54_unambiguous"
],
"note": "Against the grammar of RFC 9535 in QuerySyntax.v, from the bytes of the string. A logical expression as the argument of a function must begin with a parenthesis or a negation; no function of RFC 9535 has arguments of type LogicalType. The grammar library is modelled from its use (see DESIGN.md)."
},
{
"property": "C55",
"status": "proved",
"theorems": [
"C55_only_queries_are_read",
"C55_other_strings_are_errors",
"C55_strict"
],
"note": "An exact converse of C54: accepted strings are queries up to blank space; the compiler adds the typing rules and the range of integers outside ..[ ] (see C39)."
},
{
"property": "C56",
"status": "partial",
"theorems": [
"C56_strict_changes_order_only_partial"
],
"note": "For clean values and queries that are tame except that descendant segments may have several selectors; reversed slices of arrays are excluded (C38_reversed_refuted)."
},
{
"property": "C57",
"status": "partial",
"theorems": [
"C57_document_order_partial",
"C57_descendant_first_refuted"
],
"note": "For queries with one selector in each segment and a descendant segment at most at the end. The claim of the documentation is refuted for $..a.b."
},
{
"property": "C58",
"status": "proved",
"theorems": [
"C58_direct_queries"
],
"note": "For child segments with one selector that is a name, a wildcard, an index or a slice from the front; any input."
},
{
"property": "C59",
"status": "proved",
"theorems": [
"C59_refused_commands",
"C59_query_arguments"
],
"note": "main as a whole, for all values of the flags and all inputs; crashes of other goroutines are left out"
},
{
"property": "C60",
"status": "partial",
"theorems": [
"C60_arguments_in_order",
"C60_json_to_json",
"C60_each_argument_applies",
"C60_csv_records_in_order"
],
"note": "queries of the class of C34 on clean values; JPV input is covered by C61 for texts that jp writes; output with depth=N or colours is specified character by character by C65_jp and C70_jp"
},
{
"property": "C61",
"status": "proved",
"theorems": [
"C61_any_lines_of_jpv",
"C61_arguments_after_grep"
],
"note": "one value, all_differ keys; colours and -json-compact of the first command are excluded (C17-C19 state the limits of JPV)"
},
{
"property": "C62",
"status": "proved",
"theorems": [
"C62_tokens",
"C62_every_schedule"
],
"note": "The encoder is a sink that receives the tokens; csv records are read at once. For runs of jp that have an outcome (no panic in a decoder or transformer)."
},
{
"property": "C63",
"status": "partial",
"theorems": [
"C63_one_command_for_a_pipe",
"C63_depth_refuted",
"C63_csv_refuted",
"C63_jpv_input",
"C63_csv_input",
"C63_jpv_any_names"
],
"note": "Proved for first commands with JSON input, or with JPV input that has quoted names, whose arguments are split, join, trace and queries of the class of C60, and any second command; for first commands with CSV input, or with JPV input with any names, when the arguments of the second command are of the same class (or depth=N) and it writes JSON without colours. Refuted for depth=N in the first command, and for CSV in the first command with JPV output in the second (a name with a quotation mark is written differently, because the two decoders flag it differently). Missing: queries outside that class; JPV input with names without quotation marks and JPV output in the second command."
},
{
"property": "C64",
"status": "proved",
"theorems": [
"C64_lines_of_a_value",
"C64_values_edited"
],
"note": "The second command names the format with -in jpv: that the format is guessed is refuted by C41. Edits that change paths are covered by C64_lines_of_a_value when the result is the lines of some value in order."
},
{
"property": "C65",
"status": "proved",
"theorems": [
"C65_layout",
"C65_jp",
"C65_arrays_on_one_line",
"C65_objects_on_one_line",
"C65_array_lines",
"C65_small_objects_refuted",
"C65_documented_width_refuted",
"C65_documented_output_refuted",
"C65_documented_lines_refuted",
"C65_grouping_refuted"
],
"note": "Exact layout for every value and every setting, for the encoder and for the command. The refuted theorems are statements of the help text (small objects inline, splitting at width 10, sample outputs) and a comment of the encoder (grouping), which the code does not meet."
},
{
"property": "C66",
"status": "proved",
"theorems": [
"C66_decoder",
"C66_grows",
"C66_terminal",
"C66_jp",
"C66_lines",
"C66_jpv",
"C66_pipe",
"C66_records",
"C66_pipe_refuted",
"C66_record_refuted"
],
"note": "The refutations concern output that is not a terminal (complete values are held in the buffer) and the last line of a record of an unfinished array. The decoder waits at the first scanner method that asks the reader for more than it has delivered; schedules of the other goroutines are C62."
},
{
"property": "C67",
"status": "proved",
"theorems": [
"C67_reads_all",
"C67_waits",
"C67_slice_refuted"
],
"note": "A panic of a goroutine, which would end the process, is excluded as in C62; a failing standard output is treated in C49."
},
{
"property": "C68",
"status": "proved",
"theorems": [
"C68_sliding_window",
"C68_items_in_memory",
"C68_mixed_slice_refuted"
],
"note": "For queries of child segments with one selector each, one of which counts from the end. The bound is on the tokens in the window of each pool; the model never frees the pools of arrays left behind, which are garbage in Go, and the spare capacity of the slice is not counted. C68_mixed_slice_refuted: a slice from the end to a position from the start keeps the rest of the array, because a cursor that is alone in its pool never shrinks the window."
},
{
"property": "C69",
"status": "proved",
"theorems": [
"C69_tame_queries",
"C69_filter_keeps_one_item",
"C69_absolute_query_refuted"
],
"note": "For queries that compile, of the class of C34 (tame, in particular ordinary queries) whose inner queries start at the current node. The bound is on the tokens in the window of each pool; the number of windows in use at a time is not bounded here, and the model never frees pools that are garbage in Go. C69_absolute_query_refuted: a condition that refers to the root makes the run keep the whole input, because the cursor that remains after the inner query never shrinks the window."
},
{
"property": "C70",
"status": "proved",
"theorems": [
"C70_jpv_text",
"C70_text_unique",
"C70_jp"
],
"note": "Any stream of values, elided or not, with any colours, indentation and quoting; at the command level JSON input and the arguments of C60 including depth=N."
},
{
"property": "C71",
"status": "proved",
"theorems": [
"C71_command_line",
"C71_one_reading",
"C71_values",
"C71_options_come_first",
"C71_last_one_counts",
"C71_strict_refuted",
"C71_colors_refuted"
],
"note": "C71_command_line is an equivalence: what jp does with any words, in terms of which words describe which command. The package flag is modelled from its documented behaviour, as it is not in the repository. C71_strict_refuted: the usage text documents -strict, but the option is -jsonpath-strict. C71_colors_refuted: -colors=false turns colours on."
},
{
"property": "C72",
"status": "proved",
"theorems": [
"C72_reader_ends",
"C72_csv_text",
"C72_one_reading",
"C72_before_a_fault",
"C72_written_records",
"C72_jp",
"C72_ragged_refuted",
"C72_cr_lf_in_field_refuted"
],
"note": "For all texts and both ends of an input. csv.Reader is not in the repository: its model is from its published source. Refuted parts: ragged records, CR LF in quoted fields."
},
{
"property": "C73",
"status": "proved",
"theorems": [
"C73_to_scalar",
"C73_to_go",
"C73_round_trip",
"C73_back_refuted"
],
"note": "ToGo and ToScalar for all Go values; floats come back under the stated condition on FormatFloat (a parameter). Refuted parts: integers from 2^53 on, numbers out of range."
},
{
"property": "C74",
"status": "proved",
"theorems": [
"C74_recipes",
"C74_applies",
"C74_one_answer",
"C74_cookbook"
],
"note": "every recipe text, value and sequence of recipes; each query of the cookbook is a recipe (C74_cookbook); in the default mode for ..name and ..[?]; clean values as in C34; for > and <, that FormatFloat writes a text of the literal's value is a hypothesis"
},
{
"property": "C75",
"status": "proved",
"theorems": [
"C75_rows_are_clean",
"C75_table",
"C75_column",
"C75_selected_rows",
"C75_greater_rows",
"C75_named_table",
"C75_named_column"
],
"note": "For tables as in TableSpec.v; the tests are those of C74. In comparisons with numbers, FormatFloat must write a text of the literal's value (written_back)."
},
{
"property": "C76",
"status": "proved",
"theorems": [
"C76_table_as_jpv",
"C76_a_line_for_each_cell"
],
"note": "The whole way from the text of the CSV file through the lines to the JSON output; C76_a_line_for_each_cell gives the text of each line."
},
{
"property": "C77",
"status": "proved",
"theorems": [
"C77_edited_lines"
],
"note": "The whole way from the JSON input through the edited lines to the JSON output."
},
{
"property": "C78",
"status": "proved",
"theorems": [
"C78_grid",
"C78_column",
"C78_joined"
],
"note": "From the text of the CSV file to the JSON output."
},
{
"property": "C79",
"status": "partial",
"theorems": [
"C79_csv_or_json",
"C79_jpv_or_json"
],
"note": "Proved for JSON output without colours and arguments split, join, trace, depth=N and queries of the class of C60. Missing: queries outside that class, coloured output. For JPV output it does not hold: C63_csv_refuted shows a name that is written differently when it comes from CSV."
}
]
}
