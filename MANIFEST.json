{
 "claims": [
  {
   "property": "C01",
   "status": "proved",
   "theorems": [
    "C01_matches_iff_language",
    "C01_text_matches_itself_refuted"
   ],
   "note": "Exact language equivalence and termination for every pattern and value; finding: str::to_lowercase vs char lower-casing (final sigma)."
  },
  {
   "property": "C02",
   "status": "proved",
   "theorems": [
    "C02_captures_reconstruct",
    "C02_capture_agrees_with_match",
    "C02_replacement_char_refuted",
    "C02_many_stars_refuted"
   ],
   "note": "Proved for <=63 wildcards and values free of U+FFFD with single-character case folding; both restrictions are shown necessary by the refuted theorems."
  },
  {
   "property": "C03",
   "status": "proved",
   "theorems": [
    "C03_quotewildcard_matches_only_itself",
    "C03_quotewildcard_never_half_escaped"
   ],
   "note": ""
  },
  {
   "property": "C04",
   "status": "partial",
   "theorems": [
    "C04_last_key_decides_partial",
    "C04_count",
    "C04_list",
    "C04_any_key_suffices_refuted"
   ],
   "note": "The full claim (any source and any key) is false of the code: only the last key decides; the refuted theorem gives a script-level witness and the partial theorem states exactly what does hold."
  },
  {
   "property": "C05",
   "status": "proved",
   "theorems": [
    "C05_metadata_any_key",
    "C05_metadata_exists",
    "C05_header_any_value_any_key",
    "C05_exists_every_name",
    "C05_body_any_part_any_key",
    "C05_address_any_value_any_key",
    "C05_envelope_any_value_any_key",
    "C05_address_envelope_count",
    "C05_address_envelope_list",
    "C05_date_any_value_any_key",
    "C05_currentdate_any_key",
    "C05_date_regex_refuted"
   ],
   "note": "Header, exists, body, metadata, address, envelope and date tests; the header values of one header field come from mail_parser (abstract)."
  },
  {
   "property": "C06",
   "status": "proved",
   "theorems": [
    "C06_selection_exact",
    "C06_selection_order",
    "C06_every_part_and_name"
   ],
   "note": "':index 0' selects nothing."
  },
  {
   "property": "C07",
   "status": "proved",
   "theorems": [
    "C07_contains_is_substring",
    "C07_is_equivalence",
    "C07_is_ascii_casemap",
    "C07_non_ascii_refuted",
    "C07_numeric_reflexive_refuted"
   ],
   "note": ""
  },
  {
   "property": "C08",
   "status": "proved",
   "theorems": [
    "C08_relational_meaning",
    "C08_integer_order",
    "C08_count_meaning",
    "C08_relational_coherent",
    "C08_trichotomy",
    "C08_nan",
    "C08_count_coherent",
    "C08_equality_transitive_refuted"
   ],
   "note": ""
  },
  {
   "property": "C09",
   "status": "proved",
   "theorems": [
    "C09_no_duplicate_flags",
    "C09_single_string_flags_proper",
    "C09_truncation_duplicates_refuted",
    "C09_unsplit_list_refuted"
   ],
   "note": "Both hypotheses (size, no inner spaces in lists) are shown necessary."
  },
  {
   "property": "C10",
   "status": "proved",
   "theorems": [
    "C10_flag_actions_are_set_operations",
    "C10_in_run"
   ],
   "note": ""
  },
  {
   "property": "C11",
   "status": "proved",
   "theorems": [
    "C11_stored_text_is_longest_prefix",
    "C11_set_with_modifiers_bounded",
    "C11_other_values",
    "C11_number_exceeds_limit_refuted"
   ],
   "note": "Finding: numbers count as two bytes whatever their text."
  },
  {
   "property": "C12",
   "status": "proved",
   "theorems": [
    "C12_modifier_order_irrelevant",
    "C12_modifiers_sorted",
    "C12_distinct_precedence",
    "C12_upper_replace_refuted"
   ],
   "note": "Proved for every set of modifiers of distinct precedence; :upper/:replace share one (refuted theorem)."
  },
  {
   "property": "C13",
   "status": "proved",
   "theorems": [
    "C13_encodeurl_decodes",
    "C13_decoding_deterministic"
   ],
   "note": ""
  },
  {
   "property": "C14",
   "status": "proved",
   "theorems": [
    "C14_addheader_cannot_inject",
    "C14_addheader_adds"
   ],
   "note": "HeaderName::parse assumed to preserve the name up to ASCII case; char::is_alphanumeric assumed to reject CR, LF, colon, space and tab."
  },
  {
   "property": "C15",
   "status": "proved",
   "theorems": [
    "C15_deleteheader_exact",
    "C15_refused_names_delete_nothing"
   ],
   "note": ""
  },
  {
   "property": "C16",
   "status": "proved",
   "theorems": [
    "C16_redirects",
    "C16_messages",
    "C16_only_within_limits"
   ],
   "note": "Over whole conversations with any host answers, including includes and resumptions."
  },
  {
   "property": "C17",
   "status": "partial",
   "theorems": [
    "C17_out_messages_partial",
    "C17_compiled_partial",
    "C17_script_partial",
    "C17_out_messages_refuted"
   ],
   "note": "False: mailto notifications are not bounded by max_out_messages (refuted by a run). Proved: redirects and vacation replies together stay within the limit plus the notifications sent."
  },
  {
   "property": "C18",
   "status": "proved",
   "theorems": [
    "C18_redirect_keep"
   ],
   "note": ""
  },
  {
   "property": "C19",
   "status": "partial",
   "theorems": [
    "C19_redirect_address_shape_partial",
    "C19_redirect_address_unquoted_partial",
    "C19_plain_addresses_accepted",
    "C19_redirect_address_clean_refuted",
    "C19_redirect_address_single_at_refuted",
    "C19_redirect_address_idempotent_refuted",
    "C19_redirect_domain_interior_dot_refuted"
   ],
   "note": "The full statement is false: double quotes let white space, CR LF and a second '@' through, control characters are kept, and the dot may end the domain. Proved: the shape for every text, and no white space and one '@' for texts without double quotes."
  },
  {
   "property": "C20",
   "status": "proved",
   "theorems": [
    "C20_precedence",
    "C20_every_tree",
    "C20_text",
    "C20_unambiguous",
    "C20_array_elements_refuted",
    "C20_unary_minus_refuted",
    "C20_single_equals_refuted",
    "C20_only_expressions_refuted"
   ],
   "note": "Proved for every derivation of the grammar in ExprSpec.v, which leaves out array elements starting with '(' or a unary operator: those are refuted."
  },
  {
   "property": "C21",
   "status": "proved",
   "theorems": [
    "C21_short_circuit",
    "C21_boolean_result_refuted"
   ],
   "note": ""
  },
  {
   "property": "C22",
   "status": "proved",
   "theorems": [
    "C22_resume",
    "C22_calls_stable",
    "C22_calls",
    "C22_resumed"
   ],
   "note": ""
  },
  {
   "property": "C23",
   "status": "partial",
   "theorems": [
    "C23_no_underflow_partial",
    "C23_total",
    "C23_no_underflow_refuted",
    "C23_one_value_refuted"
   ],
   "note": "False for token sequences that are not expressions but are accepted ('+', '1 2'); proved for every expression of the grammar."
  },
  {
   "property": "C24",
   "status": "partial",
   "theorems": [
    "C24_add_saturates",
    "C24_subtract_saturates",
    "C24_multiply_saturates",
    "C24_divide_total",
    "C24_divide_by_zero",
    "C24_negate_partial",
    "C24_negate_refuted"
   ],
   "note": "Negation of i64::MIN overflows: refuted; everything else proved."
  },
  {
   "property": "C25",
   "status": "proved",
   "theorems": [
    "C25_tests",
    "C25_conditional"
   ],
   "note": "For every test tree, state, message and sequence of host answers."
  },
  {
   "property": "C26",
   "status": "proved",
   "theorems": [
    "C26_jumps_resolved",
    "C26_compiler_finishes",
    "C26_script_jumps"
   ],
   "note": "For every sequence of tokens, well-formed or not, and for every text of a script."
  },
  {
   "property": "C27",
   "status": "proved",
   "theorems": [
    "C27_script_meaning",
    "C27_steps",
    "C27_alone",
    "C27_accepted"
   ],
   "note": "For every script, with includes to any depth of registered scripts and of scripts that the host hands in when asked (all compiled scripts of known programs); C27_alone is the case without includes. Continue only where it means restarting the innermost while (see C62)."
  },
  {
   "property": "C28",
   "status": "partial",
   "theorems": [
    "C28_text",
    "C28_blocks_and_tests",
    "C28_includes",
    "C28_foreverypart_partial",
    "C28_foreverypart_refuted"
   ],
   "note": "Blocks, tests and includes proved. False for foreverypart: fourteen loops nest with a limit of 3."
  },
  {
   "property": "C29",
   "status": "proved",
   "theorems": [
    "C29_slots"
   ],
   "note": "For every sequence of blocks, assignments and global declarations with at most usize::MAX of them."
  },
  {
   "property": "C30",
   "status": "partial",
   "theorems": [
    "C30_frame_partial",
    "C30_match_variables_partial",
    "C30_refuted"
   ],
   "note": "False: a script with 257 variables is accepted and then dropped by the runtime. Proved: scripts with at most 256 assignments are accepted by the runtime."
  },
  {
   "property": "C31",
   "status": "partial",
   "theorems": [
    "C31_accounting",
    "C31_compiled",
    "C31_script",
    "C31_completed",
    "C31_one_disposition",
    "C31_implicit_keep",
    "C31_after_errors",
    "C31_oversized_refuted"
   ],
   "note": "Proved for every script within the runtime's limits on variables; a script over these limits is dropped without any event, not even the implicit keep (refuted)."
  },
  {
   "property": "C32",
   "status": "proved",
   "theorems": [
    "C32_budget",
    "C32_every_call_returns",
    "C32_over_budget"
   ],
   "note": ""
  },
  {
   "property": "C33",
   "status": "proved",
   "theorems": [
    "C33_message_ids"
   ],
   "note": ""
  },
  {
   "property": "C34",
   "status": "proved",
   "theorems": [
    "C34_include_depth"
   ],
   "note": ""
  },
  {
   "property": "C35",
   "status": "proved",
   "theorems": [
    "C35_caller_undisturbed"
   ],
   "note": ""
  },
  {
   "property": "C36",
   "status": "partial",
   "theorems": [
    "C36_include_once_partial",
    "C36_include_once_refuted"
   ],
   "note": "False for scripts registered with the runtime: they are not entered into the per-run cache, so :once has no effect on them. Proved for scripts delivered by the host."
  },
  {
   "property": "C37",
   "status": "partial",
   "theorems": [
    "C37_require",
    "C37_nothing_after_refused_require"
   ],
   "note": "Run-time half: the require instruction. The compiler half is C71 and C72, where :mailboxid is an exception."
  },
  {
   "property": "C38",
   "status": "partial",
   "theorems": [
    "C38_host_answers_partial",
    "C38_questions",
    "C38_host_answers_refuted"
   ],
   "note": "False when a queued envelope event is pending: the acknowledgement of that event is taken as a test result. Proved when the answer follows the question directly."
  },
  {
   "property": "C39",
   "status": "proved",
   "theorems": [
    "C39_foreverypart",
    "C39_compiled"
   ],
   "note": "For well-formed messages whose parts are numbered in document order."
  },
  {
   "property": "C40",
   "status": "partial",
   "theorems": [
    "C40_quoted_partial",
    "C40_written_partial",
    "C40_quoted_refuted",
    "C40_backslash_refuted"
   ],
   "note": "False in general: an escaped n, r or t is a control character, the backslash of an escaped backslash escapes again, and no quoted string can end in a backslash."
  },
  {
   "property": "C41",
   "status": "partial",
   "theorems": [
    "C41_concat",
    "C41_plain",
    "C41_meaning_partial",
    "C41_meaning_refuted"
   ],
   "note": "Proved in full for texts and references; for arbitrary strings except two irregularities of encoded characters, for which the statement is false (C41_meaning_refuted). Header variables are a parameter."
  },
  {
   "property": "C42",
   "status": "proved",
   "theorems": [
    "C42_set_exact",
    "C42_clear_exact"
   ],
   "note": ""
  },
  {
   "property": "C43",
   "status": "partial",
   "theorems": [
    "C43_mailto_recipients",
    "C43_sent_group_partial",
    "C43_sent_group_refuted"
   ],
   "note": "The recipients read from a URI are duplicate free up to ASCII case; the addresses actually sent to may repeat because angle brackets are stripped afterwards (refuted); the partial theorem states what holds of the sent group."
  },
  {
   "property": "C44",
   "status": "partial",
   "theorems": [
    "C44_reply_considered_iff",
    "C44_no_reply_otherwise",
    "C44_one_reply",
    "C44_reply_goes_to_the_sender",
    "C44_question_names_the_sender",
    "C44_own_address_refuted",
    "C44_question_across_actions_refuted",
    "C44_period_overflow_refuted"
   ],
   "note": "Exact condition of the vacation test and of the reply action. Refuted: the own-address check looks at the last sender although the reply goes to the first; different actions may share one duplicate id; the period in seconds may overflow."
  },
  {
   "property": "C45",
   "status": "partial",
   "theorems": [
    "C45_envelope_addresses_normalised_partial",
    "C45_mailboxes_accepted",
    "C45_set_envelope",
    "C45_single_at_refuted",
    "C45_dotted_domain_refuted",
    "C45_closed_bracket_refuted"
   ],
   "note": "The dotted domain, the single '@' and the closed bracket are refuted by witnesses; everything else is proved."
  },
  {
   "property": "C46",
   "status": "proved",
   "theorems": [
    "C46_display_name_quoted",
    "C46_name_without_line_breaks_refuted"
   ],
   "note": ""
  },
  {
   "property": "C47",
   "status": "proved",
   "theorems": [
    "C47_range",
    "C47_monotone",
    "C47_from_number",
    "C47_threshold",
    "C47_threshold_monotone",
    "C47_rounding",
    "C47_virus_threshold",
    "C47_negated",
    "C47_count_partial",
    "C47_count_refuted"
   ],
   "note": "Monotonicity uses the real-number axioms of the standard library (through Flocq); the :count value 1.1 is refuted against RFC 5235."
  },
  {
   "property": "C48",
   "status": "proved",
   "theorems": [
    "C48_number",
    "C48_size"
   ],
   "note": "usize is taken to be 64 bits."
  },
  {
   "property": "C49",
   "status": "proved",
   "theorems": [
    "C49_anychild_visits_subtree_once",
    "C49_plain_visits_one",
    "C49_nested_ids_once",
    "C49_body_visits_nested_once"
   ],
   "note": ""
  },
  {
   "property": "C50",
   "status": "proved",
   "theorems": [
    "C50_integer_text_round_trip"
   ],
   "note": ""
  },
  {
   "property": "C51",
   "status": "proved",
   "theorems": [
    "C51_hasflag_is_exact",
    "C51_hasflag_regex_refuted"
   ],
   "note": ""
  },
  {
   "property": "C52",
   "status": "proved",
   "theorems": [
    "C52_edits_keep_size_and_protected"
   ],
   "note": ""
  },
  {
   "property": "C53",
   "status": "proved",
   "theorems": [
    "C53_mailto_decodes",
    "C53_mailto_decodes_addresses",
    "C53_recipients_in_fields_refuted"
   ],
   "note": "Recipients given only by a 'to' field followed by further fields are refused (refuted theorem)."
  },
  {
   "property": "C54",
   "status": "partial",
   "theorems": [
    "C54_header_names_partial",
    "C54_header_injection_refuted"
   ],
   "note": "False: an encoded CR LF in a header value introduces a header field. Proved: names of fields."
  },
  {
   "property": "C55",
   "status": "proved",
   "theorems": [
    "C55_automatic_mail_is_silent",
    "C55_valid_method_notifies",
    "C55_valid_method_exact"
   ],
   "note": ""
  },
  {
   "property": "C56",
   "status": "proved",
   "theorems": [
    "C56_size_strict"
   ],
   "note": ""
  },
  {
   "property": "C57",
   "status": "partial",
   "theorems": [
    "C57_explicit_keep_partial",
    "C57_explicit_keep_refuted"
   ],
   "note": "False: a later fileinto without flags or a redirect cancels the explicit keep."
  },
  {
   "property": "C58",
   "status": "partial",
   "theorems": [
    "C58_keep_edited_partial",
    "C58_keep_edited_refuted"
   ],
   "note": "False: after the edited message was filed the implicit keep delivers the original."
  },
  {
   "property": "C59",
   "status": "partial",
   "theorems": [
    "C59_set_reported_partial",
    "C59_envelope_reports_refuted"
   ],
   "note": "Proved for changes made with set or extracttext. With let or the flag actions it is false: of two changes only the last is reported, and one followed by an action is lost."
  },
  {
   "property": "C60",
   "status": "partial",
   "theorems": [
    "C60_no_panic_partial",
    "C60_no_panic_refuted",
    "C60_wildcards_refuted",
    "C60_sign_refuted",
    "C60_vacation_days_refuted",
    "C60_enclose_in_loop_refuted",
    "C60_delete_then_replace_refuted",
    "C60_delete_then_convert_refuted"
   ],
   "note": "Proved for scripts without replace and convert, without both enclose and foreverypart, without unary minus, with at most 63 wildcards in keys that set match variables and vacation periods that fit. False without each condition: replace inside foreverypart, deleteheader followed by replace or convert, enclose inside foreverypart, a run of 64 wildcards, negation of the least integer and a vacation period of 2^48 days all panic."
  },
  {
   "property": "C61",
   "status": "partial",
   "theorems": [
    "C61_reply_header_partial",
    "C61_reply_header_refuted"
   ],
   "note": "False: a line break in the :subject argument adds header fields. Proved when no argument contains a carriage return."
  },
  {
   "property": "C62",
   "status": "partial",
   "theorems": [
    "C62_continue_partial",
    "C62_continue_refuted"
   ],
   "note": "False: in a while directly inside a while it does nothing, one level deeper it is refused, and inside a foreverypart in a while it leaves that loop's iterator behind. Proved for the other nestings."
  },
  {
   "property": "C63",
   "status": "partial",
   "theorems": [
    "C63_scopes_partial",
    "C63_break_refuted"
   ],
   "note": "False: a block left by break does not clear its variables. Proved without :local, break, continue and return inside blocks."
  },
  {
   "property": "C64",
   "status": "partial",
   "theorems": [
    "C64_case_partial",
    "C64_case_refuted"
   ],
   "note": "False for names declared with 'global': the assignment lowers the name and the reference does not."
  },
  {
   "property": "C65",
   "status": "proved",
   "theorems": [
    "C65_multiline"
   ],
   "note": ""
  },
  {
   "property": "C66",
   "status": "proved",
   "theorems": [
    "C66_layout",
    "C66_trailing"
   ],
   "note": ""
  },
  {
   "property": "C67",
   "status": "proved",
   "theorems": [
    "C67_words",
    "C67_tags"
   ],
   "note": ""
  },
  {
   "property": "C68",
   "status": "partial",
   "theorems": [
    "C68_terminates",
    "C68_no_panic_partial",
    "C68_no_panic_refuted"
   ],
   "note": "Terminates for all bytes; no panic for valid UTF-8. False for arbitrary bytes: an over-long string that is not UTF-8 panics in peek."
  },
  {
   "property": "C69",
   "status": "partial",
   "theorems": [
    "C69_grammar_partial",
    "C69_ends_partial",
    "C69_stray_character_refuted",
    "C69_unfinished_refuted",
    "C69_missing_comma_refuted",
    "C69_string_list_refuted",
    "C69_parenthesis_refuted",
    "C69_brace_refuted",
    "C69_else_refuted"
   ],
   "note": "Proved: the tokens of every accepted script, when parentheses are opened only after anyof and allof, are complete commands by the grammar of RFC 5228 with the lenient productions written out in GrammarSpec.v. False without them: stray characters, an unfinished last word, missing commas in lists of tests (then only the last test counts) and of strings, unmatched parentheses and braces, and else after any command in an elsif block are accepted."
  },
  {
   "property": "C70",
   "status": "partial",
   "theorems": [
    "C70_captured_partial",
    "C70_others",
    "C70_kept_partial",
    "C70_recall_partial",
    "C70_match_in_match_refuted",
    "C70_failed_match_refuted",
    "C70_deleteheader_refuted",
    "C70_stale_refuted",
    "C70_string_keys_refuted",
    "C70_room",
    "C70_none",
    "C70_room_asked_refuted"
   ],
   "note": "Proved: what a test stores are the captures of a match between a value it looks at and one of its keys, limited to the variables the compiled test is asked for; nothing is stored when it fails; a stored value is kept and given by strings until the same script executes a test asked for it or a clear, through includes, answers and other instructions. False as a whole: match variables in the strings of a match test are dropped, a failed match loses the variables of the one before, deleteheader :matches makes the compiler forget the variables of a test, variables beyond the wildcards of the last match are stale, a failing string test with several keys stores captures. Missing: the variables the compiler asks a test for."
  },
  {
   "property": "C71",
   "status": "partial",
   "theorems": [
    "C71_required_partial",
    "C71_mailboxid_refuted",
    "C71_strings_refuted"
   ],
   "note": "Proved for every script and every extension of commands, tests and arguments, with one exception: fileinto :mailboxid is accepted with 'mailbox' instead of 'mailboxid' (refuted). Variables and encoded characters in strings are replaced without require (refuted)."
  },
  {
   "property": "C72",
   "status": "partial",
   "theorems": [
    "C72_executed_partial",
    "C72_events_partial"
   ],
   "note": "Proved for all runs of scripts compiled with the check on, with the exception of :mailboxid (see C71_mailboxid_refuted)."
  },
  {
   "property": "C73",
   "status": "partial",
   "theorems": [
    "C73_unedited",
    "C73_header_edits",
    "C73_bare_lf_refuted"
   ],
   "note": "Proved for every message whose offsets tile its bytes with CR LF before each body (what mail_parser records for such messages) and every sequence of header edits. False for a message whose header ends with a bare LF: a CR is added."
  },
  {
   "property": "C74",
   "status": "partial",
   "theorems": [
    "C74_size_is_built_size_partial",
    "C74_enclose_refuted",
    "C74_replace_refuted",
    "C74_convert_refuted"
   ],
   "note": "Proved for header edits. False after enclose (always four bytes short), replace and convert (two bytes short)."
  },
  {
   "property": "C75",
   "status": "partial",
   "theorems": [
    "C75_always_builds_partial",
    "C75_replace_multipart_refuted"
   ],
   "note": "Proved for all histories in which replace is applied to the whole message or to parts without subparts. False for replace of a multipart inside a multipart."
  },
  {
   "property": "C76",
   "status": "partial",
   "theorems": [
    "C76_replace_part_partial",
    "C76_replace_message",
    "C76_seen_in_run",
    "C76_one_from_refuted"
   ],
   "note": "Proved for parts without subparts of a message as received, and for the whole message after any edits. The new header is not always well-formed: without :from there are two From fields."
  },
  {
   "property": "C77",
   "status": "partial",
   "theorems": [
    "C77_enclose_partial",
    "C77_seen_in_run",
    "C77_given_content_type_refuted"
   ],
   "note": "Proved for every message and history unless the script gives a Content-Type of its own, for which it is false."
  },
  {
   "property": "C78",
   "status": "partial",
   "theorems": [
    "C78_convert",
    "C78_seen_in_run",
    "C78_other_fields_refuted"
   ],
   "note": "The exact result is proved for every message as received. The other header fields of a converted part are lost, so the stated property is false."
  },
  {
   "property": "C79",
   "status": "partial",
   "theorems": [
    "C79_replace",
    "C79_enclose_partial",
    "C79_protected",
    "C79_name_refuted"
   ],
   "note": "Proved for replace, and for enclose when the names given with :headers have no line breaks. False otherwise: the name is not checked, so a line break in it adds another field, even a protected one."
  },
  {
   "property": "C80",
   "status": "partial",
   "theorems": [
    "C80_syntax_partial",
    "C80_selection",
    "C80_texts",
    "C80_mailboxes",
    "C80_addresses",
    "C80_content_type",
    "C80_attribute",
    "C80_raw",
    "C80_raw_name",
    "C80_exists",
    "C80_all_fields",
    "C80_text_fields",
    "C80_added",
    "C80_syntax_refuted",
    "C80_any_index_refuted",
    "C80_raw_refuted"
   ],
   "note": "What is missing: references with blanks, repeated or unclosed indices (they are accepted, refuted); the name * with an index (ignored, refuted); raw and raw_name of added headers (refuted). Header values and the parsers behind date, id and addresses of other fields are mail_parser's (hvparser)."
  },
  {
   "property": "C81",
   "status": "partial",
   "theorems": [
    "C81_header_edits",
    "C81_replace_partial",
    "C81_replace_refuted",
    "C81_enclose_refuted",
    "C81_raw_refuted"
   ],
   "note": "Proved for header edits, and for replace when the text part is the replaced one. False for body variables after replace of a whole multipart message and after enclose, and for part.raw after replace."
  },
  {
   "property": "C82",
   "status": "proved",
   "theorems": [
    "C82_tests",
    "C82_actions",
    "C82_include",
    "C82_vacation"
   ],
   "note": "A string with variables stands for what its references name by the variables declared at that place (C41, C64), and the variables declared after the test or action are those it declares. Whether a match variable is available to a reference is left open (C70)."
  },
  {
   "property": "C83",
   "status": "partial",
   "theorems": [
    "C83_reads",
    "C83_program",
    "C83_meaning",
    "C83_alone",
    "C83_steps"
   ],
   "note": "Proved for scripts whose tokens follow the grammar of the RFC with known commands (regular), with requires in front, with includes to any depth of scripts compiled from such texts, and with every continue in a while that is not directly in a while. Names are resolved by the declarations read so far, blocks clear what they declare, and :local variables get their final numbers; which match variables a test keeps (C70) is left open in the program. The meaning of single tests and actions is that of the instructions (other properties)."
  },
  {
   "property": "C84",
   "status": "partial",
   "theorems": [
    "C84_tokens_partial",
    "C84_tokens_refuted"
   ],
   "note": "Proved for texts in which words, tags and numbers are followed by white space or punctuation and whose strings are those of C40 and C65. False in general: a tag right behind a word ('size:over') is read as a colon and a word."
  },
  {
   "property": "C85",
   "status": "partial",
   "theorems": [
    "C85_accepted_partial",
    "C85_text_partial",
    "C85_names_read",
    "C85_mailboxid_refuted",
    "C85_vacation_seconds_refuted"
   ],
   "note": "Proved for every script valid by AcceptSpec.v (all commands, all 26 tests with arguments, all tags, capabilities, labels, loops, limits). The full statement, valid by the RFCs, is false: fileinto ':mailboxid' wants the capability mailbox, and vacation-seconds does not imply vacation. AcceptSpec.v leaves out spellings only this compiler takes (missing commas in lists, unknown commands after ihave) and regular expressions and expressions are valid when the engine and the expression grammar say so."
  },
  {
   "property": "C86",
   "status": "partial",
   "theorems": [
    "C86_add_arrays",
    "C86_add_texts",
    "C86_add_empty",
    "C86_add_makes_text",
    "C86_add_numbers",
    "C86_subtract_arrays",
    "C86_subtract_from_array",
    "C86_arithmetic",
    "C86_divide",
    "C86_every_value_stands_for_a_number",
    "C86_comparisons_agree",
    "C86_total",
    "C86_equal_reflexive",
    "C86_equal_symmetric",
    "C86_equal_meaning",
    "C86_less_is_greater_partial",
    "C86_less_is_greater_refuted",
    "C86_equal_transitive_refuted",
    "C86_logic",
    "C86_index",
    "C86_index_scalar",
    "C86_index_text",
    "C86_array_text"
   ],
   "note": "Proved except that a < b and b > a differ when a text is compared with an array: both are greater than the other (C86_less_is_greater_refuted). Equality is not transitive (C86_equal_transitive_refuted)."
  },
  {
   "property": "C87",
   "status": "partial",
   "theorems": [
    "C87_functions_partial",
    "C87_large_number_refuted",
    "C87_overflow_refuted"
   ],
   "note": "Proved for histories whose external ids stay clear of the number of functions; an external id near 2^32 is taken for an in-process function (C87_large_number_refuted) or overflows (C87_overflow_refuted)."
  },
  {
   "property": "C88",
   "status": "proved",
   "theorems": [
    "C88_extensions",
    "C88_default_extensions",
    "C88_variables"
   ],
   "note": "Proved for all histories of the calls listed. The other settings are single overwritten fields."
  },
  {
   "property": "C89",
   "status": "proved",
   "theorems": [
    "C89_decoding",
    "C89_text",
    "C89_strict",
    "C89_ascii_stays",
    "C89_quoted",
    "C89_part_text",
    "C89_part_raw"
   ],
   "note": "The decoder of the Rust standard library is modelled after the Unicode standard (trusted) and proved to meet the declarative specification. Literals with escapes are C40, strings with variables C41."
  },
  {
   "property": "C90",
   "status": "partial",
   "theorems": [
    "C90_parts_partial",
    "C90_currentdate_order",
    "C90_julian_refuted",
    "C90_order_refuted"
   ],
   "note": "Proved for years of four digits, and for julian from 17 November 1858 on. Before that julian is one too large, because the conversion rounds towards zero. Day number, day of the week and the formats of whole dates are mail_parser's."
  },
  {
   "property": "C91",
   "status": "proved",
   "theorems": [
    "C91_searched",
    "C91_test",
    "C91_run_agrees",
    "C91_types",
    "C91_prologue_epilogue",
    "C91_no_prologue_refuted"
   ],
   "note": "The conversion of HTML and the offsets are mail_parser's. In the model of a run the text of a part is an oracle; C91_run_agrees says when it is this text. A multipart whose body begins with its boundary has its first part searched as if it were the prologue (refuted)."
  },
  {
   "property": "C92",
   "status": "proved",
   "theorems": [
    "C92_finds",
    "C92_says",
    "C92_asks",
    "C92_nothing_to_ask",
    "C92_counts",
    "C92_one_count",
    "C92_count_distinct_refuted",
    "C92_convert",
    "C92_vacation"
   ],
   "note": "Over Run.step: one turn of the loop that executes the test. The specifications are TestSpec.v, CountSpec.v and, for convert and vacation, EditRunSpec.v. 'Each field is counted once' is false when a name is given twice: C92_count_distinct_refuted."
  },
  {
   "property": "C93",
   "status": "proved",
   "theorems": [
    "C93_notify",
    "C93_reply",
    "C93_redirect",
    "C93_fileinto",
    "C93_keep",
    "C93_reject"
   ],
   "note": "One turn of the run at the action, for every environment and state whose queue of events is empty. The parts of a URI are those parse_mailto finds (C43, C53); which addresses are usable is C19's; dates, message ids and raw header bytes are those of the host environment."
  },
  {
   "property": "C94",
   "status": "proved",
   "theorems": [
    "C94_set",
    "C94_set_plain",
    "C94_extract",
    "C94_one_text",
    "C94_extract_limit_refuted"
   ],
   "note": "Over Run.step: one turn of the loop that executes set or extracttext. Case mapping is the library (E_L). The specification is ModSpec.v. extracttext does not obey the largest variable size: C94_extract_limit_refuted."
  },
  {
   "property": "C95",
   "status": "partial",
   "theorems": [
    "C95_replace_message",
    "C95_replace_part_partial",
    "C95_enclose_partial",
    "C95_convert",
    "C95_addheader",
    "C95_deleteheader",
    "C95_convert_type_refuted"
   ],
   "note": "Over Run.step. Missing: replace of a part that has parts of its own, enclose with a boundary that holds a quote or with a Content-Type given by the script (see C77_given_content_type_refuted), and the arithmetic panics of replace and convert, which are excluded by hypothesis. Convert from text/plain also converts other texts: C95_convert_type_refuted. The specification is EditRunSpec.v with BuildSpec.v and EditHeaderSpec.v."
  },
  {
   "property": "C96",
   "status": "partial",
   "theorems": [
    "C96_edits_compose_partial",
    "C96_replace_part_in_run",
    "C96_convert_in_run",
    "C96_header_edit_in_run"
   ],
   "note": "EditTreeSpec.v says what each edit makes of the tree. Missing: replace of a part that has parts of its own (C75_always_builds_partial and its counterexample), enclose with a Content-Type given by the script (C77_given_content_type_refuted) or a boundary with a quote, and header edits that remove a Content-Type the engine wrote."
  },
  {
   "property": "C97",
   "status": "proved",
   "theorems": [
    "C97_include",
    "C97_include_empty",
    "C97_asked"
   ],
   "note": "For every history of host inputs, from the first call on. What the included script then does is C27 and C83."
  },
  {
   "property": "C98",
   "status": "proved",
   "theorems": [
    "C98_limits_only_end_runs",
    "C98_same_until_the_error"
   ],
   "note": "From every state, also between two calls of a conversation. That runs end at all is C25."
  },
  {
   "property": "C99",
   "status": "proved",
   "theorems": [
    "C99_events",
    "C99_message",
    "C99_variables"
   ],
   "note": "The commands are those of the compiled scripts; that these are the ones of the text is C83. AuditSpec.v lists what each instruction may cause."
  },
  {
   "property": "C100",
   "status": "proved",
   "theorems": [
    "C100_events",
    "C100_message",
    "C100_no_mail"
   ],
   "note": "For every text that the compiler accepts, also those outside the grammar of the RFC. WordSpec.v lists the words for each effect. A keep needs no word."
  },
  {
   "property": "C101",
   "status": "partial",
   "theorems": [
    "C101_acknowledgements_partial",
    "C101_acknowledgements_refuted",
    "C101_tested",
    "C101_says",
    "C101_keeps"
   ],
   "note": "The full statement is false: an anyof or allof without a test in it is accepted and goes by what the host said to the action before (C101_acknowledgements_refuted). Proved for all scripts written by the grammar of the RFC, with continue only where C83 allows it, that do not give a value to a part of the envelope with let or a flag command; such a value falsifies it too (C38_host_answers_refuted). A script as the answer to a question is excluded."
  },
  {
   "property": "C102",
   "status": "partial",
   "theorems": [
    "C102_end_partial",
    "C102_end_refuted"
   ],
   "note": "The full statement is false: an envelope item set with let after an action that cancels the keep is announced only by a call after the one that returned nothing (C102_end_refuted). Proved for all scripts that do not give a value to a part of the envelope with let or a flag command, with any instructions otherwise."
  },
  {
   "property": "C103",
   "status": "proved",
   "theorems": [
    "C103_places",
    "C103_reads",
    "C103_same",
    "C103_peek",
    "C103_found",
    "C103_one_byte",
    "C103_every_byte",
    "C103_positions_refuted"
   ],
   "note": "Up to the first error of the tokenizer. Scripts are at most usize::MAX bytes long. Positions are counted in bytes, from 0 on the first line and from 1 on the others (C103_positions_refuted), and a tag that is not in the language is placed behind its colon; LexPosSpec.v says so. Which token the parser complains about is not modelled."
  },
  {
   "property": "C104",
   "status": "partial",
   "theorems": [
    "C104_names_partial",
    "C104_names_refuted",
    "C104_one_name",
    "C104_required_partial",
    "C104_kinds",
    "C104_place_refuted",
    "C104_includes_refuted"
   ],
   "note": "The full statement is false of the code: the text for an unknown instruction prints the position as the line and the line as the column (C104_place_refuted, for every place where they differ), that for too many includes is empty (C104_includes_refuted), and an unknown comparator is printed without its prefix (C104_names_refuted, for all of them). Proved: the kind of error can be told from the text, all other extensions are named as required, and parsing names is one-to-one."
  },
  {
   "property": "C105",
   "status": "partial",
   "theorems": [
    "C105_original",
    "C105_unchanged",
    "C105_announced",
    "C105_stays",
    "C105_told_refuted",
    "C105_undone_refuted"
   ],
   "note": "The first sentence is false of the code: a change that was not yet delivered when the keep is cancelled is not reported (C105_told_refuted), and a change that was undone is (C105_undone_refuted). The other sentences are proved for every conversation with the runtime."
  },
  {
   "property": "C106",
   "status": "partial",
   "theorems": [
    "C106_greater_limits_partial",
    "C106_agree_partial",
    "C106_foreverypart_refuted",
    "C106_string_size_refuted"
   ],
   "note": "Proved for max_nested_blocks, max_nested_tests, max_includes, max_variable_name_size, max_header_size and max_script_size, for every sequence of bytes. False for max_nested_foreverypart, which is compared for equality, and for max_string_size: behind a block a string that is too long is passed over and its bytes are read as a command."
  },
  {
   "property": "C107",
   "status": "proved",
   "theorems": [
    "C107_more_functions",
    "C107_linked",
    "C107_expressions",
    "C107_reused_refuted"
   ],
   "note": "The registrations are those of the model of FunctionMap (see C87). C107_more_functions speaks of whole scripts and their code; C107_expressions adds that the code of an expression also runs as before, with the same calls put to the host, as long as the numbers of the functions of the host stay clear of those of the process. C107_reused_refuted shows why the names must be new: a name in use is taken over. A function of the host with a number so large that it meets those of the process is the finding of C87."
  }
 ]
}