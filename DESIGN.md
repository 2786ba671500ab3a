# Design of the formal model of stalwartlabs/sieve

The model lives in `rocq/theories`. Model files contain definitions only, each with a
comment citing the modelled source lines. `*Spec.v` files contain specifications that do
not use the model's algorithms. Proof files contain lemmas. `Properties*.v` contain the
property theorems, each followed by `Print Assumptions` and by an example that meets its
hypotheses. A theorem named `..._partial` proves part of a property; a theorem named
`..._refuted` shows that the property, or the part left out, is false of the code as
modelled, by a witness.

Conventions: characters and bytes are `N`; text is `list N`; a loop is a structural
recursion or a fuelled recursion whose exhaustion is a distinct error (and theorems state
that it does not occur); `&mut` becomes a returned value; panics are explicit results;
what is supplied by other crates is a parameter, universally quantified in the theorems.

## Trusted base

1. Coq 8.16.1's kernel, including `vm_compute`, which closes most examples and witnesses.
2. The axioms listed by `Print Assumptions`: none ("Closed under the global context") for
   every theorem except `C47_monotone` and `C47_threshold_monotone`. These two use Flocq and
   the standard library's real numbers, hence the standard library's axioms
   `ClassicalDedekindReals.sig_not_dec`, `ClassicalDedekindReals.sig_forall_dec`,
   `FunctionalExtensionality.functional_extensionality_dep` and `Classical_Prop.classic`.
   The library files themselves also declare `Rdefinitions.RbaseSymbolsImpl.*` /
   `RinvImpl.*` (sealed modules of the standard library) and ssreflect's
   `Under_rel.*`; no theorem here depends on them beyond the four axioms above.
3. That the definitions agree with the Rust code. Nothing was extracted or executed: the
   model was written by reading /repo, and the citations in the comments are the means of
   checking it.
4. The parameters below stand for code that is not modelled. A theorem holds for every
   value of the parameter, or for those that meet the hypotheses it states.

| Parameter | Stands for | Assumed |
|---|---|---|
| `rustlib` (`L`) | `str::to_lowercase/uppercase`, `char::is_alphanumeric`, lower-casing of characters, f64 parsing and printing, trimming of Unicode white space | nothing, except the hypotheses `lower_ok`, `lower_ascii_ok` (lower-casing leaves no ASCII capital and is the ASCII one on ASCII) and those on `is_alphanumeric` of C14, where stated |
| `rx` | the `fancy_regex` engine | nothing |
| `M`, `A` (`mailparser`, `addrparser`) | the `mail_parser` crate: parsing of messages and addresses | nothing, or well-formedness of the parsed tree (`wf_message`: every part occurs once, children after their parent) where stated |
| fields of `cenv` (Parse*.v) | the regex engine's syntax check, registered functions | nothing |
| oracles of `Run.v` | host answers, random numbers, current time, the contents of host lists, external functions | nothing: answers range over all values |

Rust library functions with a short definition (UTF-8 coding and decoding, integer
parsing and printing, ASCII case mapping, saturating arithmetic) are defined in `Base.v`,
`Lib.v` and `Utf8.v`; that these definitions are those of the Rust library is trusted.
`usize` is 64 bits. f64 arithmetic is `Coq.Floats.SpecFloat` with precision 53 and maximal
exponent 1024 (round to nearest even).


## Properties: what is modelled and how it is proved

- **C01 Wildcard match is exactly RFC glob matching** (proved). Glob.v models GlobPattern::compile and the last-star backtracking loop; GlobSpec.v defines the language of a pattern by recursion. Proved by an invariant of the loop: every candidate position skipped is no match. *Exact language equivalence and termination for every pattern and value; finding: str::to_lowercase vs char lower-casing (final sigma).* Theorems: `C01_matches_iff_language`, `C01_text_matches_itself_refuted`.
- **C02 Wildcard captures reconstruct the value** (proved). Glob.v models capture with its ranges; spec: cutting the value into pieces, one per item. Same invariant extended with the ranges. *Proved for <=63 wildcards and values free of U+FFFD with single-character case folding; both restrictions are shown necessary by the refuted theorems.* Theorems: `C02_captures_reconstruct`, `C02_capture_agrees_with_match`, `C02_replacement_char_refuted`, `C02_many_stars_refuted`.
- **C03 quotewildcard neutralises every wildcard** (proved). SetVar.v models :quotewildcard; Glob.v the match. Compiling the quoted text gives literals only; induction on the text. Theorems: `C03_quotewildcard_matches_only_itself`, `C03_quotewildcard_never_half_escaped`.
- **C04 string and environment tests look at every source and every key** (partial). Comparator.v models the loops of the string and environment tests over any comparator. Spec: ComparatorSpec.v, one value against one key. The stated property is refuted; what holds (only the last key counts) is proved. *The full claim (any source and any key) is false of the code: only the last key decides; the refuted theorem gives a script-level witness and the partial theorem states exactly what does hold.* Theorems: `C04_last_key_decides_partial`, `C04_count`, `C04_list`, `C04_any_key_suffices_refuted`.
- **C05 header and metadata tests look at every value and every key** (proved). Comparator.v, Message.v, AddrTest.v model the loops of the header, address, envelope, date, exists, body and metadata tests; spec: existence over values and keys. List inductions. *Header, exists, body, metadata, address, envelope and date tests; the header values of one header field come from mail_parser (abstract).* Theorems: `C05_metadata_any_key`, `C05_metadata_exists`, `C05_header_any_value_any_key`, `C05_exists_every_name`, `C05_body_any_part_any_key`, `C05_address_any_value_any_key`, `C05_envelope_any_value_any_key`, `C05_address_envelope_count`, `C05_address_envelope_list`, `C05_date_any_value_any_key`, `C05_currentdate_any_key`, `C05_date_regex_refuted`.
- **C06 Header selection by :index and :last** (proved). Message.v models find_headers; spec: nth element of the filtered list, from either end. *':index 0' selects nothing.* Theorems: `C06_selection_exact`, `C06_selection_order`, `C06_every_part_and_name`.
- **C07 contains and is under the ASCII case-map comparator** (proved). Comparator.v; spec: equality and infix after folding. Theorems: `C07_contains_is_substring`, `C07_is_equivalence`, `C07_is_ascii_casemap`, `C07_non_ascii_refuted`, `C07_numeric_reflexive_refuted`.
- **C08 Relational operators are coherent** (proved). Var.v and Comparator.v with floats as SpecFloat binary64; laws by case analysis on the shape of numbers. Theorems: `C08_relational_meaning`, `C08_integer_order`, `C08_count_meaning`, `C08_relational_coherent`, `C08_trichotomy`, `C08_nan`, `C08_count_coherent`, `C08_equality_transitive_refuted`.
- **C09 Flag variables never hold duplicates** (proved). Flags.v models the flag actions over variables; invariant over sequences of actions. *Both hypotheses (size, no inner spaces in lists) are shown necessary.* Theorems: `C09_no_duplicate_flags`, `C09_single_string_flags_proper`, `C09_truncation_duplicates_refuted`, `C09_unsplit_list_refuted`.
- **C10 Flag actions compute set operations** (proved). Flags.v; spec: union, difference, replacement of sets up to case. Theorems: `C10_flag_actions_are_set_operations`, `C10_in_run`.
- **C11 Stored variables respect the size limit** (proved). SetVar.v models set with UTF-8 lengths; spec: longest prefix that fits. *Finding: numbers count as two bytes whatever their text.* Theorems: `C11_stored_text_is_longest_prefix`, `C11_set_with_modifiers_bounded`, `C11_other_values`, `C11_number_exceeds_limit_refuted`.
- **C12 Modifier order in the script is irrelevant** (proved). SetVar.v models the parser's sort and dedupe; a sorted list with distinct keys is determined by its elements. *Proved for every set of modifiers of distinct precedence; :upper/:replace share one (refuted theorem).* Theorems: `C12_modifier_order_irrelevant`, `C12_modifiers_sorted`, `C12_distinct_precedence`, `C12_upper_replace_refuted`.
- **C13 encodeurl is safe and invertible** (proved). SetVar.v; spec: a decoder for percent escapes. Theorems: `C13_encodeurl_decodes`, `C13_decoding_deterministic`.
- **C14 addheader cannot inject header lines** (proved). EditHeader.v models addheader; no CR or LF survives, and exactly one header is added. *HeaderName::parse assumed to preserve the name up to ASCII case; char::is_alphanumeric assumed to reject CR, LF, colon, space and tab.* Theorems: `C14_addheader_cannot_inject`, `C14_addheader_adds`.
- **C15 deleteheader removes exactly the selected headers** (proved). EditHeader.v models deleteheader; spec: filter by the selection. Theorems: `C15_deleteheader_exact`, `C15_refused_names_delete_nothing`.
- **C16 Redirect limits hold for whole runs** (proved). Run.v, over whole conversations (lists of host calls): invariant relating the counter to the emitted events. *Over whole conversations with any host answers, including includes and resumptions.* Theorems: `C16_redirects`, `C16_messages`, `C16_only_within_limits`.
- **C17 max_out_messages bounds every outgoing message** (partial). Run.v; refuted by a run with mailto notifications, and the bound that does hold. *False: mailto notifications are not bounded by max_out_messages (refuted by a run). Proved: redirects and vacation replies together stay within the limit plus the notifications sent.* Theorems: `C17_out_messages_partial`, `C17_compiled_partial`, `C17_script_partial`, `C17_out_messages_refuted`.
- **C18 Redirect cancels the implicit keep only when it sends** (proved). Run.v; case analysis of redirect against a predicate saying when it sends. Theorems: `C18_redirect_keep`.
- **C19 Addresses accepted for redirect are well formed** (partial). Address.v models sanitize_address byte by byte; AddressSpec.v defines the shape of addresses. State-machine invariants. *The full statement is false: double quotes let white space, CR LF and a second '@' through, control characters are kept, and the dot may end the domain. Proved: the shape for every text, and no white space and one '@' for texts without double quotes.* Theorems: `C19_redirect_address_shape_partial`, `C19_redirect_address_unquoted_partial`, `C19_plain_addresses_accepted`, `C19_redirect_address_clean_refuted`, `C19_redirect_address_single_at_refuted`, `C19_redirect_address_idempotent_refuted`, `C19_redirect_domain_interior_dot_refuted`.
- **C20 Expression parsing respects precedence and associativity** (proved). ExprTok.v and Expr.v model the tokenizer and the shunting-yard parser; ExprSpec.v is the precedence grammar. Induction on derivations generalised over the operator stack. *Proved for every derivation of the grammar in ExprSpec.v, which leaves out array elements starting with '(' or a unary operator: those are refuted.* Theorems: `C20_precedence`, `C20_every_tree`, `C20_text`, `C20_unambiguous`, `C20_array_elements_refuted`, `C20_unary_minus_refuted`, `C20_single_equals_refuted`, `C20_only_expressions_refuted`.
- **C21 && and || are short-circuiting** (proved). Expr.v machine; the evaluation of trees logs the calls. Induction on trees. Theorems: `C21_short_circuit`, `C21_boolean_result_refuted`.
- **C22 Suspended expressions resume correctly** (proved). Expr.v machine with suspension: resuming equals running in one go. C22_resumed: an invariant of the interpreter between two calls (no evaluation under way, or one that stands where the code of the next instruction asked the host) shows that evaluation starts at the first token and is taken up where it was left. Theorems: `C22_resume`, `C22_calls_stable`, `C22_calls`, `C22_resumed`.
- **C23 Compiled expressions never underflow the stack** (partial). Expr.v: stack effect of code. Refuted for token lists that are not expressions. *False for token sequences that are not expressions but are accepted ('+', '1 2'); proved for every expression of the grammar.* Theorems: `C23_no_underflow_partial`, `C23_total`, `C23_no_underflow_refuted`, `C23_one_value_refuted`.
- **C24 Integer arithmetic saturates** (partial). Var.v; spec ValueSpec.v: integers clamped to the range of i64. *Negation of i64::MIN overflows: refuted; everything else proved.* Theorems: `C24_add_saturates`, `C24_subtract_saturates`, `C24_multiply_saturates`, `C24_divide_total`, `C24_divide_by_zero`, `C24_negate_partial`, `C24_negate_refuted`.
- **C25 anyof/allof/not compile to their boolean meaning** (proved). Compile.v models parse_test over tokens with its block stack and jump patching; CompileSpec.v has test trees and their truth. Induction on trees with the block stack generalised, then simulation by Run.v. *For every test tree, state, message and sequence of host answers.* Theorems: `C25_tests`, `C25_conditional`.
- **C26 Every jump in a compiled script is resolved and in range** (proved). Compile.v; invariant of the compiler for every token list: pending jumps, resolved jumps. *For every sequence of tokens, well-formed or not, and for every text of a script.* Theorems: `C26_jumps_resolved`, `C26_compiler_finishes`, `C26_script_jumps`.
- **C27 Structured control flow is preserved by compilation** (proved). CompileSpec.v / ControlSpec.v give scripts a meaning command by command, without positions or jumps; simulation with Run.v. An include runs the commands of the script it enters, and goes on behind it when that ends or returns; a relation Progs says which program each script, registered or handed in by the host, was compiled from. *For every script, with includes to any depth of registered scripts and of scripts that the host hands in when asked (all compiled scripts of known programs); C27_alone is the case without includes. Continue only where it means restarting the innermost while (see C62).* Theorems: `C27_script_meaning`, `C27_steps`, `C27_alone`, `C27_accepted`.
- **C28 Nesting limits are enforced** (partial). Compile.v; the depth of the token list is bounded by the limits, and fuel is never exhausted. *Blocks, tests and includes proved. False for foreverypart: fourteen loops nest with a limit of 3.* Theorems: `C28_text`, `C28_blocks_and_tests`, `C28_includes`, `C28_foreverypart_partial`, `C28_foreverypart_refuted`.
- **C29 Local variables never share storage** (proved). Scope.v models the slots; invariant over all sequences of declarations and blocks. *For every sequence of blocks, assignments and global declarations with at most usize::MAX of them.* Theorems: `C29_slots`.
- **C30 Scripts accepted by the compiler are accepted by the runtime** (partial). Scope.v and the limits of Run.v. *False: a script with 257 variables is accepted and then dropped by the runtime. Proved: scripts with at most 256 assignments are accepted by the runtime.* Theorems: `C30_frame_partial`, `C30_match_variables_partial`, `C30_refuted`.
- **C31 Exactly one final disposition** (partial). Run.v; accounting of keeps, discards, deliveries over whole conversations. *Proved for every script within the runtime's limits on variables; a script over these limits is dropped without any event, not even the implicit keep (refuted).* Theorems: `C31_accounting`, `C31_compiled`, `C31_script`, `C31_completed`, `C31_one_disposition`, `C31_implicit_keep`, `C31_after_errors`, `C31_oversized_refuted`.
- **C32 Execution is bounded by cpu_limit** (proved). Run.v; the instruction counter bounds the executed instructions, and every call returns. Theorems: `C32_budget`, `C32_every_call_returns`, `C32_over_budget`.
- **C33 Message ids are allocated before use** (proved). Run.v; invariant over conversations: every id used was created before. Theorems: `C33_message_ids`.
- **C34 Include nesting is bounded** (proved). Run.v; invariant on the script stack. Theorems: `C34_include_depth`.
- **C35 Included scripts cannot disturb the caller's locals** (proved). Run.v; frames below the top are never touched. Theorems: `C35_caller_undisturbed`.
- **C36 include :once runs a script at most once** (partial). Run.v; the cache of included scripts. *False for scripts registered with the runtime: they are not entered into the per-run cache, so :once has no effect on them. Proved for scripts delivered by the host.* Theorems: `C36_include_once_partial`, `C36_include_once_refuted`.
- **C37 Capabilities are enforced** (partial). Run.v; the require instruction; compiled side with the parser model. *Run-time half: the require instruction. The compiler half is C71 and C72, where :mailboxid is an exception.* Theorems: `C37_require`, `C37_nothing_after_refused_require`.
- **C38 Host answers to tests are interpreted correctly** (partial). Run.v; what an answer does to the test result. *False when a queued envelope event is pending: the acknowledgement of that event is taken as a test result. Proved when the answer follows the question directly.* Theorems: `C38_host_answers_partial`, `C38_questions`, `C38_host_answers_refuted`.
- **C39 foreverypart visits each part exactly once** (proved). Run.v's part iterator and MessageSpec.v's trees; the list of parts is in document order. *For well-formed messages whose parts are numbered in document order.* Theorems: `C39_foreverypart`, `C39_compiled`.
- **C40 Quoted strings denote their RFC value** (partial). Lexer.v models the quoted-string states of the tokenizer; LexerSpec.v defines literals as sequences of plain and escaped characters. *False in general: an escaped n, r or t is a control character, the backslash of an escaped backslash escapes again, and no quoted string can end in a backslash.* Theorems: `C40_quoted_partial`, `C40_written_partial`, `C40_quoted_refuted`, `C40_backslash_refuted`.
- **C41 Variable substitution in strings** (partial). StringTok.v models tokenize_string byte by byte, both passes; StringSpec.v: replace encoded characters, then references. Loop invariant by induction on the length. *Proved in full for texts and references; for arbitrary strings except two irregularities of encoded characters, for which the statement is false (C41_meaning_refuted). Header variables are a parameter.* Theorems: `C41_concat`, `C41_plain`, `C41_meaning_partial`, `C41_meaning_refuted`.
- **C42 Match variables are set and cleared exactly** (proved). Value.v models the bit masks. Theorems: `C42_set_exact`, `C42_clear_exact`.
- **C43 mailto recipients are deduplicated** (partial). Notify.v models parse_mailto; invariant of insert_address. *The recipients read from a URI are duplicate free up to ASCII case; the addresses actually sent to may repeat because angle brackets are stripped afterwards (refuted); the partial theorem states what holds of the sent group.* Theorems: `C43_mailto_recipients`, `C43_sent_group_partial`, `C43_sent_group_refuted`.
- **C44 Vacation never answers automatic or own mail** (partial). Vacation.v models the decision and the action; VacationSpec.v states the conditions of RFC 5230. *Exact condition of the vacation test and of the reply action. Refuted: the own-address check looks at the last sender although the reply goes to the first; different actions may share one duplicate id; the period in seconds may overflow.* Theorems: `C44_reply_considered_iff`, `C44_no_reply_otherwise`, `C44_one_reply`, `C44_reply_goes_to_the_sender`, `C44_question_names_the_sender`, `C44_own_address_refuted`, `C44_question_across_actions_refuted`, `C44_period_overflow_refuted`.
- **C45 Envelope addresses are normalised** (partial). Address.v models parse_envelope_address. *The dotted domain, the single '@' and the closed bracket are refuted by witnesses; everything else is proved.* Theorems: `C45_envelope_addresses_normalised_partial`, `C45_mailboxes_accepted`, `C45_set_envelope`, `C45_single_at_refuted`, `C45_dotted_domain_refuted`, `C45_closed_bracket_refuted`.
- **C46 User display name is quoted safely** (proved). Address.v; spec: unescaping a quoted string. Theorems: `C46_display_name_quoted`, `C46_name_without_line_breaks_refuted`.
- **C47 Spam scores map monotonically into the RFC range** (proved). Spam.v over SpecFloat; monotonicity of the rounding through Flocq's real numbers. *Monotonicity uses the real-number axioms of the standard library (through Flocq); the :count value 1.1 is refuted against RFC 5235.* Theorems: `C47_range`, `C47_monotone`, `C47_from_number`, `C47_threshold`, `C47_threshold_monotone`, `C47_rounding`, `C47_virus_threshold`, `C47_negated`, `C47_count_partial`, `C47_count_refuted`.
- **C48 Numbers with quantifiers** (proved). Lexer.v numbers with their quantifier and saturating product. *usize is taken to be 64 bits.* Theorems: `C48_number`, `C48_size`.
- **C49 MIME subtree traversal is exact** (proved). Message.v models SubpartIterator and find_nested_parts; MessageSpec.v has trees. Theorems: `C49_anychild_visits_subtree_once`, `C49_plain_visits_one`, `C49_nested_ids_once`, `C49_body_visits_nested_once`.
- **C50 Integers survive being stored as text** (proved). Value.v, Lib.v: printing and parsing of i64. Theorems: `C50_integer_text_round_trip`.
- **C51 hasflag looks at every flag of every variable** (proved). Flags.v models hasflag. Theorems: `C51_hasflag_is_exact`, `C51_hasflag_regex_refuted`.
- **C52 Header edits keep the accounted message size exact** (proved). EditHeader.v; sizes of headers. Theorems: `C52_edits_keep_size_and_protected`.
- **C53 mailto notification URIs are decoded to what they write** (proved). Notify.v; spec: percent decoding and splitting of the URI. *Recipients given only by a 'to' field followed by further fields are refused (refuted theorem).* Theorems: `C53_mailto_decodes`, `C53_mailto_decodes_addresses`, `C53_recipients_in_fields_refuted`.
- **C54 A notification carries only the action's and the URI's header fields** (partial). Notify.v; spec: the lines of the notification's header. *False: an encoded CR LF in a header value introduces a header field. Proved: names of fields.* Theorems: `C54_header_names_partial`, `C54_header_injection_refuted`.
- **C55 Automatic mail never triggers a notification and validated URIs always notify** (proved). Notify.v; spec: which header values mark automatic mail. Theorems: `C55_automatic_mail_is_silent`, `C55_valid_method_notifies`, `C55_valid_method_exact`.
- **C56 Size tests are strict** (proved). Message.v size test. Theorems: `C56_size_strict`.
- **C57 An explicit keep is honoured** (partial). Run.v. *False: a later fileinto without flags or a redirect cancels the explicit keep.* Theorems: `C57_explicit_keep_partial`, `C57_explicit_keep_refuted`.
- **C58 The kept message is the edited message** (partial). Run.v with Message.v sizes and edits. *False: after the edited message was filed the implicit keep delivers the original.* Theorems: `C58_keep_edited_partial`, `C58_keep_edited_refuted`.
- **C59 Envelope changes are reported** (partial). Run.v set envelope; ReportSpec.v: the reports in the conversation against the changes of the executed instructions, by an invariant that the queue is empty while instructions run; refuted for let. *Proved for changes made with set or extracttext. With let or the flag actions it is false: of two changes only the last is reported, and one followed by an action is lost.* Theorems: `C59_set_reported_partial`, `C59_envelope_reports_refuted`.
- **C60 Runs never panic** (partial). Run.v; panics are explicit results. CalmSpec.v: conditions on single instructions; an invariant of states (well-formed tree, header sizes within the message size, part numbers in range, scripts calm) is kept by every instruction and rules out each panic. One refutation per condition. *Proved for scripts without replace and convert, without both enclose and foreverypart, without unary minus, with at most 63 wildcards in keys that set match variables and vacation periods that fit. False without each condition: replace inside foreverypart, deleteheader followed by replace or convert, enclose inside foreverypart, a run of 64 wildcards, negation of the least integer and a vacation period of 2^48 days all panic.* Theorems: `C60_no_panic_partial`, `C60_no_panic_refuted`, `C60_wildcards_refuted`, `C60_sign_refuted`, `C60_vacation_days_refuted`, `C60_enclose_in_loop_refuted`, `C60_delete_then_replace_refuted`, `C60_delete_then_convert_refuted`.
- **C61 A vacation reply carries only its own header fields** (partial). Vacation.v; the reply's text split into header fields. *False: a line break in the :subject argument adds header fields. Proved when no argument contains a carriage return.* Theorems: `C61_reply_header_partial`, `C61_reply_header_refuted`.
- **C62 continue restarts the innermost while loop** (partial). ControlSpec.v meaning of continue; Compile.v. *False: in a while directly inside a while it does nothing, one level deeper it is refused, and inside a foreverypart in a while it leaves that loop's iterator behind. Proved for the other nestings.* Theorems: `C62_continue_partial`, `C62_continue_refuted`.
- **C63 Variables are lexically scoped** (partial). Scope.v, ScopeRun.v; ScopeSpec.v has scripts with named, nested scopes. Simulation by induction on scripts. *False: a block left by break does not clear its variables. Proved without :local, break, continue and return inside blocks.* Theorems: `C63_scopes_partial`, `C63_break_refuted`.
- **C64 Variable names are case-insensitive** (partial). Scope.v. *False for names declared with 'global': the assignment lowers the name and the reference does not.* Theorems: `C64_case_partial`, `C64_case_refuted`.
- **C65 Multi-line strings denote their lines** (proved). Lexer.v text: states; spec: lines with dot-stuffing. Theorems: `C65_multiline`.
- **C66 Layout is insignificant** (proved). Lexer.v; spec: white space and comments. Theorems: `C66_layout`, `C66_trailing`.
- **C67 Names of commands, tests and tags are case-insensitive** (proved). Lexer.v words and tags. Theorems: `C67_words`, `C67_tags`.
- **C68 The compiler terminates and never panics** (partial). Parse.v: the whole compiler on bytes, with fuel for the loops and explicit panics. ParseSafe.v: a measure on the tokenizer bounds the fuel; invariants of the tokenizer (valid UTF-8) and of the jump positions exclude panics. *Terminates for all bytes; no panic for valid UTF-8. False for arbitrary bytes: an over-long string that is not UTF-8 panics in peek.* Theorems: `C68_terminates`, `C68_no_panic_partial`, `C68_no_panic_refuted`.
- **C69 Only complete scripts are accepted** (partial). Parse.v. GrammarSpec.v gives the tokens of a script and the grammar of RFC 5228 on them, with the lenient productions marked; GrammarProofs*.v prove, parser by parser, that what a parser consumes is derivable. Refuted where the compiler is more lenient, by evaluation of the model. *Proved: the tokens of every accepted script, when parentheses are opened only after anyof and allof, are complete commands by the grammar of RFC 5228 with the lenient productions written out in GrammarSpec.v. False without them: stray characters, an unfinished last word, missing commas in lists of tests (then only the last test counts) and of strings, unmatched parentheses and braces, and else after any command in an elsif block are accepted.* Theorems: `C69_grammar_partial`, `C69_ends_partial`, `C69_stray_character_refuted`, `C69_unfinished_refuted`, `C69_missing_comma_refuted`, `C69_string_list_refuted`, `C69_parenthesis_refuted`, `C69_brace_refuted`, `C69_else_refuted`.
- **C70 Match variables denote the captures of the last successful match** (partial). MatchSpec.v says what a test may capture (values looked at, keys, wildcard texts as in C02 or regex groups) and when a match variable of a running script may change; MatchProofs.v goes through the loops of every test and through every instruction, answer and include. Refutations by compiling and running scripts in the model (PropertiesParse.v, PropertiesMatch.v). *Proved: what a test stores are the captures of a match between a value it looks at and one of its keys, limited to the variables the compiled test is asked for; nothing is stored when it fails; a stored value is kept and given by strings until the same script executes a test asked for it or a clear, through includes, answers and other instructions. False as a whole: match variables in the strings of a match test are dropped, a failed match loses the variables of the one before, deleteheader :matches makes the compiler forget the variables of a test, variables beyond the wildcards of the last match are stale, a failing string test with several keys stores captures. Missing: the variables the compiler asks a test for.* Theorems: `C70_captured_partial`, `C70_others`, `C70_kept_partial`, `C70_recall_partial`, `C70_match_in_match_refuted`, `C70_failed_match_refuted`, `C70_deleteheader_refuted`, `C70_stale_refuted`, `C70_string_keys_refuted`, `C70_room`, `C70_none`, `C70_room_asked_refuted`.
- **C71 Every instruction is covered by a require** (partial). Parse.v; an invariant of the compiler: regions of the code, each behind a require, that jumps do not enter from outside. *Proved for every script and every extension of commands, tests and arguments, with one exception: fileinto :mailboxid is accepted with 'mailbox' instead of 'mailboxid' (refuted). Variables and encoded characters in strings are replaced without require (refuted).* Theorems: `C71_required_partial`, `C71_mailboxid_refuted`, `C71_strings_refuted`.
- **C72 Extensions the host does not allow have no effect** (partial). Parse.v and Run.v; invariant of runs: all regions around the position have had their require executed. *Proved for all runs of scripts compiled with the check on, with the exception of :mailboxid (see C71_mailboxid_refuted).* Theorems: `C72_executed_partial`, `C72_events_partial`.
- **C73 The built message contains the original, byte for byte** (partial). Build.v models build_message with the offsets of mail_parser. BuildSpec.v: a message is a tree of parts with header fields and bodies, `render` its bytes; `parsed` says that the offsets tile the bytes. Proved by induction over the tree with an invariant of the work list. *Proved for every message whose offsets tile its bytes with CR LF before each body (what mail_parser records for such messages) and every sequence of header edits. False for a message whose header ends with a bare LF: a CR is added.* Theorems: `C73_unedited`, `C73_header_edits`, `C73_bare_lf_refuted`.
- **C74 The size test sees the size of the edited message** (partial). Build.v; the size is tracked through the edits and compared with the length of `render`. *Proved for header edits. False after enclose (always four bytes short), replace and convert (two bytes short).* Theorems: `C74_size_is_built_size_partial`, `C74_enclose_refuted`, `C74_replace_refuted`, `C74_convert_refuted`.
- **C75 Building the edited message always succeeds** (partial). Build.v; every edit of a history preserves the invariant that the part list represents a tree. *Proved for all histories in which replace is applied to the whole message or to parts without subparts. False for replace of a multipart inside a multipart.* Theorems: `C75_always_builds_partial`, `C75_replace_multipart_refuted`.
- **C76 replace changes what it names** (partial). Build.v; `exchange` of one part of the tree, and a direct description of the new root part. *Proved for parts without subparts of a message as received, and for the whole message after any edits. The new header is not always well-formed: without :from there are two From fields.* Theorems: `C76_replace_part_partial`, `C76_replace_message`, `C76_seen_in_run`, `C76_one_from_refuted`.
- **C77 enclose keeps the message intact** (partial). Build.v; the tree with the old tree as a whole message inside. *Proved for every message and history unless the script gives a Content-Type of its own, for which it is false.* Theorems: `C77_enclose_partial`, `C77_seen_in_run`, `C77_given_content_type_refuted`.
- **C78 convert changes only the bodies it converts** (partial). Build.v; `exchange` of the parts the conversion applies to. *The exact result is proved for every message as received. The other header fields of a converted part are lost, so the stated property is false.* Theorems: `C78_convert`, `C78_seen_in_run`, `C78_other_fields_refuted`.
- **C79 replace and enclose cannot inject header lines** (partial). Mime.v, Build.v. FieldsSpec.v says what one line is; the fields of C76 and C77 are shown to be single lines; refuted for names with a line break. *Proved for replace, and for enclose when the names given with :headers have no line breaks. False otherwise: the name is not checked, so a line break in it adds another field, even a protected one.* Theorems: `C79_replace`, `C79_enclose_partial`, `C79_protected`, `C79_name_refuted`.
- **C80 Header variables select the fields they name** (partial). HeaderVar.v (syntax), HeaderEval.v (evaluation). HeaderVarSpec.v writes references out and says what an index selects; the parser's loop is followed over a printed reference, the evaluation by cases of the index. *What is missing: references with blanks, repeated or unclosed indices (they are accepted, refuted); the name * with an index (ignored, refuted); raw and raw_name of added headers (refuted). Header values and the parsers behind date, id and addresses of other fields are mail_parser's (hvparser).* Theorems: `C80_syntax_partial`, `C80_selection`, `C80_texts`, `C80_mailboxes`, `C80_addresses`, `C80_content_type`, `C80_attribute`, `C80_raw`, `C80_raw_name`, `C80_exists`, `C80_all_fields`, `C80_text_fields`, `C80_added`, `C80_syntax_refuted`, `C80_any_index_refuted`, `C80_raw_refuted`.
- **C81 Body and part variables show the message as it is edited** (partial). HeaderEval.v over the states of Build.v; header edits keep bodies (BuildProofs2.v); the text_body and html_body lists of mail_parser are arguments, which replace keeps and enclose empties. *Proved for header edits, and for replace when the text part is the replaced one. False for body variables after replace of a whole multipart message and after enclose, and for part.raw after replace.* Theorems: `C81_header_edits`, `C81_replace_partial`, `C81_replace_refuted`, `C81_enclose_refuted`, `C81_raw_refuted`.
- **C82 Tests and actions are built from their arguments** (proved). Parse.v, ParseArgs.v, ParseBase.v. ArgSpec.v divides argument tokens into tagged and positional pieces and says with tables which test or action they describe. The parsers are followed by a logic that reasons about the tokens a parser reads (GrammarProofs.v); one lemma covers the loop over arguments, with an invariant that relates the options read so far to the pieces read so far. The logic also tracks the declared variables before and after (ArgBase.v). *A string with variables stands for what its references name by the variables declared at that place (C41, C64), and the variables declared after the test or action are those it declares. Whether a match variable is available to a reference is left open (C70).* Theorems: `C82_tests`, `C82_actions`, `C82_include`, `C82_vacation`.
- **C83 A script does what its text says** (partial). RefineSpec.v relates the tokens of a script to commands and tests, with the argument tables of ArgSpec.v and the variables declared at each place, and says by adjacent tokens which texts follow the RFC. The parser of Parse.v is shown to simulate the structural compiler of Compile.v on the commands read (RefineProofs1-7: state up to captured match variables and numbers of :local variables, which later instructions may change); the commands accepted are shown to be those of one program (RefineProofs8-15), to which C27 applies, for included scripts too. *Proved for scripts whose tokens follow the grammar of the RFC with known commands (regular), with requires in front, with includes to any depth of scripts compiled from such texts, and with every continue in a while that is not directly in a while. Names are resolved by the declarations read so far, blocks clear what they declare, and :local variables get their final numbers; which match variables a test keeps (C70) is left open in the program. The meaning of single tests and actions is that of the instructions (other properties).* Theorems: `C83_reads`, `C83_program`, `C83_meaning`, `C83_alone`, `C83_steps`.
- **C84 A script is read as what it is written with** (partial). Lexer.v. LexTextSpec.v says how a list of lexemes is spelled, with layout around them, and which token each lexeme is. By induction on the list: the lexer before a text is either at its first byte or has read it as the delimiter of the word before; one lemma per kind of lexeme (from C40, C48, C65, C66, C67) gives the next token. C84_tokens_refuted is the finding. *Proved for texts in which words, tags and numbers are followed by white space or punctuation and whose strings are those of C40 and C65. False in general: a tag right behind a word ('size:over') is read as a colon and a word.* Theorems: `C84_tokens_partial`, `C84_tokens_refuted`.
- **C85 Valid scripts are accepted** (partial). Parse.v, Lexer.v. AcceptSpec.v is a grammar of valid scripts over tokens: rules for the tags of each command (name, exclusive group, capability, argument), relations for strings, lists, names of variables, tests, actions, blocks. Proved in the other direction than C62, C70 and C83: 'runs m s Q' says that a parser from s does not fail and ends in Q; one lemma per parser, with an invariant (J) on the arguments collected that follows which tags were used; then a mutual induction on the nesting, in continuation style, with the enclosing loops, declared capabilities, variables and number of includes as invariant. With C68 a valid text is compiled. The refutations are findings. *Proved for every script valid by AcceptSpec.v (all commands, all 26 tests with arguments, all tags, capabilities, labels, loops, limits). The full statement, valid by the RFCs, is false: fileinto ':mailboxid' wants the capability mailbox, and vacation-seconds does not imply vacation. AcceptSpec.v leaves out spellings only this compiler takes (missing commas in lists, unknown commands after ihave) and regular expressions and expressions are valid when the engine and the expression grammar say so.* Theorems: `C85_accepted_partial`, `C85_text_partial`, `C85_names_read`, `C85_mailboxid_refuted`, `C85_vacation_seconds_refuted`.
- **C86 Operators of expressions on texts, numbers and arrays** (partial). Var.v, Expr.v. OperatorSpec.v says what the operators do in terms of elements, texts, the number a value stands for (a relation) and truth; comparison is proved total, symmetric and mutually consistent by induction over nested arrays, using that converting an integer to a float never gives NaN. *Proved except that a < b and b > a differ when a text is compared with an array: both are greater than the other (C86_less_is_greater_refuted). Equality is not transitive (C86_equal_transitive_refuted).* Theorems: `C86_add_arrays`, `C86_add_texts`, `C86_add_numbers`, `C86_subtract_arrays`, `C86_subtract_from_array`, `C86_arithmetic`, `C86_divide`, `C86_every_value_stands_for_a_number`, `C86_comparisons_agree`, `C86_total`, `C86_equal_reflexive`, `C86_equal_symmetric`, `C86_equal_meaning`, `C86_less_is_greater_partial`, `C86_less_is_greater_refuted`, `C86_equal_transitive_refuted`, `C86_logic`, `C86_index`, `C86_index_scalar`, `C86_index_text`, `C86_array_text`.
- **C87 Functions of the host are called by their names** (partial). Host.v models FunctionMap and the two look-ups. By induction over the registration history (from its end) every standing registration has an identifier that leads back to it, and none leads to a reserved one; the call itself is C20's evaluation. *Proved for histories whose external ids stay clear of the number of functions; an external id near 2^32 is taken for an in-process function (C87_large_number_refuted) or overflows (C87_overflow_refuted).* Theorems: `C87_functions_partial`, `C87_large_number_refuted`, `C87_overflow_refuted`.
- **C88 Settings of the host are what scripts see** (proved). Host.v models the setters as updates of lists; HostSpec.v says that the last call about a name decides. By induction over the history. *Proved for all histories of the calls listed. The other settings are single overwritten fields.* Theorems: `C88_extensions`, `C88_default_extensions`, `C88_variables`.
- **C89 Bytes that are not text** (proved). Utf8.v (decoder). DecodeSpec.v: an inductive relation between bytes and text with longest ill-formed sequences; proved total and functional, and cut at every ASCII byte, by case analysis over the first up to four bytes and induction on the length. *The decoder of the Rust standard library is modelled after the Unicode standard (trusted) and proved to meet the declarative specification. Literals with escapes are C40, strings with variables C41.* Theorems: `C89_decoding`, `C89_text`, `C89_strict`, `C89_ascii_stays`, `C89_quoted`, `C89_part_text`, `C89_part_raw`.
- **C90 The parts of a date** (partial). AddrTest.v (date_part, julian). DateSpec.v defines decimal numerals of a fixed width and what each part shows; by induction on digits numerals of the same width order like their numbers, which with C05_currentdate_any_key gives the order of dates. *Proved for years of four digits, and for julian from 17 November 1858 on. Before that julian is one too large, because the conversion rounds towards zero. Day number, day of the week and the formats of whole dates are mail_parser's.* Theorems: `C90_parts_partial`, `C90_currentdate_order`, `C90_julian_refuted`, `C90_order_refuted`.
- **C91 Body tests search the text that their transform names** (proved). BodyText.v (transforms and traversal over Build.v's parts with their offsets). BodySpec.v: a relation between a part and the text searched, with bytes cut out by concatenation, decoding as in C89, first and last occurrences; proved equivalent to the function, by induction on texts and on the fuel of the traversal, which visits what the traversal of C49 visits. *The conversion of HTML and the offsets are mail_parser's. In the model of a run the text of a part is an oracle; C91_run_agrees says when it is this text. A multipart whose body begins with its boundary has its first part searched as if it were the prologue (refuted).* Theorems: `C91_searched`, `C91_test`, `C91_run_agrees`, `C91_types`, `C91_prologue_epilogue`, `C91_no_prologue_refuted`.
- **C92 Tests in a running script decide and ask what their arguments say** (proved). TestSpec.v says relationally, for every kind of test, which values and keys are compared (value_of, key_of), what the tests without comparison say (says) and what is asked of the host (asks). One turn of the loop on a test instruction is shown to agree (TestProofs.v), by the per-test theorems of C04-C11, C24, C57, C91 and a transfer from the state after the instruction to the one before it. ':count': CountSpec.v names the things counted by their places (part, name, position, item), and the number compared is the cardinality of that set (CountProofs.v). The tests convert and vacation: EditRunSpec.v, EditRunProofs.v. *Over Run.step: one turn of the loop that executes the test. The specifications are TestSpec.v, CountSpec.v and, for convert and vacation, EditRunSpec.v. 'Each field is counted once' is false when a name is given twice: C92_count_distinct_refuted.* Theorems: `C92_finds`, `C92_says`, `C92_asks`, `C92_nothing_to_ask`, `C92_counts`, `C92_one_count`, `C92_count_distinct_refuted`, `C92_convert`, `C92_vacation`.
- **C93 Actions hand out what their arguments ask for** (proved). ActionSpec.v says what each action hands out: header fields and body of the generated messages field by field, recipients, delivery options, copies, counters; ActionProofs.v shows one turn of Run.v's machine does that (fold invariants for 'the last field', the URI's fields and subject, sender and recipient choices). Finding: the References field of the reply puts the answered message's id before its own References (RFC 5322 3.6.4 has them the other way round). *One turn of the run at the action, for every environment and state whose queue of events is empty. The parts of a URI are those parse_mailto finds (C43, C53); which addresses are usable is C19's; dates, message ids and raw header bytes are those of the host environment.* Theorems: `C93_notify`, `C93_reply`, `C93_redirect`, `C93_fileinto`, `C93_keep`, `C93_reject`.
- **C94 set and extracttext store what their modifiers describe** (proved). ModSpec.v describes each modifier as a relation between texts (character-wise writing within a size, change of the first character, replacing from the left, decimal numbers) and what storing changes; ModProofs.v shows the loops of SetVar.v meet it, by one general lemma on loops that write while there is room; ModProofs2.v shows the relations determine the text; ModProofs3.v does plain values and the flags (C10 in a run), with the flags given described as words of a string or trimmed strings of a list. *Over Run.step: one turn of the loop that executes set or extracttext. Case mapping is the library (E_L). The specification is ModSpec.v. extracttext does not obey the largest variable size: C94_extract_limit_refuted.* Theorems: `C94_set`, `C94_set_plain`, `C94_extract`, `C94_one_text`, `C94_extract_limit_refuted`.
- **C95 Edits in a running script do to the message what their arguments say** (partial). One turn of the loop (Run.step) on an editing instruction is composed with the theorems on built messages (C76-C78, through the views of BuildView.v) and on header edits (C14, C15); EditRunSpec.v writes out what the run hands to them, and which parts convert converts (converts). *Over Run.step. Missing: replace of a part that has parts of its own, enclose with a boundary that holds a quote or with a Content-Type given by the script (see C77_given_content_type_refuted), and the arithmetic panics of replace and convert, which are excluded by hypothesis. Convert from text/plain also converts other texts: C95_convert_type_refuted. The specification is EditRunSpec.v with BuildSpec.v and EditHeaderSpec.v.* Theorems: `C95_replace_message`, `C95_replace_part_partial`, `C95_enclose_partial`, `C95_convert`, `C95_addheader`, `C95_deleteheader`, `C95_convert_type_refuted`.
- **C96 Edits of the message compose** (partial). EditTreeSpec.v defines, by induction on the edits, the tree a message stands for. EditTreeProofs.v shows, by induction on the edits, that the table of parts represents that tree (the relation rep of BuildProofs.v) and that all header fields have valid offsets; the builder then writes the tree (rep_builds). Theorems on single turns of a run lift it to running scripts. *EditTreeSpec.v says what each edit makes of the tree. Missing: replace of a part that has parts of its own (C75_always_builds_partial and its counterexample), enclose with a Content-Type given by the script (C77_given_content_type_refuted) or a boundary with a quote, and header edits that remove a Content-Type the engine wrote.* Theorems: `C96_edits_compose_partial`, `C96_replace_part_in_run`, `C96_convert_in_run`, `C96_header_edit_in_run`.
- **C97 An include runs the script that its name stands for** (proved). IncludeSpec.v says by the list of host inputs which script a name stands for; invariant of Run.v: the cache holds what was handed in last under each name, so the include executed at any point of a run enters it. The host is asked only by an include (case analysis of all instructions). *For every history of host inputs, from the first call on. What the included script then does is C27 and C83.* Theorems: `C97_include`, `C97_include_empty`, `C97_asked`.
- **C98 The limits of a run only end it** (proved). LimitSpec.v gives the runtime with other limits. Every instruction but include is the same under it; one step is the same or fails by a limit; the loop needs no more fuel; induction over the inputs. *From every state, also between two calls of a conversation. That runs end at all is C25.* Theorems: `C98_limits_only_end_runs`, `C98_same_until_the_error`.
- **C99 What scripts can cause is read off their commands** (proved). AuditSpec.v says for each instruction which events it may cause, which variable it assigns and whether it edits the message. Invariant of Run.v: frames and cache hold scripts in play, every queued or pending event is justified, and what no instruction in play changes is as at the start; one lemma per test and instruction, then induction over loop and inputs. *The commands are those of the compiled scripts; that these are the ones of the text is C83. AuditSpec.v lists what each instruction may cause.* Theorems: `C99_events`, `C99_message`, `C99_variables`.
- **C100 A script without a word does not have its effect** (proved). WordSpec.v lists the words for each event. The instructions of an accepted script are those of its commands (C83_reads, for every accepted text); each instruction that has an effect is written with one of its words, which patching jumps, negating tests and renumbering variables do not change; then C99. *For every text that the compiler accepts, also those outside the grammar of the RFC. WordSpec.v lists the words for each effect. A keep needs no word.* Theorems: `C100_events`, `C100_message`, `C100_no_mail`.
- **C101 What the host says to an event that is no question does not matter** (partial). AckSpec.v says when two hosts give the same answers to questions (`same_answers`), and when code branches only after a test (`tested`). AckProofs.v runs the two conversations side by side: the states differ only in the result of the last test, and not even there when the next instruction is a branch. AckLayout.v shows that the layout of every program (gprog, proved to be what the compiler makes, C27) is `tested`; C83 connects it with the text. `C101_acknowledgements_refuted` shows the script with an empty anyof. *The full statement is false: an anyof or allof without a test in it is accepted and goes by what the host said to the action before (C101_acknowledgements_refuted). Proved for all scripts written by the grammar of the RFC, with continue only where C83 allows it, that do not give a value to a part of the envelope with let or a flag command; such a value falsifies it too (C38_host_answers_refuted). A script as the answer to a question is excluded.* Theorems: `C101_acknowledgements_partial`, `C101_acknowledgements_refuted`, `C101_tested`, `C101_says`, `C101_keeps`.
- **C102 The end is final** (partial). EndProofs.v: while a script runs no event is queued, unless a let or a flag command sets a part of the envelope; so when a call returns nothing, no event and no script is left, or the position is behind the script, and both stay so. `C102_end_refuted` is a script with such a let. *The full statement is false: an envelope item set with let after an action that cancels the keep is announced only by a call after the one that returned nothing (C102_end_refuted). Proved for all scripts that do not give a value to a part of the envelope with let or a flag command, with any instructions otherwise.* Theorems: `C102_end_partial`, `C102_end_refuted`.
- **C103 Places in error messages point at what is wrong** (proved). LexPos.v is the tokenizer of Lexer.v with its position fields, subtractions being checked. LexPosSpec.v says which byte a line and a position name, how each token is spelled, and what an error points at, without the tokenizer. Invariant: the counters are those of the bytes read so far, the pending word and the open string are at the place kept for them. By induction over the script, all states and all bytes. `C103_same`: forgetting the places gives the tokenizer of Lexer.v; `C103_one_byte`, `C103_every_byte`: the specification of places is one-to-one. *Up to the first error of the tokenizer. Scripts are at most usize::MAX bytes long. Positions are counted in bytes, from 0 on the first line and from 1 on the others (C103_positions_refuted), and a tag that is not in the language is placed behind its colon; LexPosSpec.v says so. Which token the parser complains about is not modelled.* Theorems: `C103_places`, `C103_reads`, `C103_same`, `C103_peek`, `C103_found`, `C103_one_byte`, `C103_every_byte`, `C103_positions_refuted`.
- **C104 The texts of runtime errors say what happened** (partial). ErrText.v: the enumeration of extensions, its parser, its printer and the texts of runtime errors, with the Rust quoting of strings as a parameter. By the table, for all names; the printed numbers are separated by their digits. *The full statement is false of the code: the text for an unknown instruction prints the position as the line and the line as the column (C104_place_refuted, for every place where they differ), that for too many includes is empty (C104_includes_refuted), and an unknown comparator is printed without its prefix (C104_names_refuted, for all of them). Proved: the kind of error can be told from the text, all other extensions are named as required, and parsing names is one-to-one.* Theorems: `C104_names_partial`, `C104_names_refuted`, `C104_one_name`, `C104_required_partial`, `C104_kinds`, `C104_place_refuted`, `C104_includes_refuted`.
- **C105 The host is told whether the message it gets is the one it gave** (partial). Changed.v: the questions the host can ask of the context. ChangedProofs.v: an edit that is not recorded leaves the message as it is (each editing action); invariant of the machine of Run.v: while no message was announced in place of the given one, the message without recorded edits is the given one and every keep names message 0. *The first sentence is false of the code: a change that was not yet delivered when the keep is cancelled is not reported (C105_told_refuted), and a change that was undone is (C105_undone_refuted). The other sentences are proved for every conversation with the runtime.* Theorems: `C105_original`, `C105_unchanged`, `C105_announced`, `C105_stays`, `C105_told_refuted`, `C105_undone_refuted`.
- **C106 The limits of the compiler only refuse** (partial). CompLimitSpec.v: compilers that differ in their limits. ParseLimit.v: the relation 'whenever the first ends well, the second ends in the same way' between the parsers of the two, through every command; what does not read the limits is the same term. *Proved for max_nested_blocks, max_nested_tests, max_includes, max_variable_name_size, max_header_size and max_script_size, for every sequence of bytes. False for max_nested_foreverypart, which is compared for equality, and for max_string_size: behind a block a string that is too long is passed over and its bytes are read as a command.* Theorems: `C106_greater_limits_partial`, `C106_agree_partial`, `C106_foreverypart_refuted`, `C106_string_size_refuted`.
- **C107 Registering further functions leaves scripts as they are** (proved). FnSpec.v: a compiler that differs in the functions it knows only. ParseFn.v: tokens and expressions are the same under a larger map of names (induction on the tokenizer), and the parser then makes the same of every script it accepts (relation of ParseLimit.v). PropertiesFn.v: registrations of FunctionMap under further names give a larger map and keep the numbers of the functions of the process; a name used again is taken over (refuted). FnExpr.v: the numbers called by the code of an expression are those its words stand for (invariant of the tokenizer and the parser), and the machine asks about no others; hence the same run with the further functions linked in. *The registrations are those of the model of FunctionMap (see C87). C107_more_functions speaks of whole scripts and their code; C107_expressions adds that the code of an expression also runs as before, with the same calls put to the host, as long as the numbers of the functions of the host stay clear of those of the process. C107_reused_refuted shows why the names must be new: a name in use is taken over. A function of the host with a number so large that it meets those of the process is the finding of C87.* Theorems: `C107_more_functions`, `C107_linked`, `C107_expressions`, `C107_reused_refuted`.

## What is modelled

| Source | Model |
|---|---|
| runtime/tests/glob.rs | Glob.v |
| runtime/mod.rs, runtime/eval.rs, runtime/variables.rs | Var.v, Value.v, HeaderEval.v (header, body and part variables; in Run.v these stay an oracle, `E_msgvar`) |
| compiler/lexer/string.rs 345-471, 536-630 | HeaderVar.v |
| runtime/tests/comparator.rs, test_string.rs, test_environment (in test_string), test_mailbox.rs/metadata loops, test_notify.rs | Comparator.v, Notify.v |
| runtime/tests/mime.rs, test_header.rs, test_exists.rs, test_size.rs, test_body.rs | Message.v, BodyText.v (the body transforms; in Run.v these stay an oracle, `E_body`; the subject option is in Run.v) |
| runtime/tests/test_address.rs, test_envelope.rs, test_date.rs | AddrTest.v, Address.v |
| runtime/tests/test_hasflag.rs, actions/action_flags.rs | Flags.v |
| runtime/tests/test_spamtest.rs | Spam.v |
| runtime/actions/action_set.rs, compiler/grammar/actions/action_set.rs (modifiers) | SetVar.v |
| runtime/actions/action_editheader.rs | EditHeader.v |
| runtime/actions/action_redirect.rs, context.rs set_envelope/set_user | Address.v, Run.v |
| runtime/actions/action_notify.rs, action_vacation.rs | Notify.v, Vacation.v |
| runtime/actions/action_mime.rs, action_convert.rs | Mime.v, Build.v (`build_message`) |
| runtime/expression.rs, compiler/grammar/expr/{tokenizer,parser}.rs | Expr.v, ExprTok.v |
| runtime/context.rs, the remaining actions, lib.rs events | Run.v, Event.v, Sieve.v |
| compiler/grammar/instruction.rs, test.rs (control structure) | Compile.v |
| compiler/grammar/instruction.rs (variables), actions/action_set.rs register_variable | Scope.v, ScopeRun.v |
| compiler/lexer/tokenizer.rs, word.rs | Lexer.v |
| compiler/lexer/string.rs | StringTok.v |
| compiler/grammar/mod.rs, the parsers in grammar/tests and grammar/actions | ParseArgs.v (arguments), ParseBase.v, Parse.v |
| compiler/grammar/instruction.rs, test.rs (all of it), lib.rs `Compiler` | Parse.v |

## What is not modelled

- The `mail_parser` crate, the regex engine, Unicode tables, f64 printing and parsing
  (parameters, above).
- Serialization of compiled scripts (rkyv / serde derive).
- The debug assertions of the compiler (the model is that of a release build), the texts
  of compile errors, the token that the parser reports an error at (the places of tokens are
  modelled, LexPos.v), and the test commands of the test suite.
- Memory use, and the time taken by the regex engine.

## Simplifications

Every simplification is stated in the comment of the definition concerned. The main ones:
hash maps are association lists with replacement on insertion; strings are lists of
characters where the code works on UTF-8 bytes but only looks at ASCII bytes; `Arc` and
reference counting are dropped; positions in a byte array are replaced by the list of the
bytes read (StringTok.v, Lexer.v); logging and spans are dropped. Names of header fields are
texts compared without regard to case, although mail_parser's `HeaderName` has a variant per
known name: replace, enclose and convert insert fields named `HeaderName::Other("Subject")`
and the like, and whether these equal the known variants is mail_parser's. The built bytes
(C73-C79, C96) do not depend on it except where Build.v keeps the distinction
(`fh_other`); what header tests and deleteheader see of such fields after these actions does.

## Findings: where the code does not do what the property says

Each is proved of the model by the theorem named.

- C01: a text in `:matches` may fail to match itself (final sigma): `C01_text_matches_itself_refuted`.
- C02: U+FFFD is dropped from captures; a pattern with 64 `*` overflows: `C02_replacement_char_refuted`, `C02_many_stars_refuted`.
- C04: string and environment tests: only the last key decides: `C04_any_key_suffices_refuted`.
- C05: date and currentdate with `:regex` use wildcard matching: `C05_date_regex_refuted`.
- C07: i;ascii-casemap folds beyond ASCII; i;ascii-numeric `:is` is not reflexive: `C07_non_ascii_refuted`, `C07_numeric_reflexive_refuted`.
- C08: equality between integers and floats is not transitive: `C08_equality_transitive_refuted`.
- C09: truncation and unsplit lists make duplicate flags: `C09_truncation_duplicates_refuted`, `C09_unsplit_list_refuted`.
- C11: numbers count as two bytes: `C11_number_exceeds_limit_refuted`.
- C12: `:upper` and `:replace` share a precedence: `C12_upper_replace_refuted`.
- C17: mailto notifications are not limited by max_out_messages: `C17_out_messages_refuted`.
- C19, C45, C46: quotes let white space, line breaks and a second `@` into addresses; display names keep line breaks: `C19_*_refuted`, `C45_*_refuted`, `C46_name_without_line_breaks_refuted`.
- C20, C21, C23: expressions: array elements, unary minus, `=`, non-expressions; `5||x` is 5: `C20_*_refuted`, `C21_boolean_result_refuted`, `C23_*_refuted`.
- C24: `-(-9223372036854775808)` overflows: `C24_negate_refuted`.
- C28: max_nested_foreverypart is not enforced: `C28_foreverypart_refuted`.
- C30: the compiler accepts scripts with more variables than the runtime does: `C30_refuted`.
- C31: a script over the runtime's limits is dropped without even an implicit keep: `C31_oversized_refuted`.
- C36: include :once has no effect on registered scripts: `C36_include_once_refuted`.
- C38: with an envelope event pending, the acknowledgement is taken for a test result: `C38_host_answers_refuted`.
- C40: `\n`, `\r`, `\t` are control characters, an escaped backslash escapes what follows, no string can end in a backslash: `C40_quoted_refuted`, `C40_backslash_refuted`.
- C41: two irregularities of encoded characters: `C41_meaning_refuted`.
- C43, C53, C54: mailto: repeated recipients after stripping brackets, `?to=` refused, header injection by an encoded line break: `C43_sent_group_refuted`, `C53_recipients_in_fields_refuted`, `C54_header_injection_refuted`.
- C44: vacation checks the last sender but answers the first; ids collide between actions; `days * 86400` overflows: `C44_*_refuted`.
- C47: `:count` gives 1.1: `C47_count_refuted`.
- C51: hasflag `:regex` uses wildcard matching: `C51_hasflag_regex_refuted`.
- C57-C60: explicit keep cancelled by a later action; implicit keep after an edit delivers the original; envelope changes lost; replace inside foreverypart panics: `C57_explicit_keep_refuted`, `C58_keep_edited_refuted`, `C59_envelope_reports_refuted`, `C60_no_panic_refuted`.
- C60: besides replace inside foreverypart: deleteheader followed by replace or convert underflows the message size, enclose inside foreverypart leaves part numbers that do not exist, a run of 64 `*` in a key, `-(-9223372036854775808)` and a vacation of 2^48 days overflow: `C60_*_refuted`.
- C61: a line break in vacation's `:subject` adds header fields: `C61_reply_header_refuted`.
- C62: continue in nested loops: `C62_continue_refuted`.
- C64: names declared global are case-sensitive in references: `C64_case_refuted`.
- C63: a block left by `break` does not clear its variables: `C63_break_refuted`.
- C68: an over-long string that is not UTF-8 makes the compiler panic: `C68_no_panic_refuted`.
- C69: a stray character after a conditional, and a word the script ends with, are dropped; a missing comma in anyof or allof is accepted and only the last test counts; unmatched parentheses and braces, and else after any command in an elsif block, are accepted: `C69_*_refuted`.
- C70: match variables in the strings of a match test are dropped; a failed match loses the variables of the one before: `C70_*_refuted`. Also: compiling `deleteheader :matches` makes the compiler attribute later `${n}` to the deleteheader, so they are dropped (debug builds hit the `debug_assert!` of register_match_var); a variable beyond the wildcards of the last match keeps an older value; a string test that fails on its last key stores the captures of an earlier key. The masks of compiled tests may name more variables than the script has (`if header :matches "Subject" "*" {keep;} deleteheader :matches "X" "a*"; fileinto "${1}";`): release builds skip them, debug builds hit the `debug_assert!` of set_match_variables.
- C71, C72: fileinto `:mailboxid` takes "mailbox" instead of "mailboxid"; strings are expanded without "variables" and "encoded-character": `C71_*_refuted`.
- C73: a bare LF before a body becomes CR LF: `C73_bare_lf_refuted`.
- C74: after enclose, replace and convert the size is four or two bytes short: `C74_*_refuted`.
- C75: replace of a multipart inside a multipart renumbers the parts but not the lists of subparts; building panics: `C75_replace_multipart_refuted`.
- C76: replace without `:from` leaves two From fields: `C76_one_from_refuted`.
- C77: a Content-Type in enclose's `:headers` makes the boundary "invalid-boundary": `C77_given_content_type_refuted`.
- C78: convert drops the other header fields of the part, for a message of one part Subject and From: `C78_other_fields_refuted`.
- C79: enclose does not check the names in `:headers`: a line break in one adds a field, even a protected one: `C79_name_refuted`.
- C80: blanks, a second index in brackets and an unclosed index are accepted, `addr.domain` is not a part but `addr.addr.domain` is: `C80_syntax_refuted`. The index after `*` has no effect: `C80_any_index_refuted`. `${header.X.raw_name}` of a header that was added computes 0 - 1, a panic where overflow is checked (so also against C60), and its raw text is empty: `C80_raw_refuted`.
- C81: `${body.text}` keeps the part number of the original message: empty after the whole of a multipart message has been replaced, and after enclose: `C81_replace_refuted`, `C81_enclose_refuted`. `${part.raw}` of a replaced part is the original message up to the end of the part: `C81_raw_refuted`.
- C86: a text and an array are each greater than the other: `C86_less_is_greater_refuted`. `==` is not transitive ("10" == 10 == "010"): `C86_equal_transitive_refuted`. An empty array counts as the number 1 and one with elements as 0 (`stands_for`).
- C87: an external function with an id close to 2^32 is taken for an in-process one: `C87_large_number_refuted`; the last two ids overflow: `C87_overflow_refuted`.
- C88: the default runtime does not allow the vendor extensions `while` and `expressions`, which the compiler accepts: `C88_default_extensions`.
- C90: `julian` of a day before 17 November 1858 is one too large (`C90_julian_refuted`); years beyond 9999 order before those of four digits (`C90_order_refuted`).
- C91: `body :content "multipart"` searches the whole first part when the body begins with the boundary: `C91_no_prologue_refuted`.
- C82: redirect accepts `:bymode` and `:bytrace` without a time and drops them: `C82_bymode_dropped`. `:last` without `:index` is ignored.
- C83: `else` and `elsif` are accepted at the start of an elsif or else block, because `last_block_type` is not reset when a block opens: `C83_else_in_else`. `continue` in a while directly inside a while is accepted and does nothing: `C83_continue_nothing`. The limit on nested foreverypart and the check of its names do not count the innermost block.
- C93: the References field of a vacation reply puts the id of the answered message before the References of that message (RFC 5322, 3.6.4, wants the reverse order): `reply` in ActionSpec.v, proved by `C93_reply`. The sender a mailto notification names is replaced by the user unless it contains the address of the user: `notification_from`.
- C92: with ':count', a header field whose name is given twice in the list (also in another case) is counted twice: `C92_count_distinct_refuted`.
- C94: extracttext stores texts of any size; `max_variable_size` is not applied to it: `C94_extract_limit_refuted`.
- C95: convert from text/plain to text/html converts every text that is not HTML, text/csv or text/calendar for example, while convert from "text" converts only text/plain: `C95_convert_type_refuted`, `C95_convert_type_run`.
- C101: `anyof()` and `allof()` without a test are accepted and compile to a branch with no test before it: it goes by the result of an earlier test or by what the host said to an earlier action: `C101_acknowledgements_refuted`.
- C102: after `fileinto`, `let "envelope.from" ...` at the end of a script leaves its event in the queue when `run` returns `None`; a host that stops there never gets it: `C102_end_refuted`.
- C103: positions in errors are counted from 0 on the first line and from 1 on all others, because `line_start` is the position of the line end: `C103_positions_refuted`. A tag that is not in the language is placed behind its colon, one that is at its colon.
- C104: `Display for RuntimeError` prints `line_pos` as the line and `line_num` as the column of an unknown instruction: `C104_place_refuted`. The text of `TooManyIncludes` is empty: `C104_includes_refuted`. `Display for Capability` prints an unknown comparator without `comparator-`, so `comparator-fileinto` reads `fileinto`: `C104_names_refuted`.
- C105: `has_message_changed` looks at whether a changed message was delivered, not at whether the message was changed: `addheader` followed by `discard` leaves it false (`C105_told_refuted`), and an added header that is deleted again leaves it true (`C105_undone_refuted`).
- C106: a script with nested foreverypart may be accepted with a limit and refused with a greater one (`C106_foreverypart_refuted`). When a string is too long `get_string` leaves its bytes in the buffer, and `peek` behind a block passes over the error, so that with max_string_size 4 the script `if true { stop; } "keep";` is accepted and ends with the command keep: `C106_string_size_refuted`, `C106_quoted_keep`.
- Read in the code, not modelled: the compile error for an unknown command is placed at the start of the enclosing block, which is line 0, column 0 outside of blocks.
