{"id": "C01", "title": "Wildcard match is exactly RFC glob matching", "statement": "A ':matches' comparison of a value with a pattern answers true if and only if the value is in the language of the pattern, where '*' stands for any (possibly empty) character sequence, '?' for exactly one character, a backslash makes the next character literal, and every other character stands for itself (under the comparator's case folding).", "quantifier": "every pattern, every value, both comparators (case folding taken as an arbitrary per-character function)", "why_tests_cant": "the input space is infinite; a test fixes a handful of pattern/value pairs and says nothing of the backtracking on all others", "anchors": ["src/runtime/tests/glob.rs: GlobPattern::compile, GlobPattern::matches"]}
{"id": "C02", "title": "Wildcard captures reconstruct the value", "statement": "When a ':matches' comparison with captured positions succeeds, the captured texts, put back in place of the wildcards of the pattern, spell the compared value again, variable 0 is the whole value, and the captured positions are exactly the requested ones; a capturing comparison succeeds exactly when the non-capturing one does.", "quantifier": "every pattern with fewer than 64 wildcards, every value, every set of requested positions", "why_tests_cant": "the input space is infinite; a test fixes a handful of captures; the claim is a round-trip over all pattern/value pairs", "anchors": ["src/runtime/tests/glob.rs: GlobPattern::capture", "src/runtime/tests/comparator.rs: Comparator::matches"]}
{"id": "C03", "title": "quotewildcard neutralises every wildcard", "statement": "After 'set :quotewildcard', using the variable as a ':matches' pattern accepts the original text and no other text, as long as the quoted text fits in the variable size limit.", "quantifier": "every original text and every candidate value", "why_tests_cant": "the input space is infinite; a test fixes a handful of texts; injection of wildcards through user data needs all texts", "anchors": ["src/runtime/actions/action_set.rs: Modifier::apply", "src/runtime/tests/glob.rs: GlobPattern"]}
{"id": "C04", "title": "string and environment tests look at every source and every key", "statement": "The 'string' (and 'environment') test with :is/:contains/:value is true exactly when some source matches some key.", "quantifier": "every list of sources and keys", "why_tests_cant": "the input space is infinite; a test fixes a handful of list pairs; the result depends on list order", "anchors": ["src/runtime/tests/test_string.rs: TestString::exec"]}
{"id": "C05", "title": "header and metadata tests look at every value and every key", "statement": "The 'header' test is true exactly when some value of some selected header matches some key; 'metadata' is true exactly when the annotation matches some key.", "quantifier": "every message, header selection and key list", "why_tests_cant": "the input space is infinite; a test fixes a handful of messages and key lists", "anchors": ["src/runtime/tests/test_header.rs: TestHeader::exec, Context::find_headers", "src/runtime/tests/test_metadata.rs: TestMetadata::exec"]}
{"id": "C06", "title": "Header selection by :index and :last", "statement": "With ':index n' a header test or edit looks only at the n-th occurrence of each named header in each visited part, counted from the top, and with ':last' from the bottom; without an index at all occurrences, in order; out-of-range indices select nothing.", "quantifier": "every message part, header name list and index", "why_tests_cant": "indices and header layouts are unbounded", "anchors": ["src/runtime/tests/test_header.rs: Context::find_headers"]}
{"id": "C07", "title": "contains and is under the ASCII case-map comparator", "statement": "':contains' is true exactly when the key occurs in the value as a contiguous block under the comparator's case folding; ':is' under i;ascii-casemap is an equivalence relation on texts that identifies exactly the texts that differ in ASCII case only.", "quantifier": "all values and keys", "why_tests_cant": "the input space is infinite; a test fixes a handful of texts", "anchors": ["src/runtime/tests/comparator.rs: Comparator::is, Comparator::contains"]}
{"id": "C08", "title": "Relational operators are coherent", "statement": "For ':value' and ':count', 'ge' is true exactly when 'gt' or 'eq' is, 'ne' is the negation of 'eq', 'lt' the mirror image of 'gt', and for numbers that are not NaN exactly one of lt/eq/gt holds.", "quantifier": "all pairs of values, all operators, both comparators", "why_tests_cant": "the input space is infinite; a test fixes a handful of numbers, including the mixed integer/float cases", "anchors": ["src/runtime/tests/comparator.rs: RelationalMatch::cmp, Comparator::relational", "src/runtime/mod.rs: Number"]}
{"id": "C09", "title": "Flag variables never hold duplicates", "statement": "Whatever sequence of setflag, addflag and removeflag actions a script performs with flags free of white space, a flag variable never contains the same flag twice up to letter case.", "quantifier": "every sequence of flag actions, every flag list", "why_tests_cant": "the number and order of flag actions is unbounded", "anchors": ["src/runtime/actions/action_flags.rs: EditFlags::exec, Context::tokenize_flags"]}
{"id": "C10", "title": "Flag actions compute set operations", "statement": "addflag leaves exactly the old flags plus the given ones, removeflag exactly the old flags minus the given ones, setflag exactly the given ones, all up to letter case.", "quantifier": "every variable content and flag list", "why_tests_cant": "needs all flag lists, including case variants and repetitions", "anchors": ["src/runtime/actions/action_flags.rs: EditFlags::exec"]}
{"id": "C11", "title": "Stored variables respect the size limit", "statement": "After any 'set' or 'let', the stored variable is the evaluated text cut to its longest prefix, on a character boundary, of at most max_variable_size bytes; shorter text is stored unchanged.", "quantifier": "every value, every limit, every UTF-8 text", "why_tests_cant": "cutting inside a multi-byte character shows up only for particular alignments of length and limit", "anchors": ["src/runtime/actions/action_set.rs: Context::set_variable"]}
{"id": "C12", "title": "Modifier order in the script is irrelevant", "statement": "The result of 'set' with modifiers depends only on which modifiers are given, not on the order in which they are written (for modifiers of distinct RFC precedence).", "quantifier": "every list of modifiers and every text", "why_tests_cant": "all permutations of all modifier sets on all texts", "anchors": ["src/compiler/grammar/actions/action_set.rs: Modifier::order, parse_set", "src/runtime/actions/action_set.rs: Modifier::apply"]}
{"id": "C13", "title": "encodeurl is safe and invertible", "statement": "The output of ':encodeurl' contains only unreserved URI characters and percent escapes, and percent-decoding it gives back the original bytes (when the size limit is not hit).", "quantifier": "every text", "why_tests_cant": "the input space is infinite; a test fixes a handful of texts", "anchors": ["src/runtime/actions/action_set.rs: Modifier::apply"]}
{"id": "C14", "title": "addheader cannot inject header lines", "statement": "The header added by addheader has a name made of letters, digits and '-' only and a value without CR or LF no longer than max_header_size; protected headers are never added.", "quantifier": "every name and value text, every script variable content", "why_tests_cant": "injection needs adversarial texts; tests try a few", "anchors": ["src/runtime/actions/action_editheader.rs: AddHeader::exec, remove_crlf"]}
{"id": "C15", "title": "deleteheader removes exactly the selected headers", "statement": "deleteheader removes exactly the header fields selected by name, index and value patterns, keeps all others in order, never touches protected headers, and reduces the accounted message size by exactly the size of what was removed.", "quantifier": "every message, selection and pattern list", "why_tests_cant": "all header layouts", "anchors": ["src/runtime/actions/action_editheader.rs: DeleteHeader::exec, Context::insert_header"]}
{"id": "C16", "title": "Redirect limits hold for whole runs", "statement": "In a run of a script, including all included scripts and resumptions, at most max_redirects redirect messages are produced, and a redirect is produced only when fewer than max_out_messages messages have been sent and fewer than max_received_headers Received headers are present.", "quantifier": "every script, every message, every sequence of host answers", "why_tests_cant": "the bound must hold over every execution history", "anchors": ["src/runtime/actions/action_redirect.rs: Redirect::exec", "src/runtime/context.rs: Context::run"]}
{"id": "C17", "title": "max_out_messages bounds every outgoing message", "statement": "In a run of a script no more than max_out_messages messages are sent by redirect, vacation and notify together.", "quantifier": "every script and every sequence of host answers", "why_tests_cant": "the bound must hold over every execution history", "anchors": ["src/runtime/actions/action_notify.rs: Notify::exec", "src/runtime/actions/action_vacation.rs: Vacation::exec", "src/runtime/actions/action_redirect.rs: Redirect::exec"]}
{"id": "C18", "title": "Redirect cancels the implicit keep only when it sends", "statement": "A redirect without :copy cancels a pending keep if and only if the redirect message is produced; a refused redirect (limits, loops, malformed address) leaves the pending disposition untouched.", "quantifier": "every address text, runtime limits and pending disposition", "why_tests_cant": "losing mail in a corner case is invisible to example tests", "anchors": ["src/runtime/actions/action_redirect.rs: Redirect::exec"]}
{"id": "C19", "title": "Addresses accepted for redirect are well formed", "statement": "Every address accepted by redirect contains an '@' followed by a domain with an interior dot, and no CR, LF, white space, control character, '<' or '>'.", "quantifier": "every address text", "why_tests_cant": "adversarial addresses", "anchors": ["src/runtime/actions/action_redirect.rs: sanitize_address"]}
{"id": "C20", "title": "Expression parsing respects precedence and associativity", "statement": "For every expression tree, the infix text tokens of the tree written with the minimal (or any larger) set of parentheses compile to code that evaluates to the value of the tree, with the documented operator precedences and left associativity.", "quantifier": "every expression tree, of any depth, with any parenthesisation", "why_tests_cant": "trees are unboundedly deep; tests try some operator pairs", "anchors": ["src/compiler/grammar/expr/parser.rs: ExpressionParser::parse", "src/runtime/expression.rs: Context::eval_expression"]}
{"id": "C21", "title": "&& and || are short-circuiting", "statement": "The right operand of '&&' ('||') is evaluated, and its external functions called, only if the left operand is true (false), for arbitrarily nested operands.", "quantifier": "every expression tree and every variable assignment", "why_tests_cant": "jump distances depend on the size of every nested operand", "anchors": ["src/compiler/grammar/expr/parser.rs: update_jmp_pos", "src/runtime/expression.rs: Context::eval_expression"]}
{"id": "C22", "title": "Suspended expressions resume correctly", "statement": "An expression with external function calls, evaluated across any number of suspensions with the host supplying each result, gives the same value and the same sequence of calls and arguments as evaluating it in one go.", "quantifier": "every expression, every host function behaviour, any number of suspensions", "why_tests_cant": "the number of suspension points and the stack contents at each are unbounded", "anchors": ["src/runtime/expression.rs: Context::eval_expression", "src/runtime/context.rs: Context::run (Input::FncResult)"]}
{"id": "C23", "title": "Compiled expressions never underflow the stack", "statement": "Evaluating an expression accepted by the compiler leaves exactly one value and never pops an empty stack.", "quantifier": "every token sequence the expression compiler accepts", "why_tests_cant": "all token sequences", "anchors": ["src/compiler/grammar/expr/parser.rs", "src/runtime/expression.rs"]}
{"id": "C24", "title": "Integer arithmetic saturates", "statement": "Adding, subtracting and multiplying integers in expressions gives the mathematically exact result clamped to the 64-bit range; division never fails and yields 0 for a zero divisor.", "quantifier": "all pairs of 64-bit integers", "why_tests_cant": "2^128 pairs", "anchors": ["src/runtime/expression.rs: Variable::op_add, op_subtract, op_multiply, op_divide, op_minus"]}
{"id": "C25", "title": "anyof/allof/not compile to their boolean meaning", "statement": "The code emitted for a test tree of anyof, allof, not and elementary tests enters the guarded block exactly when the tree is true, and runs exactly the elementary tests left-to-right short-circuit evaluation would run.", "quantifier": "every test tree of any depth and width, every outcome of the elementary tests", "why_tests_cant": "trees are unbounded; negation pushes through nested blocks by De Morgan and jump patching", "anchors": ["src/compiler/grammar/test.rs: CompilerState::parse_test", "src/runtime/context.rs: Context::run (Jz, Jnz)"]}
{"id": "C26", "title": "Every jump in a compiled script is resolved and in range", "statement": "In the instruction list of a successfully compiled script every jump (conditional, unconditional, loop exit) points at an instruction of the script or just past its end, so the interpreter never stops at a dangling jump.", "quantifier": "every accepted script", "why_tests_cant": "needs every nesting of blocks, loops, breaks and elsif chains", "anchors": ["src/compiler/grammar/instruction.rs: Compiler::compile"]}
{"id": "C27", "title": "Structured control flow is preserved by compilation", "statement": "Running the compiled code of a script made of actions, if/elsif/else, foreverypart, while, break, stop and return performs the same sequence of actions as the source-level meaning of the script.", "quantifier": "every script of these constructs, any nesting", "why_tests_cant": "nesting is unbounded", "anchors": ["src/compiler/grammar/instruction.rs: Compiler::compile", "src/runtime/context.rs: Context::run"]}
{"id": "C28", "title": "Nesting limits are enforced", "statement": "A script is accepted only if its blocks nest no deeper than max_nested_blocks, its tests no deeper than max_nested_tests, its foreverypart loops no deeper than max_nested_foreverypart and it has at most max_includes includes.", "quantifier": "every script and every limit", "why_tests_cant": "off-by-one errors depend on where the nesting starts", "anchors": ["src/compiler/grammar/instruction.rs: Compiler::compile", "src/compiler/grammar/test.rs: parse_test"]}
{"id": "C29", "title": "Local variables never share storage", "statement": "At any point of a compiled script two different visible local variables are stored in different slots, all slots are within the frame allocated at run time, and the clearing done at the end of a block touches only that block's variables.", "quantifier": "every script, any nesting, declarations in any order", "why_tests_cant": "all declaration histories", "anchors": ["src/compiler/grammar/instruction.rs: register_local_var, block_end, map_local_vars"]}
{"id": "C30", "title": "Scripts accepted by the compiler are accepted by the runtime", "statement": "Every script the compiler accepts is executed by the runtime rather than being dropped.", "quantifier": "every accepted script", "why_tests_cant": "limits are met only by large scripts", "anchors": ["src/compiler/grammar/instruction.rs: Compiler::compile", "src/runtime/context.rs: Context::run (Input::Script)"]}
{"id": "C31", "title": "Exactly one final disposition", "statement": "A run driven until it reports completion emits exactly one final disposition (keep or discard) as its last event, unless it was cancelled by fileinto, redirect, reject; the implicit keep is emitted if and only if no action cancelled it. In particular after any runtime error the pending keep is still delivered.", "quantifier": "every script, message and sequence of host answers", "why_tests_cant": "mail loss must be excluded on every path", "anchors": ["src/runtime/context.rs: Context::run, Context::finish_loop"]}
{"id": "C32", "title": "Execution is bounded by cpu_limit", "statement": "However the host answers, the interpreter executes at most cpu_limit instructions over the whole run, so every run terminates; exceeding the limit yields an error followed by the pending disposition.", "quantifier": "every script including while loops and recursive includes, every host behaviour", "why_tests_cant": "loops and resumption make histories unbounded", "anchors": ["src/runtime/context.rs: Context::run"]}
{"id": "C33", "title": "Message ids are allocated before use", "statement": "Message ids announced to the host are fresh and consecutive from 1, and every id an event refers to is 0 (the original message) or was announced earlier in the same run.", "quantifier": "every script and history", "why_tests_cant": "histories are unbounded", "anchors": ["src/runtime/actions/action_mime.rs: Context::build_message_id", "src/runtime/context.rs: Context::run"]}
{"id": "C34", "title": "Include nesting is bounded", "statement": "The number of simultaneously active scripts never exceeds max_nested_includes, for self-including and mutually including scripts alike, whether served from the cache or by the host.", "quantifier": "every set of scripts, every host behaviour", "why_tests_cant": "recursion depth is unbounded", "anchors": ["src/runtime/actions/action_include.rs: Include::exec", "src/runtime/context.rs: Context::run"]}
{"id": "C35", "title": "Included scripts cannot disturb the caller's locals", "statement": "When an included script ends or returns, the including script continues after its include with exactly the local and match variables it had before.", "quantifier": "every included script and call depth", "why_tests_cant": "call stacks and contents are unbounded", "anchors": ["src/runtime/context.rs: Context::run"]}
{"id": "C36", "title": "include :once runs a script at most once", "statement": "A script included with :once that has already been run in this context is skipped.", "quantifier": "every history of includes", "why_tests_cant": "histories are unbounded", "anchors": ["src/runtime/actions/action_include.rs: Include::exec"]}
{"id": "C37", "title": "Capabilities are enforced", "statement": "No action of a script runs after a 'require' of a capability the runtime does not allow, and the error names the offending capability.", "quantifier": "every capability set and script", "why_tests_cant": "all combinations of capability sets", "anchors": ["src/runtime/context.rs: Context::run (Instruction::Require)", "src/compiler/grammar/actions/action_require.rs"]}
{"id": "C38", "title": "Host answers to tests are interpreted correctly", "statement": "When a test is delegated to the host (list lookup, mailbox existence, duplicate check), answering yes or no makes the test evaluate to that answer, negated exactly if the script negates the test.", "quantifier": "every delegated test, negated or not, every answer", "why_tests_cant": "all combinations of prior state and answers", "anchors": ["src/runtime/context.rs: Context::run (Input::True, TestResult::Event)"]}
{"id": "C39", "title": "foreverypart visits each part exactly once", "statement": "A foreverypart loop runs its body once for each MIME part in document order, nested loops over the parts of the current part, and afterwards the current part is what it was before; break leaves exactly the loops it names.", "quantifier": "every MIME tree and nesting of loops", "why_tests_cant": "trees and nestings are unbounded", "anchors": ["src/runtime/context.rs: Context::run (ForEveryPart*)", "src/runtime/tests/mime.rs: find_nested_parts_ids"]}
{"id": "C40", "title": "Quoted strings denote their RFC value", "statement": "A quoted string literal in a script denotes the text obtained by removing the escaping backslashes; any text can be written as a literal by escaping '\"' and '\\'.", "quantifier": "every text", "why_tests_cant": "the input space is infinite; a test fixes a handful of literals", "anchors": ["src/compiler/lexer/tokenizer.rs: Tokenizer::next, get_string"]}
{"id": "C41", "title": "Variable substitution in strings", "statement": "A string without '${' denotes itself; a string with references denotes the concatenation of its literal pieces and the values of the references, in order; malformed references are kept literally.", "quantifier": "every string literal and variable assignment", "why_tests_cant": "the input space is infinite; a test fixes a handful of strings", "anchors": ["src/compiler/lexer/string.rs: tokenize_string", "src/runtime/eval.rs: eval_value"]}
{"id": "C42", "title": "Match variables are set and cleared exactly", "statement": "Setting captured values changes exactly the named match variables; leaving a block clears exactly the match variables marked for that block.", "quantifier": "every set of positions below the frame size, every frame", "why_tests_cant": "2^63 masks", "anchors": ["src/runtime/variables.rs: set_match_variables, clear_match_variables"]}
{"id": "C43", "title": "mailto recipients are deduplicated", "statement": "The recipient lists built from a mailto notification URI contain no address twice up to letter case.", "quantifier": "every URI", "why_tests_cant": "the input space is infinite; a test fixes a handful of URIs", "anchors": ["src/runtime/actions/action_notify.rs: parse_mailto, insert_address"]}
{"id": "C44", "title": "Vacation never answers automatic or own mail", "statement": "A vacation reply is considered only for messages that have an envelope sender, are not from the user's own addresses, not from mailing lists or daemons, not auto-submitted, and that name one of the user's addresses as a recipient; at most one reply is produced per vacation action and its limit is honoured.", "quantifier": "every message and address configuration", "why_tests_cant": "mail loops arise only in corner cases", "anchors": ["src/runtime/actions/action_vacation.rs: TestVacation::exec, Vacation::exec"]}
{"id": "C45", "title": "Envelope addresses are normalised", "statement": "An envelope address accepted by the context is the text between the angle brackets, without source route, with an '@' and a dotted domain, or empty for the null sender.", "quantifier": "every text", "why_tests_cant": "the input space is infinite; a test fixes a handful of texts", "anchors": ["src/runtime/tests/test_envelope.rs: parse_envelope_address"]}
{"id": "C46", "title": "User display name is quoted safely", "statement": "The From field built from the user's name and address contains the name in a quoted string whose unescaping is exactly the configured name.", "quantifier": "every display name", "why_tests_cant": "the input space is infinite; a test fixes a handful of names", "anchors": ["src/runtime/context.rs: Context::set_user_full_name, user_from_field"]}
{"id": "C47", "title": "Spam scores map monotonically into the RFC range", "statement": "The spamtest value lies in 0..10 (0 only for unknown), grows with the score, and percentages lie in 0..100.", "quantifier": "every score", "why_tests_cant": "all floating scores", "anchors": ["src/runtime/tests/test_spamtest.rs"]}
{"id": "C48", "title": "Numbers with quantifiers", "statement": "A number literal denotes its decimal value times 2^10, 2^20 or 2^30 for the suffixes K, M, G; numbers that do not fit are rejected rather than wrapped.", "quantifier": "every digit string and suffix", "why_tests_cant": "the input space is infinite; a test fixes a handful of literals", "anchors": ["src/compiler/lexer/tokenizer.rs: Tokenizer::get_current_token"]}
{"id": "C49", "title": "MIME subtree traversal is exact", "statement": "Tests with :anychild and body tests visit the selected part and exactly its descendants, each once.", "quantifier": "every MIME tree", "why_tests_cant": "trees are unbounded", "anchors": ["src/runtime/tests/mime.rs: SubpartIterator"]}
{"id": "C50", "title": "Integers survive being stored as text", "statement": "The decimal text of any 64-bit integer is read back, by expressions and by actions that take integers, as the same integer.", "quantifier": "every 64-bit integer", "why_tests_cant": "the input space is infinite; a test fixes a handful of integers", "anchors": ["src/runtime/mod.rs: Variable::to_string, to_integer", "src/runtime/expression.rs: parse_number"]}
{"id": "C51", "title": "hasflag looks at every flag of every variable", "statement": "A 'hasflag :is' test is true exactly when one of the given flags equals, under the comparator, one of the flags of one of the listed variables.", "quantifier": "every list of variables, contents, flags and comparator", "why_tests_cant": "the input space is infinite; a test fixes a handful of flag sets", "anchors": ["src/runtime/tests/test_hasflag.rs: TestHasFlag::exec"]}
{"id": "C52", "title": "Header edits keep the accounted message size exact", "statement": "After any sequence of addheader and deleteheader actions the size used by the 'size' test equals the size of the unedited remainder plus the size of the header fields now present; no edit fails or underflows; protected headers are never added or removed.", "quantifier": "every message and every finite sequence of header edits", "why_tests_cant": "sequences of edits over arbitrary messages are unbounded", "anchors": ["src/runtime/actions/action_editheader.rs: AddHeader::exec, DeleteHeader::exec, Context::insert_header", "src/runtime/tests/test_size.rs: TestSize::exec"]}
{"id": "C53", "title": "mailto notification URIs are decoded to what they write", "statement": "A mailto URI that percent-encodes its recipients and header values yields exactly those recipients and header fields, whatever characters they contain.", "quantifier": "every list of recipients and header fields", "why_tests_cant": "URIs and escapes are unbounded", "anchors": ["src/runtime/actions/action_notify.rs: parse_mailto"]}
{"id": "C54", "title": "A notification carries only the action's and the URI's header fields", "statement": "The message sent for a mailto notification contains the fields the action and the URI ask for and no others; header values cannot introduce additional fields.", "quantifier": "every notification action and URI", "why_tests_cant": "all URIs and values", "anchors": ["src/runtime/actions/action_notify.rs: Notify::exec, parse_mailto"]}
{"id": "C55", "title": "Automatic mail never triggers a notification and validated URIs always notify", "statement": "A message marked as automatically submitted causes no notification event at all; otherwise a method accepted by valid_notify_method yields a notification.", "quantifier": "every message and notification action", "why_tests_cant": "all headers and URIs", "anchors": ["src/runtime/actions/action_notify.rs: Notify::exec", "src/runtime/tests/test_notify.rs: TestValidNotifyMethod::exec"]}
{"id": "C56", "title": "Size tests are strict", "statement": "For every message size and limit, 'size :over n' holds exactly when the message is larger than n octets and 'size :under n' exactly when it is smaller; a message of exactly n octets satisfies neither, and 'not' inverts each.", "quantifier": "all message sizes and limits", "why_tests_cant": "Boundary behaviour must hold at every limit, including those reached after header edits.", "anchors": ["src/runtime/tests/test_size.rs:TestSize::exec"]}
{"id": "C57", "title": "An explicit keep is honoured", "statement": "A message for which the script executed an explicit 'keep' is kept, with the flags the action gave, whatever the script does afterwards short of 'discard' or 'reject'.", "quantifier": "every script containing a keep action and every continuation", "why_tests_cant": "continuations and combinations of actions are unbounded", "anchors": ["src/runtime/context.rs: Context::run (Keep, FileInto)", "src/runtime/actions/action_fileinto.rs", "src/runtime/actions/action_redirect.rs"]}
{"id": "C58", "title": "The kept message is the edited message", "statement": "When the script changed the message with addheader, deleteheader, replace, enclose or convert and the message is kept, the kept message contains those changes.", "quantifier": "every script and sequence of edits and deliveries", "why_tests_cant": "interleavings of edits and deliveries are unbounded", "anchors": ["src/runtime/context.rs: Context::run, finish_loop, build_message_id"]}
{"id": "C59", "title": "Envelope changes are reported", "statement": "Every change a script makes to the envelope is reported to the host exactly once, in order and before the final disposition.", "quantifier": "every sequence of envelope assignments and actions", "why_tests_cant": "histories are unbounded", "anchors": ["src/runtime/context.rs: Context::run (queued_events)", "src/runtime/actions/action_set.rs: Context::set_variable"]}
{"id": "C60", "title": "Runs never panic", "statement": "No script, message or sequence of host answers makes the interpreter panic.", "quantifier": "every script, message and host behaviour", "why_tests_cant": "all inputs", "anchors": ["src/runtime/context.rs: Context::run", "src/runtime/actions/action_mime.rs: Replace::exec, Enclose::exec"]}
{"id": "C61", "title": "A vacation reply carries only its own header fields", "statement": "The header of a vacation reply consists of From, To (the sender), Subject (the one given, else the prefixed original subject, else the default), reply references, Date, Message-ID and the automatic-reply mark; argument values cannot introduce other fields.", "quantifier": "every message and vacation action", "why_tests_cant": "all values of arguments and headers", "anchors": ["src/runtime/actions/action_vacation.rs: Vacation::exec"]}
{"id": "C62", "title": "continue restarts the innermost while loop", "statement": "Executing 'continue' skips the rest of the body of the innermost enclosing while loop and goes on with that loop's condition, at any nesting of loops.", "quantifier": "every script and every nesting of while, foreverypart and if", "why_tests_cant": "The jump target is computed from the stack of open blocks; only some nestings appear in tests", "anchors": ["src/compiler/grammar/instruction.rs: compile (Word::Continue)"]}
{"id": "C63", "title": "Variables are lexically scoped", "statement": "A variable set in a block is visible from there to the end of the block, in nested blocks too, and nowhere else; each entry of a block starts without the variables set in it; an assignment changes the visible variable of that name or makes a new one; a variable not set reads as the empty string.", "quantifier": "every script, whatever branches are taken and however often loops run", "why_tests_cant": "Slots are shared between blocks and reused over the execution; histories are unbounded", "anchors": ["src/compiler/grammar/instruction.rs: register_local_var, block_end", "src/runtime/context.rs: Context::run (Instruction::Clear)"]}
{"id": "C64", "title": "Variable names are case-insensitive", "statement": "After an assignment to a variable, a reference spelled with any mixture of upper and lower case letters denotes the variable assigned.", "quantifier": "every name, spelling and position in the script", "why_tests_cant": "names and positions are unbounded", "anchors": ["src/compiler/grammar/actions/action_set.rs: register_variable", "src/compiler/lexer/string.rs: parse_variable"]}
{"id": "C65", "title": "Multi-line strings denote their lines", "statement": "A multi-line string literal ('text:', the lines with a dot doubled at the beginning of a line, and a line with a single dot) denotes exactly its lines.", "quantifier": "every text made of whole lines", "why_tests_cant": "the input space is infinite; a test fixes a handful of texts", "anchors": ["src/compiler/lexer/tokenizer.rs: Tokenizer::next (State::MultiLine)"]}
{"id": "C66", "title": "Layout is insignificant", "statement": "White space and comments between tokens do not change what a script means.", "quantifier": "every sequence of white space and comments, every rest of a script", "why_tests_cant": "the input space is infinite", "anchors": ["src/compiler/lexer/tokenizer.rs: Tokenizer::next"]}
{"id": "C67", "title": "Names of commands, tests and tags are case-insensitive", "statement": "A command, test or tag name is recognised in every mixture of upper and lower case letters.", "quantifier": "every word and spelling", "why_tests_cant": "the spellings are exponentially many", "anchors": ["src/compiler/lexer/tokenizer.rs: Tokenizer::next, get_current_token", "src/compiler/lexer/word.rs: lookup_words"]}
{"id": "C68", "title": "The compiler terminates and never panics", "statement": "Compiling any sequence of bytes ends, with a compiled script or an error.", "quantifier": "every sequence of bytes, every setting of the compiler", "why_tests_cant": "the input space is infinite; a panic or an endless loop may need a rare combination", "anchors": ["src/lib.rs: Compiler::compile", "src/compiler/grammar/instruction.rs: Compiler::compile", "src/compiler/lexer/tokenizer.rs: Tokenizer"]}
{"id": "C69", "title": "Only complete scripts are accepted", "statement": "A script with a character that belongs to no token outside strings and comments, or that ends in the middle of a command, is rejected: the tokens of an accepted script form complete commands by the grammar of RFC 5228.", "quantifier": "every script", "why_tests_cant": "the input space is infinite", "anchors": ["src/compiler/lexer/tokenizer.rs: Tokenizer::next, peek", "src/compiler/grammar/instruction.rs: Compiler::compile"]}
{"id": "C70", "title": "Match variables denote the captures of the last successful match", "statement": "After a test with :matches or :regex has succeeded, ${0}, ${1}, ... denote its captures until another such test succeeds; a test that fails does not change them.", "quantifier": "every script and message", "why_tests_cant": "needs every combination of tests, blocks and uses", "anchors": ["src/compiler/grammar/instruction.rs: register_match_var", "src/compiler/grammar/mod.rs: parse_match_type", "src/runtime/tests/mod.rs"]}
{"id": "C71", "title": "Every instruction is covered by a require", "statement": "When the compiler checks capabilities, each command, test and argument of an accepted script that belongs to an extension stands after a 'require' of this extension that covers it; otherwise the script is rejected.", "quantifier": "every script and every setting of the compiler that keeps the check on", "why_tests_cant": "the input space is infinite; each pair of argument and extension has its own check in the parsers", "anchors": ["src/compiler/grammar/mod.rs: validate_argument, has_capability", "src/compiler/grammar/instruction.rs: Compiler::compile", "src/compiler/grammar/actions", "src/compiler/grammar/tests"]}
{"id": "C72", "title": "Extensions the host does not allow have no effect", "statement": "If the runtime does not allow an extension, no command or test of the extension is executed and the host gets no event of it, in the main script and in the included ones, whatever the message is and whatever the host answers.", "quantifier": "every script compiled with the check on, every message, every sequence of host answers", "why_tests_cant": "histories of a run are unbounded: jumps, loops and includes could lead around a require", "anchors": ["src/runtime/context.rs: Context::run (Instruction::Require)", "src/compiler/grammar/instruction.rs: Compiler::compile"]}
{"id": "C73", "title": "The built message contains the original, byte for byte", "statement": "A message the script did not change is built exactly as it was received; after addheader and deleteheader the message differs from the original in the added and removed header fields only, and the remaining fields keep their bytes and order.", "quantifier": "every message and every sequence of header edits", "why_tests_cant": "messages, their nesting and the sequences of edits are unbounded; an offset that is off by one shows only for particular shapes", "anchors": ["src/runtime/actions/action_mime.rs: Context::build_message", "src/runtime/actions/action_editheader.rs: AddHeader::exec, DeleteHeader::exec"]}
{"id": "C74", "title": "The size test sees the size of the edited message", "statement": "After any edits the size that the 'size' test uses is the number of bytes of the message that would be delivered.", "quantifier": "every message and every sequence of edits", "why_tests_cant": "sequences of edits are unbounded", "anchors": ["src/runtime/actions/action_mime.rs: Replace::exec, Enclose::exec, Context::build_message", "src/runtime/actions/action_convert.rs: Convert::exec", "src/runtime/tests/test_size.rs: TestSize::exec"]}
{"id": "C75", "title": "Building the edited message always succeeds", "statement": "Whatever sequence of addheader, deleteheader, replace, enclose and convert a script has executed, the library can build the resulting message without a panic or an endless loop.", "quantifier": "every message and every history of edits", "why_tests_cant": "histories of edits are unbounded and each changes the part tree the next one works on", "anchors": ["src/runtime/actions/action_mime.rs: Context::build_message, Replace::exec, Enclose::exec", "src/runtime/actions/action_convert.rs: Convert::exec"]}
{"id": "C76", "title": "replace changes what it names", "statement": "'replace' on a MIME part exchanges that part and leaves every other byte of the message; on the whole message it gives the kept header fields (recipients, date, trace), the original subject and sender under new names where new ones are given, the new header fields once each, and the given text as the body.", "quantifier": "every message, part, text and options", "why_tests_cant": "messages and part trees are unbounded", "anchors": ["src/runtime/actions/action_mime.rs: Replace::exec, Context::build_message"]}
{"id": "C77", "title": "enclose keeps the message intact", "statement": "After 'enclose' the message has two parts, the given text and the previous message unchanged, separated by the boundary that its Content-Type header names.", "quantifier": "every message, after any edits, and every argument of enclose", "why_tests_cant": "messages, edits and nesting of enclosures are unbounded", "anchors": ["src/runtime/actions/action_mime.rs: Enclose::exec, Context::build_message"]}
{"id": "C78", "title": "convert changes only the bodies it converts", "statement": "'convert' exchanges the body and Content-Type of the parts of the given type and leaves all other parts and header fields.", "quantifier": "every message and pair of media types", "why_tests_cant": "messages and part trees are unbounded", "anchors": ["src/runtime/actions/action_convert.rs: Convert::exec", "src/runtime/actions/action_mime.rs: Context::build_message"]}
{"id": "C79", "title": "replace and enclose cannot inject header lines", "statement": "The header fields that 'replace' and 'enclose' add to the message (the subject, the sender, the fields given with ':headers') are one line each, whatever texts the script gives, and protected headers are never added.", "quantifier": "every subject, sender, list of headers and message, after any edits", "why_tests_cant": "injection needs adversarial texts, and the arguments may hold data from the message", "anchors": ["src/runtime/actions/action_mime.rs: Replace::exec, Enclose::exec", "src/runtime/actions/action_editheader.rs: remove_crlf"]}
{"id": "C80", "title": "Header variables select the fields they name", "statement": "'${header.NAMES[i].part[j]}' is read as it is written, and gives, of the header fields with one of these names in the current part, the i-th (or the last ones, or all), and of each its j-th value; a header that was added is seen at once.", "quantifier": "every reference, message, part and sequence of edits", "why_tests_cant": "references, indices and messages are unbounded", "anchors": ["src/compiler/lexer/string.rs: parse_header_variable, HeaderPart::try_from", "src/runtime/eval.rs: eval_header, eval_part"]}
{"id": "C81", "title": "Body and part variables show the message as it is edited", "statement": "'${body.text}', '${body.html}', '${part.text}' and '${part.raw}' are unchanged by header edits, and after 'replace' and 'enclose' give the new text.", "quantifier": "every message, part and sequence of edits", "why_tests_cant": "histories of edits are unbounded", "anchors": ["src/runtime/eval.rs: variable (MessagePart)", "src/runtime/actions/action_mime.rs: Replace::exec, Enclose::exec"]}
{"id": "C82", "title": "Tests and actions are built from their arguments", "statement": "The compiler builds, for every test and action, exactly what its arguments say: every tag sets its own option, options that are not given have their defaults, positional arguments are taken in order, strings and lists have the values written, whatever the order of the tags; and it reads no token beyond the arguments.", "quantifier": "every test and action, every order and choice of tags, every string, list and number", "why_tests_cant": "the combinations of tags, orders and arguments are unbounded", "anchors": ["src/compiler/grammar/tests: all parsers", "src/compiler/grammar/actions: all parsers", "src/compiler/grammar/mod.rs: parse_strings, parse_string, parse_match_type, parse_comparator"]}
{"id": "C83", "title": "A script does what its text says", "statement": "For every script that compiles and is written by the grammar of the RFC: its tokens are the commands of exactly one program, each command and test carrying what its arguments say, and a run of the compiled script does what that program says, for every message, every answer of the host and every environment. An if runs the first block whose test holds, a loop repeats its block, a test of tests holds when its parts say so, in the order written.", "quantifier": "every script text, every compiler and run environment, every message, every sequence of answers", "why_tests_cant": "scripts nest without bound and every command interacts with the ones before it; a test shows one script on one message", "anchors": ["src/compiler/grammar/instruction.rs: compile", "src/compiler/grammar/test.rs: parse_test", "src/compiler/lexer/tokenizer.rs", "src/runtime/eval.rs, context.rs: run"]}
{"id": "C84", "title": "A script is read as what it is written with", "statement": "A script text made of words, tags, numbers, strings and punctuation, with white space and comments before, between and after them, is read as exactly these tokens in their order: nothing is left out, joined, split or added, whatever the case of letters and wherever comments stand.", "quantifier": "every script text", "why_tests_cant": "texts are unbounded sequences of tokens, layout and comments", "anchors": ["src/compiler/lexer/tokenizer.rs: Tokenizer, Iterator::next, get_current_token, get_token", "src/compiler/lexer/mod.rs: Token", "src/compiler/lexer/word.rs: lookup_words"]}
{"id": "C85", "title": "Valid scripts are accepted", "statement": "A script that is built by the grammar of the RFC from the known commands and tests, gives each of them its arguments in any order of tags, declares the capabilities they need before they are used, uses each exclusive tag once, places 'elsif' and 'else' behind an 'if' and 'break' and 'continue' in a loop, and stays within the limits, is compiled and not rejected.", "quantifier": "every such script, every nesting, choice and order of tags, every compiler configuration", "why_tests_cant": "valid scripts are unbounded in size and nesting, and a rejection of one of them shows only on that script", "anchors": ["src/compiler/grammar/instruction.rs: Compiler::compile", "src/compiler/grammar/test.rs: parse_test", "src/compiler/grammar/tests: all parsers", "src/compiler/grammar/actions: all parsers", "src/compiler/grammar/mod.rs: validate_argument, has_capability, parse_strings"]}
{"id": "C86", "title": "Operators of expressions on texts, numbers and arrays", "statement": "In an expression, for all operand values: + joins arrays element by element (a scalar counts as one element) and otherwise, when a text is involved, joins the texts; array - value removes exactly the equal elements and keeps the order; - and * on numbers (or texts that stand for numbers) saturate for integers and use IEEE arithmetic otherwise, / by zero is 0.0; the six comparisons agree with one another, == is symmetric and, away from NaN, reflexive, a < b says the same as b > a; && || ^ ! follow one notion of truth; an index out of range gives the empty text; an array used as a text is its elements separated by CRLF.", "quantifier": "all pairs of values: texts, integers, floats and arbitrarily nested arrays", "why_tests_cant": "Unit tests try a few pairs; coherence of comparisons and the effect on every array are claims about all values, including nested arrays, NaN and mixed types.", "anchors": ["src/runtime/expression.rs: op_add, op_subtract, op_multiply, op_divide, PartialEq, PartialOrd, to_bool, parse_number", "src/runtime/mod.rs: Variable::to_string, to_usize, into_array"]}
{"id": "C87", "title": "Functions of the host are called by their names", "statement": "After any sequence of registrations of in-process and external functions, a function call in a script calls what was last registered under that name, with the registered number of arguments and the argument values in order; an external function is reported to the host under the id it was registered with, and the host's answer is the value of the call. Names never registered are not functions.", "quantifier": "all registration histories, argument expressions and host answers", "why_tests_cant": "Identifiers of both kinds of functions share one number space with the built-in array operations; that none is ever mistaken for another is a claim about all histories.", "anchors": ["src/runtime/mod.rs: FunctionMap, with_function_args, set_external_function, set_functions", "src/compiler/mod.rs: register_functions", "src/runtime/expression.rs: eval_expression", "src/compiler/grammar/expr/parser.rs: ID_EXTERNAL"]}
{"id": "C88", "title": "Settings of the host are what scripts see", "statement": "After any sequence of calls that allow or forbid extensions, set environment variables on the runtime or on the context, or set global variables: an extension is allowed iff the last call about it allowed it (by default: all but the vendor extensions while and expressions); ${env.name} is the last value set on the context, else on the runtime, else the built-in; a global variable is the last value set.", "quantifier": "all histories of configuration calls and all names", "why_tests_cant": "The claim is about every interleaving of calls and about calls for other names having no effect.", "anchors": ["src/runtime/mod.rs: Runtime::new, set_capability, unset_capability, without_capabilities, set_env_variable", "src/runtime/context.rs: set_env_variable, set_global_variable", "src/runtime/eval.rs: variable"]}
{"id": "C89", "title": "Bytes that are not text", "statement": "Wherever bytes become text (strings of a script, raw header fields, parts of a message that are no text), every byte sequence is read as exactly one text: every UTF-8 encoded character as itself, every longest ill-formed sequence as one U+FFFD. Broken bytes never hide an ASCII character, and a quoted string is one token whatever its other bytes are.", "quantifier": "all byte sequences, script strings and message parts", "why_tests_cant": "There are infinitely many ill-formed sequences, and the claim is about each and about what surrounds it.", "anchors": ["src/runtime/eval.rs: into_string, eval_value", "src/compiler/lexer/tokenizer.rs: get_string", "src/runtime/eval.rs: sanitize_raw_header"]}
{"id": "C90", "title": "The parts of a date", "statement": "The date and currentdate tests compare the parts RFC 5260 names: year, month, day, date, time, hour, minute, second and zone in fixed-width decimal, julian as the Modified Julian Day. Because of this, comparing date or time as text is comparing in time: currentdate :value with a key yyyy-mm-dd or hh:mm:ss is true iff the current day or time is before, at or after the key.", "quantifier": "all dates, zones and keys, and both text comparators", "why_tests_cant": "The claim is about every pair of dates; a test can compare some.", "anchors": ["src/runtime/tests/test_date.rs: DatePart::eval, Zone::eval, TestCurrentDate::exec", "src/runtime/tests/comparator.rs: relational"]}
{"id": "C91", "title": "Body tests search the text that their transform names", "statement": "The body test is true exactly when, in some part at or below the current one (parts of attached messages included) that has one of the types given to :content, the text searched matches a key. With :raw this is the body as its bytes read (or the text a script put there); with :text the text of text parts, the converted text of HTML and of XML files; with :content the decoded contents, of an attached message its header, of a multipart what stands before its first and after its last boundary line. A type is a word or two words with a slash, compared without regard to case.", "quantifier": "all messages with their bytes and offsets, parts, transforms, content types, comparators, match types and keys", "why_tests_cant": "messages nest to any depth, offsets may be out of range, bytes may be ill-formed, and a boundary may occur anywhere or be missing", "anchors": ["src/runtime/tests/test_body.rs: TestBody::exec", "src/runtime/tests/mime.rs: find_nested_parts, ContentTypeFilter::parse"]}
{"id": "C92", "title": "Tests in a running script decide and ask what their arguments say", "statement": "In a run, every test that compares values with keys goes on with 'some value named by its arguments matches some key', turned around by 'not': the fields selected by name, index and options for header and address tests, the envelope items asked for, the dates, the evaluated strings, the environment, the flags of the variables asked for, the annotation of that mailbox, the spam and virus status, the texts of the parts and the subject for body tests. With ':count' the number of the things so named is what is compared with the keys. The tests true, false, exists, size, ihave, valid_ext_list, valid_notify_method and metadataexists are what their arguments say. The tests mailboxexists, mailboxidexists, specialuse_exists, duplicate and every ':list' test report exactly the question their arguments make, and the answer of the host, turned around by 'not', is their result; with nothing to ask they are false.", "quantifier": "every runtime, state of a run with a well-formed message, test, comparator, match type, and answer of the host", "why_tests_cant": "Every kind of test has its own evaluation of arguments; unit tests run a few scripts, while this speaks about all arguments, messages, variables and host settings at once.", "anchors": ["src/runtime/tests/mod.rs:exec", "src/runtime/context.rs:run", "src/runtime/tests/test_header.rs:exec", "src/runtime/tests/test_duplicate.rs:exec", "src/runtime/tests/mod.rs:Test::MailboxExists"]}
{"id": "C93", "title": "Actions hand out what their arguments ask for", "statement": "When a running script reaches notify, vacation, redirect, fileinto, keep or reject, the events handed to the host are exactly those the arguments ask for. A mailto notification is a message from the given sender (only if it names the user, else the user) to all recipients of the URI, with the URI's other fields, the importance, the URI's last subject (else the text, else the message's subject, shortened) and body; another method is an event with the evaluated arguments; an automatic message causes nothing. A vacation reply goes to the first envelope sender and names the answered message. A redirect goes to the checked address with the script's delivery options unless a limit, a loop or the user's own address forbids it. Deliveries use the current flags and, after an edit, the newly announced message. A copy is filed with ':fcc'.", "quantifier": "all environments, states, arguments, messages and URIs", "why_tests_cant": "the events are made of arbitrary evaluated texts, header fields, URI parts and counters; tests check a few literal messages", "anchors": ["src/runtime/actions/action_notify.rs: Notify::exec", "src/runtime/actions/action_vacation.rs: Vacation::exec", "src/runtime/actions/action_redirect.rs: Redirect::exec", "src/runtime/actions/action_fileinto.rs: FileInto::exec", "src/runtime/context.rs: Context::run"]}
{"id": "C94", "title": "set and extracttext store what their modifiers describe", "statement": "In a run, set stores the text its modifiers make of its argument, one modifier after the other: ':lower' and ':upper' map the case, ':lowerfirst' and ':upperfirst' that of the first character only, ':quotewildcard' and ':quoteregex' put a backslash before every special character and nothing else, ':encodeurl' writes everything but unreserved characters as percent escapes of their bytes, ':length' is the number of characters in decimal, ':replace' replaces every occurrence from the left. The text is cut to the largest variable size at a character (and never inside an escape). Without modifiers the value itself is stored. extracttext stores the text of the current part, or its first characters, changed in the same way. No other variable changes, and a changed envelope item is reported.", "quantifier": "every runtime, state of a run, list of modifiers, text and assignable variable", "why_tests_cant": "Modifiers act on all texts, including those at the size limit and with characters of several bytes; unit tests run a few short strings.", "anchors": ["src/runtime/actions/action_set.rs:exec", "src/runtime/actions/action_set.rs:apply", "src/runtime/actions/action_set.rs:set_variable", "src/runtime/actions/action_mime.rs:ExtractText::exec"]}
{"id": "C95", "title": "Edits in a running script do to the message what their arguments say", "statement": "When a running script executes replace, enclose, convert, addheader or deleteheader, the message of the run becomes the one the evaluated arguments describe, in the current part: the built message has the given text in place of the part or the message; or it encloses the message, byte for byte, behind the given text, and the new root is current; or exactly the parts of the type to convert are converted; or exactly the one field is added, or exactly the fields the arguments select are deleted. Nothing else of the run changes.", "quantifier": "all runtimes, all states of a run about to execute such an action, all arguments, all messages", "why_tests_cant": "The actions work on messages of any shape after any earlier edits, with arguments that are evaluated in the run; unit tests compare a few complete outputs.", "anchors": ["src/runtime/actions/action_mime.rs:Replace::exec", "src/runtime/actions/action_mime.rs:Enclose::exec", "src/runtime/actions/action_convert.rs:Convert::exec", "src/runtime/actions/action_editheader.rs:AddHeader::exec", "src/runtime/actions/action_editheader.rs:DeleteHeader::exec", "src/runtime/context.rs:run"]}
{"id": "C96", "title": "Edits of the message compose", "statement": "However many addheader, deleteheader, replace, enclose and convert actions were executed, in whatever order, the message that is built from then on (and that fileinto, keep and redirect deliver) is the tree of parts that these edits, one after the other, make of the original message: each edit changes exactly its own node or header fields of the tree, and every other byte is that of the message before it.", "quantifier": "all messages whose offsets tile their bytes, all finite sequences of edits by any scripts and runtimes", "why_tests_cant": "The builder walks offsets of the original and inserted parts mixed; whether edits interfere depends on their order and on the shape of the message, of which there are unboundedly many; unit tests compare a few outputs.", "anchors": ["src/runtime/actions/action_mime.rs:build_message", "src/runtime/actions/action_mime.rs:Replace::exec", "src/runtime/actions/action_mime.rs:Enclose::exec", "src/runtime/actions/action_convert.rs:Convert::exec", "src/runtime/actions/action_editheader.rs:AddHeader::exec", "src/runtime/actions/action_editheader.rs:DeleteHeader::exec"]}
{"id": "C97", "title": "An include runs the script that its name stands for", "statement": "In a run, an include of a non-empty name enters the script that the host handed in last under this name and location; if it handed in none, the one registered with the runtime under the name; and if there is none either, the host is asked for exactly this name and location, and told whether it is optional. The host is therefore never asked for a script that it has handed in before or that is registered. The script starts at its beginning with empty variables of its own, sees the global variables, and behind it the including script goes on with its own variables. With :once the include is skipped if a script was handed in under the name; and it fails if the limit of active scripts is reached.", "quantifier": "every sequence of host inputs, every include executed in it, every set of registered scripts", "why_tests_cant": "which script runs depends on the whole history of the conversation; tests cover short conversations only", "anchors": ["src/runtime/actions/action_include.rs Include::exec", "src/runtime/context.rs Context::run"]}
{"id": "C98", "title": "The limits of a run only end it", "statement": "If in a conversation no output says that the limit of instructions or the limit of active scripts is exceeded, then the same conversation under higher limits has the same outputs, one by one, and ends in the same state. And any conversation agrees with the one under higher limits up to the output that says that a limit is exceeded: a limit never makes a script quietly do something else.", "quantifier": "every runtime, every pair of limits not below its own, every sequence of host inputs, every state a conversation may be in", "why_tests_cant": "tests run with one pair of limits; that a limit shows nowhere but in its error is a statement about every run and all pairs", "anchors": ["src/runtime/context.rs Context::run", "src/runtime/actions/action_include.rs Include::exec", "src/runtime/mod.rs Runtime::with_cpu_limit", "src/runtime/mod.rs Runtime::with_max_nested_includes"]}
{"id": "C99", "title": "What scripts can cause is read off their commands", "statement": "Whatever the host answers: every event it is handed in a conversation is a keep, or is caused by a command that occurs in one of the scripts handed in or registered. A message is sent only if there is a redirect (to a list only with :list), a vacation or a notify; it is filed only if there is a fileinto (created and special-use only if that command asks for it) or a copy is asked for; it is discarded, rejected, or an include, a function, a list, a mailbox or an identifier asked for only by the command or test of this kind; the host is told of a new message only if a command edits the message or writes one. Without a command that edits it the message stays as it is, and a global variable or item of the envelope that no command assigns keeps the value the host gave it.", "quantifier": "every sequence of host inputs, every set of registered scripts, every message and host variables", "why_tests_cant": "auditing a script means excluding effects over all runs; a test can show an effect but not exclude one", "anchors": ["src/runtime/context.rs Context::run", "src/runtime/actions", "src/runtime/tests/mod.rs Test::exec"]}
{"id": "C100", "title": "A script without a word does not have its effect", "statement": "Whatever the host answers: if none of the scripts in play has, as a word outside strings and comments, one of the words for an effect, then the effect does not occur. Mail is sent only by scripts with redirect, vacation or notify; a message is filed only with fileinto, vacation or notify, discarded only with discard, rejected only with reject or ereject; a script is asked for only with include, a function with eval, while or let, a mailbox, an identifier or a list with a test that looks at one; and the message is edited only with replace, enclose, convert, addheader or deleteheader.", "quantifier": "every text of every script in play, every sequence of host inputs, every message and host variables", "why_tests_cant": "to exclude an effect for all messages and all answers of the host is not a matter of examples", "anchors": ["src/compiler/grammar/instruction.rs CompilerState::compile", "src/compiler/grammar/test.rs parse_test", "src/compiler/lexer/word.rs", "src/runtime/context.rs Context::run"]}
{"id": "C101", "title": "What the host says to an event that is no question does not matter", "statement": "After an action, a file into a mailbox for example, the host may answer the next call with true or false: everything that is handed out later, the final message and the variables are the same. Only the answers to questions (is the value in a list, was this id seen, do these mailboxes exist) decide how the script goes on.", "quantifier": "every message, runtime, set of scripts written by the grammar, and any two conversations that differ only in true or false given to events that are no questions", "why_tests_cant": "a test uses one script and one sequence of answers; the answers are all stored in the same place as the results of tests, so one forgotten reset shows only for some scripts and some answers", "anchors": ["src/runtime/context.rs:run (Input::True, Input::False)", "src/compiler/grammar/test.rs:parse_test", "src/compiler/grammar/instruction.rs:parse"]}
{"id": "C102", "title": "The end is final", "statement": "Once a call of run has returned nothing, all further calls return nothing, until the host hands in another script: no event is left behind for a host that stops at the end.", "quantifier": "every message, runtime, history of the conversation and sequence of further inputs", "why_tests_cant": "a test stops at the first None; what would come after it is never looked at", "anchors": ["src/runtime/context.rs:run", "src/runtime/context.rs:finish_loop", "src/runtime/actions/action_set.rs:set_variable"]}
{"id": "C103", "title": "Places in error messages point at what is wrong", "statement": "Every token the compiler reads carries the line and the position at which it is written in the script, and every error of the tokenizer (invalid character, string that is too long, string, multi-line text or comment without an end) carries those of the character, of the start of the string or of the comment. Lines are counted from 1 over all line ends, also those in comments and strings; tokens come in the order of the script; and keeping these numbers never overflows or panics, whatever the bytes of the script.", "quantifier": "all sequences of bytes as scripts, all string size limits", "why_tests_cant": "Each kind of token, comment and string moves the counters in its own way, and the error is read by a person who only notices that it is off in a script with the right mixture of line ends, comments and multi-line texts.", "anchors": ["src/compiler/lexer/tokenizer.rs: Tokenizer::next, new_line, push_byte, text_start, get_current_token, get_token, get_string, invalid_character, peek", "src/compiler/mod.rs: CompileError"]}
{"id": "C104", "title": "The texts of runtime errors say what happened", "statement": "The text of an error of a run tells which kind of error it is; for a required extension that is not allowed it gives the name that the script required, for an instruction that is not known its line and its column; two names stand for the same extension only if they are the same, and an extension is printed by the name it is parsed from.", "quantifier": "all names of extensions, all errors of a run, all ways to print a quoted string", "why_tests_cant": "The names are free text and share prefixes with the built-in tables; a swapped or dropped part of a message compiles and only shows for the names and places that differ.", "anchors": ["src/compiler/mod.rs: Display for RuntimeError", "src/compiler/grammar/mod.rs: Capability::parse, Display for Capability, lookup_capabilities", "src/runtime/context.rs: Context::run (Instruction::Require)"]}
{"id": "C105", "title": "The host is told whether the message it gets is the one it gave", "statement": "After a run, has_message_changed says whether the script changed the message. If it says no, every keep the host was asked for is a keep of the message the host gave, and after that keep the message in the context is the one the host gave. If it says yes, the host has been handed a new message made from one that the script had changed. Once it says yes, it does so for the rest of the run.", "quantifier": "every message, script, set of included scripts and sequence of answers of the host", "why_tests_cant": "the edits, the deliveries between them and the way the script ends combine without limit, and a test checks the answer for a few sequences", "anchors": ["src/runtime/context.rs Context::has_message_changed, Context::message, Context::run, Context::finish_loop", "src/runtime/actions/action_mime.rs build_message_id", "src/runtime/actions/action_editheader.rs", "src/runtime/actions/action_convert.rs"]}
{"id": "C106", "title": "The limits of the compiler only refuse", "statement": "A script that the compiler accepts is accepted with greater limits too, and compiles to the same code. So compilers that differ in their limits never disagree about a script that both accept.", "quantifier": "every sequence of bytes and every pair of settings of the limits", "why_tests_cant": "a limit is checked at each place where something nests or is counted, and a check that acts otherwise than by refusing shows only in scripts that reach it", "anchors": ["src/lib.rs Compiler", "src/compiler/grammar/instruction.rs Compiler::compile", "src/compiler/grammar/test.rs parse_test", "src/compiler/lexer/tokenizer.rs Tokenizer::get_string, Tokenizer::peek"]}
{"id": "C107", "title": "Registering further functions leaves scripts as they are", "statement": "If a host registers further functions, in the process or outside of it, under names that were not in use, then every script that the compiler accepted before it still accepts, with the same code, and every number that stood for a function of the process still stands for the same function. Expressions then run as before, with the same calls put to the host. A name that is registered again is taken over by the newer function.", "quantifier": "every compiler configuration, every list of registrations, every list of further registrations under other names, every script", "why_tests_cant": "A test registers one set of functions and compiles a few scripts; that a further name never captures a word of any expression, a variable or an earlier number needs a proof over all scripts and all registrations.", "anchors": ["src/runtime/mod.rs FunctionMap", "src/compiler/mod.rs register_functions", "src/compiler/grammar/expr/tokenizer.rs parse_buf", "src/compiler/lexer/string.rs parse_expr_fnc_or_var", "src/compiler/grammar/test.rs parse_expr"]}
