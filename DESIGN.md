# Formal model of basjoofan/am in Rocq (Coq 8.16.1)

`am` ("basjoofan") is a small language for HTTP tests: lexer, Pratt parser,
tree-walking evaluator, HTTP/1.1 client, Avro record writer, statistics and a
multi-threaded test runner. The model in `rocq/theories` follows the Rust
source function by function; each definition cites the lines it models.

## Layout

* `Base.v`, `Text.v`, `Utf8.v`   Rust `str`/`String` functions the code uses.
* `Token.v`, `Lexer.v`, `Syntax.v`, `Parser.v`   language front end.
* `F64.v`, `Display.v`, `Value.v`, `Native.v`, `Template.v`, `Context.v`, `Evaluator.v`   evaluation.
* `Http*.v`   URL, request, response, stream (connection racing), client.
* `Writer.v`, `Stat.v`, `Command.v`, `TestCommand.v`, `Process.v`   record files, statistics, commands and thread runner.
* `Spec*.v`   small specifications written independently of the model.
* `*Proofs.v`   lemmas.  `Props*.v`   the property theorems only, each closed by
  `exact` with `Print Assumptions` below it and a non-vacuity `Example` beside it.

## Modelling decisions

* A Rust `String` is a list of Unicode scalar values (`list N`); bytes appear
  only where the code looks at bytes (`len`, `as_bytes`, sockets, files), through
  an explicit UTF-8 codec.
* `HashMap` is an association list with unique keys. Iteration order is
  unspecified in Rust; the model never lets a theorem depend on it except
  through an explicit order parameter for displaying maps.
* `i64`/`u64`/`u16` are `Z`/`N` with explicit range checks and wrap-around; a
  parameter says whether the build has overflow checks (debug) or wraps (release).
* `f64` is the standard library's executable IEEE-754 specification
  (`SpecFloat`, precision 53, emax 1024).
* A Rust panic is the explicit outcome `Panic`; `Result::Err` is data.
* Parser loops run on explicit fuel; running out of fuel is its own outcome and
  is never confused with success or error.
* External behaviour (network, clock, file acceptance, printable characters,
  map iteration order) is a parameter that theorems quantify over.

## Properties

The statements are in `properties.jsonl`. For each: the theorems (file), what they rest on, hypotheses and what is known to be false.

**C01 Lexing ends with exactly one end marker and loses no character** (proved, PropsLexer.v)  
Theorems: `C01_lossless`.  
Model `segment` (Lexer.v); `laid_out` (SpecLex.v) rebuilds the text from gaps and spellings, never from the lexer. Induction on the text length; LexOneProofs.v shows that one step takes the longest spelling. No hypotheses.

**C02 Tokens are chosen by longest match** (proved, PropsLexer.v)  
Theorems: `C02_longest_match`.  
`lexes` is the longest-match relation over `spells`; the theorem also gives uniqueness. No hypotheses.

**C03 Tokens written with whitespace between them lex back to themselves** (proved, PropsLexer.v)  
Theorems: `C03_spaced`.  
`spaced` writes tokens with blanks between; follows from C02 because no spelling can be extended over a blank.

**C04 Source files concatenate safely exactly at newline boundaries** (proved, PropsLexer.v)  
Theorems: `C04_newline_separates`, `C04_no_separator_refuted`.  
An equivalence: `closed` (the text ends outside a quotation) holds exactly if a newline separates. `_refuted`: without a separator `le` + `t` fuse to a keyword.

**C05 Parsing terminates unless a `!` follows a complete operand** (proved, PropsParser.v)  
Theorems: `C05_terminates`, `C05_depth`, `C05_diverge_meaning`, `C05_never_ends`, `C05_cause`, `C05_bang_only_refuted`.  
Fuel-indexed parser (Parser.v); `Diverge` is shown to be "no fuel suffices". Measure argument in ParserTermination.v, linear bound in ParserFuel.v. `no_bang` is a condition on adjacent tokens only. `C05_never_ends` is the converse for programs ending in an expression followed by `!`; `C05_bang_only_refuted` shows that the condition on `let` is needed. `C05_cause` (SpinProofs.v) gives the cause of every endless parse, wherever in the program it is, and that it depends on the tokens before it only. Finding: `a!` hangs the parser.

**C06 Parse results account for every token** (proved, PropsParser.v)  
Theorems: `C06_accounted`.  
Soundness against the ambiguous grammar `syntax_items` (SpecSyntax.v); induction on fuel in ParserSound.v.

**C07 Operator precedence and left associativity** (proved, PropsParser.v)  
Theorems: `C07_precedence`, `C07_let_operand_refuted`.  
`prec_ok` states precedence on trees; `no_let_operand` is needed (`C07_let_operand_refuted`).

**C08 Every well-formed expression is parseable (print then parse is the identity on syntax trees)** (proved, PropsParser.v)  
Theorems: `C08_parses`.  
Completeness: any token list that is a strict writing of the items parses to them. The strict grammar has no optional `;` inside `let`.

**C09 The displayed form of an expression re-parses to the same expression** (proved, PropsParser.v)  
Theorems: `C09_display`, `C09_float_refuted`, `C09_float_field_refuted`, `C09_int_field_refuted`, `C09_let_operand_refuted`.  
Composition of C08 with a proof that `Display` writes tokens that lex back (DisplayProofs.v); floats by C83. The restrictions are each shown to be needed.

**C10 Definitions are collected by name, last one wins, order of expressions kept** (proved, PropsParser.v)  
Theorems: `C10_collected`.  
Adds to C06: absent names, no duplicate keys.

**C11 Integer arithmetic is 64-bit two's complement** (proved, PropsValue.v)  
Theorems: `C11_add`, `C11_sub`, `C11_mul`, `C11_neg`, `C11_xor`, `C11_or`, `C11_and`, `C11_not`, `C11_shl`, `C11_shr`.  
`exact_or_overflow`, `wraps` and `bitwise` are stated on Z and on bits. Build mode is `h_checks`.

**C12 Division and remainder truncate toward zero and abort exactly on zero divisors or MIN/-1** (proved, PropsValue.v)  
Theorems: `C12_division`.  
Quotient and remainder by their defining equations; aborts are exact.

**C13 Mixed arithmetic promotes the integer; type errors are reported, never aborts** (proved, PropsValue.v)  
Theorems: `C13_promotes`, `C13_nearest`, `C13_concatenates`, `C13_arithmetic_mismatch`, `C13_bit_mismatch`, `C13_aborts`.  
`float_op` (SpecFloat64.v) is correct rounding over exact rationals, to nearest, ties to even, with zero signs, infinities and NaN; FloatProofs.v and FloatOps.v prove that the executable specification of the standard library rounds that way; FloatUnique.v that the result is determined. `C13_aborts` is an upper bound on aborts, C11/C12 give the exact cases.

**C14 Comparisons are mutually consistent** (proved, PropsValue.v)  
Theorems: `C14_laws`, `C14_integers`, `C14_strings`, `C14_byte_order_is_total`, `C14_floats`, `C14_eq_vs_order_refuted`.  
`holds`/`fails` are results of the operators on values. `_refuted`: 1 == 1.0 is false although <= and >= hold.

**C15 Map equality ignores order; equality is an equivalence on NaN-free values** (proved, PropsValue.v)  
Theorems: `C15_structural`, `C15_reflexive`, `C15_symmetric`, `C15_transitive`.  
`same` is structural equality up to map order; transitivity and symmetry follow. `unique_keys` holds of every value that can occur (C65).

**C16 Short-circuit operators** (proved, PropsEval.v)  
Theorems: `C16_short_circuit`.  
Outcome and complete state (variables, records, output, requests) are compared.

**C17 Only false and null are falsy in conditionals** (proved, PropsEval.v)  
Theorems: `C17_conditional`, `C17_empty_branch`, `C17_only_false_and_null`.  
As C16.

**C18 Blocks run in order and stop at the first error** (proved, PropsEval.v)  
Theorems: `C18_sequence`, `C18_single`, `C18_empty`, `C18_all_or_first_failure`.  
Sequencing law plus the characterisation by `in_order`/`breaks`.

**C19 Evaluation only changes variables bound by let** (proved, PropsEval.v)  
Theorems: `C19_frame`, `C19_block_frame`.  
Induction on nested expressions (`expr_ind2`), including request calls and their assertions.

**C20 let binds the value it returns** (proved, PropsEval.v)  
Theorems: `C20_let`, `C20_read`, `C20_until_rebound`.  
As C19; the last theorem covers any block that does not bind the name again.

**C21 Array and map access** (proved, PropsEval.v)  
Theorems: `C21_array_index`, `C21_map_index`, `C21_other_index`, `C21_operand_failure`, `C21_field`, `C21_unchanged`.  
Index and field access; operands evaluated first.

**C22 Map literals keep the last value per displayed key** (proved, PropsEval.v)  
Theorems: `C22_map_literal`.  
`last_set` over the keys as displayed.

**C23 Operands and arguments evaluate left to right exactly once** (proved, PropsEval.v)  
Theorems: `C23_one_way_or_the_other`, `C23_array`, `C23_argument_failure`, `C23_binary`, `C23_unary`.  
`in_order`/`breaks` cover every way an operand list can go.

**C24 Calls send at most one request each** (proved, PropsEval.v)  
Theorems: `C24_expression`, `C24_block`.  
Upper bound by the number of call expressions; records equal requests unless the call aborts, then at most one record is missing.

**C25 Assertions are isolated from the caller** (proved, PropsEval.v)  
Theorems: `C25_isolated`.  
Two-run statement: same response, same outcome and record, whatever the two callers' variables. Calls inside assertions find no definitions, so nothing is sent.

**C26 Reported assertions are exactly the top-level comparisons, in order** (proved, PropsEval.v)  
Theorems: `C26_reported`, `C26_only_comparisons`, `C26_results`.  
`asserted` is the reading of the declared assertions; an equivalence with success of the call. Findings: other assertions are dropped, though their operands are evaluated and a `let` in one shows in the returned map.

**C27 A record prints PASS exactly when every reported assertion holds** (proved, PropsEval.v)  
Theorems: `C27_verdict`, `C27_offline_passes`.  
Finding: a call whose connection failed prints PASS if it reports no assertion.

**C28 Request definitions shadow built-in functions; unknown functions are errors** (proved, PropsEval.v)  
Theorems: `C28_request`, `C28_unknown`, `C28_builtin`.  
Requests before built-ins before the not-found error.

**C29 format substitutes placeholders simultaneously and in order** (proved, PropsEval.v)  
Theorems: `C29_format`, `C29_determined`.  
`scan` cuts the text into literal characters and placeholders; `fill` replaces all at once. The regular expression search of the code is shown to find exactly these placeholders (TemplateProofs.v).

**C30 Request templates substitute variables by name** (proved, PropsEval.v)  
Theorems: `C30_message`, `C30_exists`, `C30_unique`.  
As C29 with values looked up by name. Existence and uniqueness of the message are proved.

**C31 length and append laws** (proved, PropsEval.v)  
Theorems: `C31_length`, `C31_append`.  
The hypotheses `fits` say that a length fits 64 bits.

**C32 print and println output** (proved, PropsEval.v)  
Theorems: `C32_print`.  
As C29.

**C33 URL decomposition** (proved, PropsHttp.v)  
Theorems: `C33_parts`, `C33_truncated`, `C33_localhost`, `C33_every`.  
Full characterisation for every string (`C33_every`). Findings: a second `://` truncates, upper-case schemes become http, bad ports become the default.

**C34 Recorded URL omits the port** (proved, PropsHttp.v)  
Theorems: `C34_round_trip`.  
For every parsed URL. Finding: the displayed URL loses the port.

**C35 Request message parsing** (proved, PropsHttp.v)  
Theorems: `C35_parsed`, `C35_unique`.  
`request_of` is a reading of the message by trimmed text, lines, words and header block, independent of iterators. Unique; for form bodies the bytes are C38's. Finding: line breaks of the body are lost.

**C36 Wire format of a request** (proved, PropsHttp.v)  
Theorems: `C36_wire`, `C36_read_back`, `C36_no_line_feed`.  
`wire` is what a server reads; read-back is unique.

**C37 Substituted values can inject header lines** (proved, PropsHttp.v)  
Theorems: `C37_lines`, `C37_line_count`, `C37_no_injection_refuted`.  
Lines of the message correspond to lines of the template. `_refuted`: header injection.

**C38 Form bodies decode to the written fields** (proved, PropsHttp.v)  
Theorems: `C38_form`, `C38_decoded_uniquely`.  
`form_decodes` is a decoder specification. Finding: the space after the colon stays in the value.

**C39 Response parsing** (proved, PropsHttp.v)  
Theorems: `C39_parsed`, `C39_invalid`, `C39_broken`.  
An equivalence for streams that end; errors characterised. Finding: the reason phrase is cut to its first word.

**C40 Response map contents** (proved, PropsHttp.v)  
Theorems: `C40_entries`, `C40_json`.  
Entry by entry, and no other entries.

**C41 JSON bodies become the corresponding value** (proved, PropsHttp.v)  
Theorems: `C41_json`, `C41_all_json_refuted`.  
`json` is the grammar of the supported subset. `_refuted`: escapes, exponents and negative numbers.

**C42 Some response bodies hang the client** (proved, PropsHttp.v)  
Theorems: `C42_hangs`, `C42_never_ends`, `C42_terminates`.  
The part of C05 that bodies hit. Finding: the body `Hello!` hangs the client.

**C43 Send reports either a response or an error** (proved, PropsHttp.v)  
Theorems: `C43_outcome`.  
Hypothesis `ordered`: the clock does not go back during an exchange. Finding: a failed request is recorded with a total of 0, and so enters the statistics as 0 ms.

**C44 Address attempts alternate families and cover every address once** (proved, PropsHttp.v)  
Theorems: `C44_order`.  
Permutation, order within families, alternation.

**C45 Connection racing returns a working connection whenever one attempt succeeds** (proved, PropsHttp.v)  
Theorems: `C45_result`, `C45_goes_on`, `C45_ends`.  
Transition system over all schedules of attempts and timeouts; progress and well-foundedness give termination.

**C46 Long encoding round trip** (proved, PropsWriter.v)  
Theorems: `C46_decoded`, `C46_distinct`.  
`long` is the Avro specification's zig-zag varint reading.

**C47 String encoding round trip** (proved, PropsWriter.v)  
Theorems: `C47_decoded`, `C47_text`.  
`small`: shorter than 2^63 bytes.

**C48 Record files are well-framed containers** (proved, PropsWriter.v)  
Theorems: `C48_framed`, `C48_unique`.  
`container` is the object container format with any metadata order; the reading is unique, so a reader finds the batches and nothing else. `holds Counted` reads arrays by their counts.

**C49 Records decode under the embedded schema exactly when their arrays are empty** (proved, PropsWriter.v)  
Theorems: `C49_schema`, `C49_nothing_lost`.  
Equivalence: schema decoding gives the records iff there are no headers and assertions. Finding: arrays lack the terminating 0 block, so any Avro reader fails on records with headers or assertions.

**C50 Record positions are stamped** (proved, PropsWriter.v)  
Theorems: `C50_stamped`.  
Fields name, thread, number and order of every record.

**C51 Short writes lose data silently** (proved, PropsWriter.v)  
Theorems: `C51_parts`, `C51_lost`.  
Finding: `write` instead of `write_all`; a short write loses data without notice.

**C52 Statistics are exact** (proved, PropsRun.v)  
Theorems: `C52_exact`, `C52_bounds`.  
`summary`: count, sum, minimum, maximum, floor of the mean.

**C53 Statistics do not depend on arrival order** (proved, PropsRun.v)  
Theorems: `C53_any_order`.  
Any permutation.

**C54 Duration arguments** (proved, PropsRun.v)  
Theorems: `C54_accepted`, `C54_rejected`, `C54_message`.  
Both directions; overflow aborts or wraps. Finding: the message that asks for a unit is never given, since `7` without a unit leaves no number.

**C55 Source collection order** (proved, PropsRun.v)  
Theorems: `C55_source_text`.  
`sources` lists files by path order; `distinct_names` says a directory has no two entries of one name.

**C56 Iterations per run** (proved, PropsRun.v)  
Theorems: `C56_numbers`, `C56_at_most`, `C56_exactly`, `C56_bounded`, `C56_onward`, `C56_ends`.  
Labelled transition system of threads, queue, statistics thread and stop flag; invariants over all executions; `C56_bounded` with `C56_onward` says every run ends. Finding: the remainder of number/threads is never run.

**C57 Stopping starts no new iteration** (proved, PropsRun.v)  
Theorems: `C57_stopped`.  
Relates any later state of a stopped run to the state at the stop.

**C58 Threads are isolated** (proved, PropsRun.v)  
Theorems: `C58_alone`, `C58_isolated`.  
A thread's state is a function of its own world and iteration count.

**C59 Iteration numbering in record files** (proved, PropsRun.v)  
Theorems: `C59_file`, `C59_failed`.  
Contents of the record file under every schedule. Finding: the records of a failing iteration are lost.

**C60 Statistics cover every sent record exactly once** (proved, PropsRun.v)  
Theorems: `C60_printed`, `C60_schedule`.  
The printed text is a report of exactly the records of completed iterations.

**C61 Run-all mode runs each test once in a fresh copy of the context** (proved, PropsRun.v)  
Theorems: `C61_each_once`, `C61_tests`.  
Each test once. Finding: statistics are not gathered in this mode.

**C62 REPL state persists across lines and failing lines** (proved, PropsRun.v)  
Theorems: `C62_result`, `C62_exit`, `C62_parts`, `C62_syntax_error`.  
`session` is the effect of a sequence of lines; the theorem says what `repl` does on every input. Finding: it spins at end of input.

**C63 UTF-8 encoding round trip** (proved, PropsValue.v)  
Theorems: `C63_round_trip`, `C63_well_formed`.  
Equivalence: decoding yields s iff s is made of scalar values and encodes to the bytes.

**C64 Literals denote what is written** (proved, PropsMore.v)  
Theorems: `C64_integer`, `C64_float`, `C64_two_dots`, `C64_string`.  
Literals as whole programs; rounding by SpecFloat64.v.

**C65 Every value of a running program is a valid value** (proved, PropsMore.v)  
Theorems: `C65_expression`, `C65_block`, `C65_source`, `C65_start`, `C65_parts`.  
Invariant over evaluation.

**C66 What the test command starts** (proved, PropsMore.v)  
Theorems: `C66_bad_source`, `C66_bad_setup`, `C66_lost_source`, `C66_lost_setup`, `C66_unknown_test`, `C66_named`, `C66_all`.  
`main_test` (TestCommand.v), all outcomes.

**C67 Record file names** (proved, PropsMore.v)  
Theorems: `C67_distinct`, `C67_ordered`, `C67_digits`, `C67_started`.  
Injectivity, order below one million, decimal digits.

**C68 Evaluation depends only on what it reads** (proved, PropsNew.v)  
Theorems: `C68_expression`, `C68_block`.  
Two-run simulation by induction on expressions. `reads` is syntactic: variables named and placeholders of the templates called.

**C69 Evaluation always ends** (proved, PropsNew.v)  
Theorems: `C69_block`, `C69_expression`, `C69_body_loops_refuted`.  
Hypothesis on bodies only (`readable_bodies`); with the body `Hello!` evaluation loops (`_refuted`).

**C70 Programs without overflowing operators never abort** (proved, PropsNew.v)  
Theorems: `C70_no_abort`, `C70_returns`, `C70_operators_refuted`.  
`no_risk` forbids the operators that can abort; `C70_operators_refuted` shows that each of the binary ones does. `steady`: clocks do not go back.

**C71 Several files mean what each of them means** (proved, PropsNew.v)  
Theorems: `C71_files`, `C71_directory`, `C71_any_files_refuted`.  
`self_contained` is a condition on each file alone. `_refuted`: `a` and `-1` in two files become one subtraction.

**C72 Accepted sources have matching brackets** (proved, PropsNew.v)  
Theorems: `C72_balanced`, `C72_count`.  
From C06 by induction on the grammar.

**C73 Displayed numbers and truth values read back** (proved, PropsNew.v)  
Theorems: `C73_integer`, `C73_float`, `C73_bool`, `C73_smallest_refuted`, `C73_whole_refuted`.  
From C08, C64 and C83. Finding: the smallest integer is displayed as text that is rejected.

**C74 A request written in the usual form is sent as written** (proved, PropsNew.v)  
Theorems: `C74_read`, `C74_sent`.  
From C35 and C36: existence of the reading, for messages in the usual layout.

**C75 What the server gets when writing is slow or fails** (proved, PropsNew.v)  
Theorems: `C75_prefix`, `C75_goes_through`, `C75_failure`, `C75_unreadable`, `C75_one_write`, `C75_multipart`, `C75_failure_lost_refuted`.  
HttpSend.v models std's BufWriter, `write_all` and the specialised `io::copy` (multipart bodies) against an adversarial connection. `_refuted`: on a reported failure the dropped buffer is flushed again.

**C76 Which connection is opened** (proved, PropsNew.v)  
Theorems: `C76_connect`, `C76_encrypted`, `C76_ends`.  
Inversion of `connect` with C45; `connect_finishes` gives existence.

**C77 Answered requests were delivered** (proved, PropsNew.v)  
Theorems: `C77_seen`, `C77_answered`.  
Composition of C75, C76 and C43. `happens` relates an exchange to what the network saw.

**C78 How the network cuts a response into pieces does not matter** (proved, PropsRead.v)  
Theorems: `C78_received`, `C78_alike`, `C78_at_once`, `C78_interrupted`.  
HttpRead.v models std's BufReader, `read_until`, `read_to_end` over arbitrary pieces; simulation against HttpResponse.v (`response_sim`), where C39 takes over.

**C79 A response is returned only when the connection ends** (proved, PropsRead.v)  
Theorems: `C79_ended`, `C79_returns`, `C79_failed`, `C79_waits`.  
Same simulation, with waiting as a third way to end. Finding: Content-Length is ignored, so a server that keeps the connection open blocks the client for ever unless a read timeout is set (there is none by default); truncated TLS responses are accepted.

**C80 Every rejected program has a reason** (proved, PropsText.v)  
Theorems: `C80_reason`.  
`SpecReject.v` says what may be lacking after which tokens; proof by locality of every parsing function (`local`): outcome and position depend only on the tokens up to the offending one. Messages are given literally; two messages of parser.rs (`found none` and `parse boolean error`) are never given.

**C81 The text shown for values** (proved, PropsText.v)  
Theorems: `C81_shown`, `C81_debug`, `C81_debug_tells`, `C81_show_tells`, `C81_show_tells_refuted`.  
`SpecShow.v` is a grammar of the texts; the text with types is a prefix code (mutual induction). Which characters are printable is a parameter; `quoted` is Rust's escaping.

**C82 Every runtime error has a cause** (proved, PropsText.v)  
Theorems: `C82_cause`, `C82_first`.  
`comes_to` follows the order of evaluation, `fault` lists what can go wrong with the literal messages; both directions.

**C83 Floats are shown with the fewest digits that tell them** (proved, PropsText.v)  
Theorems: `C83_shown`, `C83_debug`, `C83_shown_tells`, `C83_debug_tells`.  
`shown_float`/`debugged_float` (SpecNumber.v) over exact rationals and correct rounding (SpecFloat64.v). Display.v finds the digits by searching all lengths; std's Grisu and Dragon algorithms compute the same number. Of two equally near numerals with the fewest digits the model takes the larger; the theorem leaves it open.

**C84 The duration shown for a record is exact** (proved, PropsText.v)  
Theorems: `C84_shown`, `C84_tells`.  
`duration_text` (SpecNumber.v). std rounds only if a precision is given, which the code never does.

**C85 Every abort and every endless loop has a cause** (proved, PropsText.v)  
Theorems: `C85_cause`, `C85_first`.  
`doomed` (SpecDoom.v) lists the operations; both directions, by induction on expressions. Which bodies the parser cannot finish is C05.

**C86 What the test command prints and sends, and in which order** (proved, PropsProcess.v)  
Theorems: `C86_order`, `C86_end`, `C86_statistics_last`, `C86_all_order`, `C86_all_threads`.  
`SpecProcess.v`: `goes` are executions of the process, `events_of` is the part of the log due to one thread, `under_way`/`done_with` what a thread's part may be. Process.v has one step per line printed, request sent, write, message to the collector and thread started; `ProcessRun.process_refines` shows that every execution is one of the coarser runs of C56-C61.

**C87 What is on the disk, at any moment and afterwards** (proved, PropsProcess.v)  
Theorems: `C87_files`, `C87_kept`, `C87_all_files`, `C87_all_kept`, `C87_readable`.  
`recorded` is the header and the blocks; that they can be read is `C87_readable`. A crash between the writes of one block is not a moment of the model (one `write` is one step).

**C88 The exit status of the test command** (proved, PropsProcess.v)  
Theorems: `C88_unreadable`, `C88_crash`, `C88_no_threads`, `C88_uncreatable`, `C88_syntax`, `C88_setup`, `C88_unknown`, `C88_named`, `C88_all`, `C88_verdict_refuted`.  
`C88_verdict_refuted` has three programs: an unbound name, a division by zero and a failing assertion, all with status 0.

**C89 The test command ends** (proved, PropsProcess.v)  
Theorems: `C89_bounded`, `C89_named_ends`, `C89_all_ends`.  
`Acc` of the steps that change anything (a repeated stop signal does not), and a way to the exit from every state. That a diverging iteration blocks the exit is part of C86 (`o <> Diverge` when it exits).

**C90 When connections are tried and which one is used** (proved, PropsRace.v)  
Theorems: `C90_pace`, `C90_start`, `C90_connected`, `C90_failed`, `C90_deadline`, `C90_first`, `C90_timeout`, `C90_onward`, `C90_finite`, `C90_untimed`.  
HttpRace.v adds time to the race of HttpStream.v (starting a thread and computing take none); the answers are a function of address and starting time, and two answers at the same moment come in any order. `C90_untimed`: every execution is one of C45's, so those theorems hold here too. Finding: no connect timeout is ever set, so silent addresses are waited for until the system gives up, and a broken IPv6 route costs 200 ms for each request.

**C91 What a session does with the bytes it gets** (proved, PropsSession.v)  
Theorems: `C91_session`, `C91_lines`, `C91_lines_unique`, `C91_pieces`, `C91_eval`.  
Session.v works on bytes with std's BufReader (HttpRead.v) and `Lines`; `inputs` (SpecSession.v) says which lines the bytes are, and exactly one list fits (`C91_lines`, `C91_lines_unique`); `session` and `line_done` are those of C62. An end of the input is for good (on a terminal more may follow).

**C92 When standard output cannot be written** (proved, PropsOutage.v)  
Theorems: `C92_named`, `C92_named_end`, `C92_all`, `C92_all_end`, `C92_setup`, `C92_named_status`, `C92_all_status`.  
Outage.v puts refused prints and signals on top of Process.v: the process inside takes exactly the steps of Process.v, with the threads in `dead` standing still for ever (a thread whose `println!` panics unwinds, drops its sender and can be joined). `reaches g fs` lists the troubles `fs` of an execution. A print that std has accepted counts as printed even if it is still in the line buffer; an empty text could in fact not be refused.

**C93 Which interrupts are caught** (proved, PropsOutage.v)  
Theorems: `C93_caught`, `C93_stops`, `C93_before`, `C93_killed`, `C93_uncaught`.  
the handler is set after the threads are started (`handled`); other signals (`BySignal`) kill at any time and fall under C92_named and C92_all, which hold for every end. A handler that cannot be set is dropped silently (`let _ =`, `g_heeds`): then an interrupt kills as if there were none.

**C94 Without trouble nothing changes, and with it the command still ends** (proved, PropsOutage.v)  
Theorems: `C94_quiet`, `C94_plain`, `C94_nowhere`, `C94_bounded`, `C94_named_ends`, `C94_all_ends`.  
`C94_quiet` and `C94_plain` are the two directions of the equivalence with Process.v.

**C95 Floats of up to 15 digits are shown as typed** (proved, PropsFew.v)  
Theorems: `C95_typed`, `C95_kept`, `C95_seventeen`, `C95_one_text`, `C95_sixteen_refuted`.  
from C83 (correct rounding, shortest digits) by arithmetic on exact rationals; `scaled 1 (-1022)` is the least normal float, `too_large` where rounding gives infinity. `_refuted`: 8.000000000000001 is shown as 8.000000000000002.

**C96 When a thread cannot be started** (proved, PropsOutage.v)  
Theorems: `C96_named`, `C96_all`.  
`Unstarted` in Outage.v: `std::thread::spawn` panics in the main thread, which ends the process. The step is atomic: what the other threads still do while the main thread unwinds is taken to come before it, and the timer does not fire between its own start and the failure of the statistics thread.

**C97 What a command line runs** (proved, PropsArguments.v)  
Theorems: `C97_test`, `C97_order`, `C97_one_way`, `C97_eval`, `C97_repl`, `C97_runs`, `C97_shows`, `C97_help_test`, `C97_help`, `C97_version`, `C97_help_command`, `C97_aborts`, `C97_overflow`.  
grammar in SpecArguments.v, independent of the order in which Arguments.v works. The rules of clap 4 are written down from knowledge of the crate; neither its source nor a run was available to check them against, so this property is about main.rs together with that description.

**C98 From the command line to output, files and exit status** (proved, PropsProgram.v)  
Theorems: `C98_unrun`, `C98_usage`, `C98_eval`, `C98_eval_ends`, `C98_typed`, `C98_session`, `C98_tests`, `C98_tests_ends`, `C98_tests_status`, `C98_all`, `C98_nowhere`.  
Program.v joins Arguments.v with Session.v, Outage.v and Command.v. Exit statuses 0 and 2 of clap and 101 of a panic are taken as known. Outside `test` any signal ends the process (the program installs no handler there); what a session waits for between its actions is in C91's model, not in these steps.

**C99 A session answers every line as soon as it is complete** (proved, PropsSession.v)  
Theorems: `C99_early`, `C99_prompt`, `C99_leaves`.  
same model as C91; an input whose `w_ending` is `Silent` is one where nothing further has arrived yet.

**C100 What the printed reports tell** (proved, PropsReport.v)  
Theorems: `C100_told`, `C100_verdict`, `C100_forged_refuted`, `C100_again`, `C100_unknown`.  
`C100_forged_refuted` refutes the reading of reports without the assumption on line breaks. Durations are read off up to the digits Rust prints, which are all of them.

**C101 The records are the history of the exchanges** (proved, PropsHistory.v)  
Theorems: `C101_history`, `C101_new`, `C101_source`, `C101_names`.  
that the template is filled in with the variables of that moment is C26 and C30; `exchange` only says some variables.

**C102 Exactly which sources are accepted, and as what** (proved, PropsReading.v)  
Theorems: `C102_accepted`, `C102_read`, `C102_one_way`, `C102_writings`.  
stated over tokens (`segment`, characterised in C01-C04); SpecReading.v refines SpecSyntax.v (`C102_writings`), and unlike C08 it has no restriction on `let` operands. `reads k e w` depends on the kind `k` of the token after `w` only.

**C103 Evaluations repeat themselves whatever the order of map entries** (proved, PropsOrder.v)  
Theorems: `C103_possible`, `C103_possible_text`, `C103_only`, `C103_same`, `C103_only_text`, `C103_same_text`, `C103_order_refuted`.  
over AnyOrder.v, a second model of evaluation in which every display of a map may use any order; `C103_possible` says that Evaluator.v, with whatever order, is an instance. The log of a run lists the values made into text (`ToKeep`, `ToRead`). `C103_order_refuted` is finding 22.

**C104 Verdicts do not depend on the order of map entries** (proved, PropsOrder.v)  
Theorems: `C104_verdict`, `C104_seed`, `C104_verdict_refuted`.  
same model. `C104_verdict_refuted`: an assertion that passes in one run and fails in another.

**C105 How deep the parser's calls nest** (proved, PropsStack.v)  
Theorems: `C105_same`, `C105_bounded`, `C105_needed`, `C105_tokens`, `C105_length`, `C105_open`.  
over Deep.v, Parser.v with a count of the calls of parse_expr under way (`C105_same`: the count changes nothing). The bounds hold for any fuel, so also while a parse that never ends goes on. Between two counted calls there are at most three other frames.

**C106 How deep the evaluator's calls nest** (proved, PropsStack.v)  
Theorems: `C106_same`, `C106_bounded`, `C106_source`, `C106_needed`, `C106_answer`, `C106_read`, `C106_sum`, `C106_server`.  
over Deep.v, Evaluator.v with the count of calls of eval_expr, parse_expr and Expr::eval under way (`C106_same`). Dropping and displaying a nested value or expression recurse too and are not counted. `answers w B` says that every body received has at most B characters.

**C107 How the server marks the end of a response is ignored** (proved, PropsFraming.v)  
Theorems: `C107_body`, `C107_chunked`, `C107_json`, `C107_document_refuted`, `C107_interim`, `C107_cut`, `C107_cut_body`, `C107_closed`.  
`chunked` is the chunked transfer coding without extensions and trailers; header lines are `name: value` with CR LF. `C107_json` needs no assumption on the document or on how it is cut. `C107_document_refuted`: a JSON document sent in one chunk whose `json` entry is not its value.

**C108 The parser's work grows with the length of the text only** (proved, PropsWork.v)  
Theorems: `C108_same`, `C108_tokens`, `C108_length`, `C108_least`, `C108_endless`.  
over Work.v, Parser.v with a count of the calls of parse_expr and the rounds of the loops, added up (`C108_same`: the count changes nothing). `C108_endless`: whatever the fuel, the count reaches it.

**C109 The evaluator's work is bounded by the source and the answers, its values are not** (proved, PropsWork.v)  
Theorems: `C109_same`, `C109_bounded`, `C109_least`, `C109_source`, `C109_sizes`, `C109_read`, `C109_answer`, `C109_grows`.  
over Work.v, Evaluator.v with a count of the calls of eval_expr; the calls and rounds of parsing a body and the calls of Expr::eval are added. Showing, comparing and copying values is not counted and not bounded so (`C109_grows`). `answers w B` as in C106.

**C110 Renaming variables and requests changes nothing else** (proved, PropsRefactor.v)  
Theorems: `C110_expression`, `C110_block`, `C110_program`, `C110_templates`, `C110_clash_refuted`.  
`rename v r` renames in expressions, `retold` in templates (any blanks inside the braces), `renamed` relates the states; error values are compared with the names in them renamed. Nothing is assumed of the variables of the renamed state that are not names of the original.

**C111 When statements may be swapped or left out** (proved, PropsRefactor.v)  
Theorems: `C111_swap`, `C111_within`, `C111_unused`, `C111_calls_refuted`, `C111_failing_refuted`.  
`reads` as in C68, `called e = []` is "makes no calls". For `C111_within` something must follow, otherwise the value of the program is that of the other statement (`C111_swap`).

**C112 A variable may be replaced by the expression it was bound to** (proved, PropsRefactor.v)  
Theorems: `C112_inline`, `C112_placeholder_refuted`.  
`inline x e` writes `(e)`; the one error that quotes expressions (an operator the parser never makes) quotes the new ones.

**C113 Which laws of arithmetic expressions obey** (proved, PropsLaws.v)  
Theorems: `C113_commutes`, `C113_associates`, `C113_distributes`, `C113_subtracts`, `C113_floats`, `C113_bits`, `C113_shifts`, `C113_scales`, `C113_concat`, `C113_checked_refuted`, `C113_negated_refuted`, `C113_floats_refuted`, `C113_shifts_refuted`, `C113_mixed_refuted`.  
`calc w e x y z` evaluates an expression over the variables a, b, c; any other expressions may take their place by C112. `interchangeable` is "same without overflow checks, and never two different values with them".

**C114 Which laws the logical operators obey** (proved, PropsLaws.v)  
Theorems: `C114_associates`, `C114_choices`, `C114_negates`, `C114_arms`, `C114_swap_refuted`, `C114_integer_refuted`, `C114_arms_refuted`.  
`C114_associates` is about arbitrary expressions and their effects, the other laws about variables because they repeat an operand.

**C115 What a program reads before it sets it is all that matters** (proved, PropsLive.v)  
Theorems: `C115_block`, `C115_closed`, `C115_fresh`, `C115_iterations`, `C115_counting_refuted`.  
`needs` over-approximates what may be read first (both arms of an `if` count), `sure` under-approximates what is set; `iterated` is the iteration of a test as in C56, with variables carried over and records cleared.

**C116 An assertion passes exactly if it is true of the response** (proved, PropsAssert.v)  
Theorems: `C116_run`, `C116_exchange`, `C116_negative_refuted`.  
`located` follows a path into a JSON tree, `part_of` gives the parts of a response as trees, `says` compares the verdict with what is found; all three know nothing of values or evaluation. `documented` asks that a body be a JSON document or surely none; of other bodies, which are read like sources, nothing is said if the assertion is about `json`. Assertions with other operands are covered by C24-C26. The literal is on the right, as it is usually written.

**C117 A program typed into a session line by line does what its text does** (proved, PropsByLine.v)  
Theorems: `C117_typed`, `C117_upside_down_refuted`.  
`self_contained` is that of C71 for the line and its line feed, `session` that of C62; `answered_each` splits the trace of the text into parts, one for each line answered.

**C118 Builds with and without overflow checks behave alike until the former aborts** (proved, PropsBuild.v)  
Theorems: `C118_program`, `C118_eval`, `C118_session`, `C118_test`, `C118_duration`, `C118_run`, `C118_run_back`.  
`in_build` changes `h_checks` of a world and nothing else; `same_run` compares runs thread by thread. Which programs abort in which build is C11, C12, C13 and C70.

**C119 Programs whose operands surely have the right types never fail** (proved, PropsTypes.v)  
Theorems: `C119_sound`, `C119_runs`, `C119_repeats`, `C119_suite`, `C119_json_refuted`.  
`typed` is a type system with unions of types, written down in SpecTypes.v without reference to the evaluator; it is sound, not complete, as it follows no values. `no_risk`, `steady` and `readable_bodies` are those of C70, `never_fails` that of C56.

**C120 A test does the same by its name and among all tests, unless it fails** (proved, PropsModes.v)  
Theorems: `C120_alike`, `C120_failed_refuted`.  
both runs are executions of the process model of C86; `p_flag` is still set at the end of a run that was not interrupted. The servers of a thread are those of its `g_world`.

**C121 Layout does not matter** (proved, PropsLayout.v)  
Theorems: `C121_tokens`, `C121_parse`, `C121_line`, `C121_session`, `C121_suite`, `C121_program`, `C121_elsewhere_refuted`.  
`relaid` is generated by single changes of blanks, `closed` (C04) saying that the place is outside quotations.

**C122 Tests keep doing what they did when a suite grows** (proved, PropsGrown.v)  
Theorems: `C122_alone`, `C122_all`, `C122_files`, `C122_hijacked_refuted`.  
`reads` and `called` are those of C68. The expressions added may print and send; that is seen in what the main thread does.

**C123 A request arrives as written in the suite, with the texts of the variables filled in** (proved, PropsArrives.v)  
Theorems: `C123_parts`, `C123_call`, `C123_bytes`, `C123_eval`, `C123_run`.  
the template is given by its parts; `one_line_holes` excludes placeholders with a line break inside, which would join lines. Forms are in C38; the encoding of multipart bodies is a parameter (`enc`). `answered` says that the exchange neither aborts (clock) nor yields a body on which the JSON reader hangs (C42).

**C124 What the unary operators do to every value** (proved, PropsUnary.v)  
Theorems: `C124_not`, `C124_minus`.  
the number a float stands for is `value_of` (C13), over exact rationals.

**C125 A report says PASS exactly if its assertions are true of what the server sent** (proved, PropsVerdict.v)  
Theorems: `C125_call`, `C125_bytes`, `C125_run`.  
`true_of` is stated by `found`, `agrees` and `ranks` of SpecAssert.v, on the document that the body is (C116). A failed exchange leaves the default response (status 0, all texts empty), which the assertions are then compared with.

**C126 What a test run prints follows from the text of the suite and what the server sends** (proved, PropsPrints.v)  
Theorems: `C126_run`, `C126_bytes`.  
the text is cut into tokens, read, loaded and run in the proof; `check_written` allows one space around the comparison (for other layouts see C121). The texts of arrays and objects found at a place are left to C81. Float texts are `shown_float` (C83).

**C127 What a response says can be sent in the next request** (proved, PropsChain.v)  
Theorems: `C127_run`, `C127_missing`.  
the message of the first request is supposed not to depend on `x` (else it would differ after the first time, variables being kept). C127_missing is about one evaluation of the test's first statement in any state.

**C128 Which request is made next follows from what a response says** (proved, PropsBranch.v)  
Theorems: `C128_run`.  
the condition is written as the call, a point and the text of a check (`check_written`), so that `holds_of` of C126 says when it is true. A place with nothing at it is left to C127_missing.

**C129 What suites with any number of requests and tests send and print** (proved, PropsWhole.v)  
Theorems: `C129_named`, `C129_all`, `C129_ends`.  
generalises C126 to any number of requests and tests and to running all tests; `serves` says that exchanges are answered (and that bodies are documents or surely none where asserted about; requests that are not answered are C133). Tests are sequences of calls, each followed by `;`.

**C130 The statistics count every request made and sum up the durations reported** (proved, PropsTally.v)  
Theorems: `C130_named`.  
`timed` reads name and duration off the report itself (`duration_text`, C84, says that the text determines the nanoseconds); `stat_report` and `summary` are those of C52 and C60. The sums are unbounded as in Stat.v.

**C131 The record file of a thread tells what the thread sent, received and printed** (proved, PropsFiled.v)  
Theorems: `C131_named`, `C131_all`.  
joins C129 with C48, C49 and C87. `tells` gives the datum of a request in terms of the exchange itself (`client_send`) and of the report printed (`report_on`); blocks are read by the `Counted` reader of C48 since arrays lack their end mark (C49). Clock readings below 2^63 (`quick`) are the only condition on times.

**C132 The report about a request depends on nothing but its response and the duration** (proved, PropsMute.v)  
Theorems: `C132_named`, `C132_all`.  
`said` is quantified before the runs, so that it cannot depend on them; it may depend on the host (which characters Debug escapes, order of map entries, overflow checks). That the text is right is C129 (`visits_rightly` is part of the statement).

**C133 Requests without a response are reported as if about an empty one** (proved, PropsMute.v)  
Theorems: `C133_exchange`, `C133_answered`, `C133_named`, `C133_all`, `C133_ends`.  
`unreachable` says that every exchange fails in one of three ways, with clocks that do not run backwards (`ordered`, as in C43). The body being empty, there is no `json`; an assertion about it compares null.

**C134 The order of files and of definitions does not matter** (proved, PropsMoved.v)  
Theorems: `C134_source`, `C134_tests`, `C134_files`, `C134_any_order`, `C134_run`, `C134_definitions`, `C134_same_name_refuted`.  
`process_like` relates two processes whose threads have contexts with the same lookups; it is kept by every step. `independent` asks that no request and no test be defined in both files and one of them have definitions only; `moved` exchanges independent neighbours. The texts are those read from the directory (C55).

**C135 Whether a text stands in a template or in a variable does not matter** (proved, PropsFixed.v)  
Theorems: `C135_same`, `C135_eval`, `C135_run`, `C135_messages`, `C135_setting_refuted`, `C135_braces_refuted`.  
`same_doings R` says that `R`, between (body, context) pairs, is a bisimulation of single rounds for every network; `same_run` lifts it to processes. `spelt` replaces the placeholders of fixed text; templates are compared after that, as read (`scan`), so a text that becomes part of a placeholder is no match. `D` lists the variables that differ between the suites, which neither expressions nor remaining placeholders may mention.

**C136 Recording and statistics change nothing else** (proved, PropsAside.v)  
Theorems: `C136_off`, `C136_on`, `C136_any`, `C136_unrecorded`, `C136_denied_refuted`.  
a weak simulation in each direction; writes, sends to the statistics thread and its steps are matched by nothing (`tests_part` leaves the statistics out of the log). `same_worlds` asks only that the tests meet the same networks. That a write to a record file blocks for ever is not modelled.

**C137 Threads do not wait for each other: every order of their doings is possible, and no other output** (proved, PropsShuffle.v)  
Theorems: `C137_any_order`, `C137_ordered`, `C137_agree`, `C137_exactly`.  
`walks` is a thread on its own; every run is a start, then moves of threads, each walking alone until it is done or finds the flag down at the head of its loop (`made_of`); any interleaving of walks is replayed before the flag is lowered. `reordered` keeps the events of every thread. One `println!` is one event; `numbered_apart` keeps thread numbers (u32) distinct.

**C138 Nothing depends on answers that have not been given** (proved, PropsCausal.v)  
Theorems: `C138_program`, `C138_answered`, `C138_run`, `C138_run_answered`.  
`parted` says that two executions are the same up to a request that is answered differently; each construct of the evaluator keeps `causal`: same result or parted. Networks are functions of what was done before and the message (`e_net`), so answers may depend on the history, and may differ arbitrarily after the agreement ends.

**C139 Threads that talk to one server meet through it only** (proved, PropsShared.v)  
Theorems: `C139_continues`, `C139_determined`, `C139_named_ends`, `C139_all_ends`, `C139_order_matters`.  
the model gives each thread a network that is a function of the thread's own past. A shared server is one that sees the whole log (`server`); `answered_by` says that the networks of a run gave, for the requests actually made, the answers of the server. As unmade requests do not matter (C138), every run against a shared server is a run of the model with suitable networks: `C139_continues` is the step of this argument, and `C139_named_ends` and `C139_all_ends` take it to the end, by induction on the requests left under the bound of C140. The server sees the order of events as logged, one event at a time.

**C140 No run makes more requests than its arguments and the suite allow** (proved, PropsBudget.v)  
Theorems: `C140_named`, `C140_all`, `C140_stopped`.  
from C24 (requests of a block) and C86 (what a thread does), summed over the threads. `calls` counts call expressions, built-in functions included, so it is a bound, not a count.

**C141 Longer runs begin like shorter ones, and every thread does what a single one does** (proved, PropsLonger.v)  
Theorems: `C141_agree`, `C141_more`, `C141_single`, `C141_recorded`.  
from C86 (`under_way`, `done_with`) and the determinism of rounds. The networks of the two threads compared are the same function of what the thread itself has done.

**C142 How long answers take changes nothing but the durations shown** (proved, PropsPace.v)  
Theorems: `C142_run`.  
a lockstep simulation; `paced` says that related states give equal results and related states (records equal up to times, traces up to `same_event_but_duration`), for every construct of the evaluator. `same_but_pace` lets a server depend on the messages it got and not on what the thread printed, which no server sees. Answers that differ because a server is slow (a 504, a cut connection) are different answers and outside this claim. The clocks are `ordered` as in C43. The model has no timeouts because the client sets none.

**C143 Adding assertions changes nothing but the lines of reports and their verdicts** (proved, PropsAdded.v)  
Theorems: `C143_run`, `C143_back`, `C143_sets_refuted`.  
LockstepProofs.v has the simulation of processes for any relations of threads, events and records; it is used in both directions. `report_with` computes the verdict from the lines, so that `among` says how it may change. `C143_sets_refuted` has the case of an assertion with `let`. Operands with arithmetic or other calls (which may abort, print or send) are left out of `looks`.

**C144 The names of tests choose and label, nothing else** (proved, PropsLabel.v)  
Theorems: `C144_run`, `C144_back`.  
by LockstepProofs.v, with equality for events and records; only `j_name` and the bytes stored differ. In the mode without a name the order of the tests is that of a hash map, so the two orders (`iter`, `iter'`) are related by a hypothesis.

**C145 One round tells the whole run** (proved, PropsSteady.v)  
Theorems: `C145_run`, `C145_end`, `C145_failing`.  
from C86 (what the threads of a run have done) and C115 (iterations of a test that carries nothing over). `first_round` is one evaluation of the body from the context after loading; `times` is plain repetition. The end theorems assume that all threads have the same network, so that their rounds are the same.

**C146 A test body that does the same can take the place of another in every run** (proved, PropsReplace.v)  
Theorems: `C146_run`, `C146_back`, `C146_itself`, `C146_unchanged`, `C146_unread`, `C146_unused`, `C146_steps`, `C146_parts`, `C146_swap`.  
a simulation of its own (ReplaceProofs.v), because the record files are claimed equal and not only to exist. The value of a body is not compared, for nothing looks at it. Leaving out and swapping statements (C111) are instances; inlining (C112) is not, for an error message may quote the expression.

**C147 Whole test runs are the same in debug and release builds as long as nothing panics** (proved, PropsBuilt.v)  
Theorems: `C147_release`, `C147_until`, `C147_debug`, `C147_riskless`.  
C118 for the whole process, by a simulation (BuiltProofs.v) in which testers differ in the build of their environment only. `setting_in` puts all threads of a run into one build. `risk_free` uses the operators of C70 (SpecSafe.v).

## Trusted base

* The Coq 8.16.1 kernel, and `vm_compute` in examples.
* `Print Assumptions` stands under every property theorem and reports
  "Closed under the global context" for each of them: no axiom is used.
* The libraries loaded (through `Lia` and the `ssr` prelude) declare the axioms of
  `Coq.ssr.ssrunder.Under_rel` (`Under_rel`, `Under_relE`, `Under_rel_from_rel`,
  `under_rel_done`, `Over_rel`, `over_rel`, `over_rel_done`), which are parts of a
  sealed module of the standard library; nothing here depends on them.
* That the model is what the code does: see below. `Conformance.v` runs the
  repository's own unit-test tables on the model.
* That the specifications (`Spec*.v`) say what the statements say.

## What is modelled

| code | model |
| --- | --- |
| lib/src/token.rs, lexer.rs | Token.v, Lexer.v |
| lib/src/syntax.rs, parser.rs | Syntax.v, Parser.v |
| lib/src/value.rs, native.rs | Value.v, F64.v, Native.v, Template.v |
| lib/src/context.rs, evaluator.rs | Context.v, Evaluator.v, AnyOrder.v (any order of map entries), Deep.v (depth of calls, also of the parser), Work.v (number of calls, also of the parser) |
| lib/src/http/url.rs, request.rs, content.rs, header.rs, response.rs, error.rs, time.rs, client.rs | HttpUrl.v, HttpRequest.v, HttpResponse.v, HttpClient.v |
| lib/src/http/stream.rs | HttpStream.v (attempts, racing), HttpRace.v (racing with time), HttpSend.v (connecting, buffered writing), HttpRead.v (reading in pieces) |
| lib/src/writer.rs | Writer.v |
| lib/src/stat.rs | Stat.v |
| cmd/src/command.rs, main.rs | Command.v, TestCommand.v, Process.v, Outage.v (refused output, signals), Session.v, Arguments.v (command line), Program.v (all of it, with exit statuses) |
| std: f64, str and Duration formatting | Display.v |
| std: str, char, integer parsing, UTF-8, BufRead, BufReader, BufWriter, io::Read, io::Write | Text.v, Utf8.v, HttpResponse.v, HttpSend.v, HttpRead.v |

Simplifications, each also noted at the definition:

* The order in which a map is displayed is a function of the host and the keys. In Rust
  every HashMap has its own seed, so two maps with the same keys may be displayed
  differently even within one run (finding 22). AnyOrder.v models evaluation with any
  order at every display, and C103 and C104 say when this makes a difference.
* Paths are lists of names which are text; file contents are byte lists; an
  entry that cannot be read stays so, and its kind can always be asked for.
* The digits of a float are found by search instead of std's arithmetic (C83).
* In HttpRace.v starting a thread and computing take no time (C90).
* Standard input that has ended stays so (C91).
* `regex` is replaced by a direct matcher for its one pattern.
* The multipart encoding (external crate) is a parameter: the chunks its reader gives, and possibly a failure.
* The evaluator works on the bytes delivered and the way the stream ends; C78 relates
  this to the individual reads. That a call may never return (C79) is not part of an exchange.
* In Command.v the evaluation of one iteration is one step; Process.v interleaves the
  threads line by line and request by request (C86-C89) and refines it. What another
  thread does cannot influence an iteration except through the servers and files,
  which are a function of the thread (`g_world`).

## What is not modelled

Memory exhaustion, and stack overflow except that C105 and C106 count nested calls (how many a stack has room
for is not modelled); speed; TLS and DNS themselves; standard error; clap itself (Arguments.v
describes its rules for this interface, unchecked against its source; arguments that are not Unicode text and what
help and error messages say are left out); which characters Rust considers printable when quoting (a parameter);
terminal behaviour.

## Findings about the code

Collected from the theorems above (all as the code stands at the pinned commit):

1. `a!`, or a response body such as `Hello!`, makes the parser loop forever (C05, C42, C69).
2. Record files with headers or assertions cannot be read with their own schema (C49).
3. Short writes lose records silently (C51).
4. A second `://` in an address (for example in a query) truncates it; `HTTPS://` is treated as plain http; the recorded URL drops the port (C33, C34).
5. Substituted values can add header lines (C37).
6. Line breaks in bodies are dropped; form values keep the leading space; reason phrases are cut to one word (C35, C38, C39).
7. No Host or Content-Length header is added, and a multipart body is sent without its boundary in the header (C36).
8. Assertions other than top-level comparisons are dropped; a call that never connected prints PASS (C26, C27).
9. Division by zero, MIN / -1, oversized shifts and overflow in checked builds abort the process (C11-C13, C70).
10. `number / threads` drops the remainder: with more threads than iterations nothing runs, zero threads abort (C56).
11. Records of a failing iteration are lost in named mode; run-all mode gathers no statistics (C59, C61, C120).
12. Source files are concatenated without a separator (C04, C71).
13. JSON bodies: negative numbers become null, escapes and exponents are misread (C41), so that assertions about them fail (C116).
14. The interactive loop spins at end of input (C62).
15. 1 == 1.0 is false while <= and >= hold (C14); 1.0 is displayed as 1 (C09); the smallest integer does not read back (C73).
16. Duration arguments can overflow (C54).
17. A server that keeps the connection open blocks the client for ever; a truncated TLS response counts as complete; an interrupted first read fails the request (C78, C79).
18. After a reported write failure the server may still have received the whole request (C75).
19. A request that fails counts as one of 0 ms in the response-time statistics (C43).
20. The message for an unknown duration unit is never given (C54).
21. The printed text does not tell the type: 1 and the text 1 look the same (C81); whole floats are printed as integers (C73).
22. A map used as the key of another map is turned into text in an order that differs from map to map, so it may not be found again (C103); an assertion that depends on it passes in one run and fails in the next (C104).
23. Even a short multipart request takes several writes, the first with the head alone (C75).
24. The exit status is 0 whether tests pass, fail or crash, for syntax errors and for unknown test names (C88).
25. Record files of an earlier run with more threads stay beside those of the new run; an absolute POD leaves the record directory (C87).
26. With `--stat` but no test name the statistics are an empty text (C86).
27. No timeouts are set: a host whose addresses are silent is waited for for ever, and each silent address before the working one costs 200 ms per request (C90).
28. An unterminated last line is evaluated and then the session spins; `exit` followed by a space does not exit; lines that are not UTF-8 vanish without a message (C91).
29. A test thread whose output is refused (a closed pipe) dies with its current records, and the status is still 0 (C92).
30. An interrupt kills a run without a test name at once, leaving record files with a header alone; a named run is protected only once all threads are started (C93).
31. A current directory that was deleted makes the command fail even if a path is given (C94).
32. Asking for more threads than the system allows loses the iterations under way and the statistics (C96).
33. A float literal of 16 digits may be shown as another number (C95).
34. `basjoofan eval "-5"` is refused as an unknown option; a text that starts with a hyphen needs `--` before it (C97).
35. `-t 0` and `-n 0` are accepted (C97).
36. A side of an assertion that cannot be evaluated counts as null (`evaluator.rs:191-192`), so `statu != 200` with a misspelt name, or `f() == g()` with unknown functions, passes (C100).
37. A response body with line breaks that an assertion shows can forge report lines: one failed request can print exactly what two requests print of which the first passed (C100). The last line of each report is right in any case.
38. Nothing limits nesting: a response body of enough `[` overflows the stack while it is parsed, which ends the process with all its threads and unwritten records; a long flat sum is accepted and then overflows when evaluated (C105, C106).
39. Chunked responses are not decoded: the body contains the chunk sizes and `json` is usually the first size (C107). Servers may send chunks to every HTTP/1.1 client.
40. Content-Length is ignored: a response that breaks off counts as complete, a connection closed at once as status 0, an interim 100 response as the answer (C107).
41. `let a=a+a;` repeated makes a text that doubles each time; no size of a value or message is limited (C109).

## Mutation testing

`seeded/LOG.jsonl` lists the wrong programs tried: in a scratch copy one definition
of the model is edited, everything is rebuilt with failing proofs admitted one by
one, and the property theorems that depend on an admitted lemma count as failed.

How to read the log:

- `theorems_failed` means that the proof no longer goes through. It does not show by
  itself that the theorem is false of the edited model: a proof may also break
  because a lemma it uses, or its script, was about the edited code.
- In the later batches only the files of the claims named in `claim_broken` are
  rebuilt, to save time. Other theorems may fail as well and are not listed.
- Older entries were made against the model as it was then and have not all been
  repeated since.
