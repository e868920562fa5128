{"id": "C01", "title": "Lexing ends with exactly one end marker and loses no character", "statement": "For every source text, tokenising returns a list whose last token is the end-of-file token and which contains no other end-of-file token, and the text is exactly the concatenation of whitespace gaps and the spellings of the returned tokens in order (only a final string/template may lack its closing quote).", "quantifier": "all source texts (all finite sequences of Unicode scalar values)", "why_tests_cant": "A test checks a handful of texts; losing or duplicating a character could happen for any of infinitely many texts.", "anchors": ["lib/src/lexer.rs:segment"]}
{"id": "C02", "title": "Tokens are chosen by longest match", "statement": "For every source text, the token list is the unique one obtained by repeatedly skipping whitespace and taking the longest prefix that spells a token (operators, numbers, identifiers/keywords, quoted strings, templates); a character that starts no token becomes one illegal token.", "quantifier": "all source texts", "why_tests_cant": "Two-character operators, keywords as prefixes of identifiers and number/dot runs interact in unboundedly many contexts.", "anchors": ["lib/src/lexer.rs:segment", "lib/src/token.rs:Kind"]}
{"id": "C03", "title": "Tokens written with whitespace between them lex back to themselves", "statement": "For every list of tokens that have a spelling, writing the spellings separated (and optionally preceded and followed) by non-empty whitespace and tokenising gives the same list followed by end-of-file.", "quantifier": "all finite lists of spellable tokens and all whitespace gaps", "why_tests_cant": "Round trip over an infinite set of token lists.", "anchors": ["lib/src/lexer.rs:segment"]}
{"id": "C04", "title": "Source files concatenate safely exactly at newline boundaries", "statement": "If the first text does not end inside an unclosed string or template, tokenising first + newline + second is the tokens of first followed by the tokens of second; without a separating character the last token of one file and the first of the next can fuse (the test command concatenates .fan files with no separator).", "quantifier": "all pairs of source texts", "why_tests_cant": "Which pairs of files fuse depends on arbitrary contents of both.", "anchors": ["lib/src/lexer.rs:segment", "cmd/src/command.rs:read"]}
{"id": "C05", "title": "Parsing terminates unless a `!` follows a complete operand", "statement": "For every source text in which no `!` token directly follows a token that can end an operand and no `let` directly follows an operator, parsing finishes with a result or an error, with recursion (loop turns counted as calls) at most 4*tokens+5 deep. For every well-formed program ending in an expression and followed by `!` (for example `a!`), whatever comes after it, parsing never finishes. The condition on `let` is needed: `a + let x = 1; !b` never finishes either. Parsing never finishes exactly if the tokens up to some `!` that directly follows an expression make it so, and then it does not finish whatever comes after that `!`.", "quantifier": "all token streams; all step budgets for the divergence half", "why_tests_cant": "Non-termination cannot be observed by a finite test, and absence of it must hold for all inputs.", "anchors": ["lib/src/parser.rs:parse_expr", "lib/src/token.rs:precedence"]}
{"id": "C06", "title": "Parse results account for every token", "statement": "If parsing a text succeeds, then the token sequence is exactly the concrete syntax (with the permitted optional trailing commas and semicolons) of the returned expressions, requests and tests in order: no token is skipped, duplicated or reordered.", "quantifier": "all token streams that parse successfully", "why_tests_cant": "Silent dropping of tokens could occur at any nesting depth.", "anchors": ["lib/src/parser.rs:parse", "lib/src/parser.rs:parse_expr", "lib/src/parser.rs:parse_expr_list", "lib/src/parser.rs:parse_block_expr"]}
{"id": "C07", "title": "Operator precedence and left associativity", "statement": "In every expression returned by a successful parse (without a `let` used as an operand), the left operand of a binary operator is never a binary expression of lower precedence, the right operand is never a binary expression of lower or equal precedence, a unary operand is never a binary expression, and the target of a call, index or field access is neither unary nor binary; precedences are || < && < | < ^ < & < ==,!= < <,>,<=,>= < <<,>> < +,- < *,/,% < unary < call < index,field.", "quantifier": "all token streams, all operator combinations, all nesting depths", "why_tests_cant": "The number of operator combinations and nestings is unbounded.", "anchors": ["lib/src/parser.rs:parse_expr", "lib/src/parser.rs:parse_binary_expr", "lib/src/parser.rs:parse_unary_expr", "lib/src/token.rs:precedence"]}
{"id": "C08", "title": "Every well-formed expression is parseable (print then parse is the identity on syntax trees)", "statement": "For every sequence of items (expressions, requests, tests) whose expressions respect precedence (parentheses being explicit nodes, no `let` as an operand), parsing any text whose tokens are a way to write them, with expressions separated by `;` and optional trailing commas and semicolons, succeeds and yields exactly those expressions and, per name, the last definition.", "quantifier": "all expression trees respecting precedence", "why_tests_cant": "Infinite set of trees.", "anchors": ["lib/src/parser.rs:parse_expr", "lib/src/syntax.rs:Display"]}
{"id": "C09", "title": "The displayed form of an expression re-parses to the same expression", "statement": "For every expression tree produced by the parser in canonical form (no `let` operand, no field access directly on a number, no float literal that is a whole number), the text produced by Display tokenises and parses back to the same tree, floats bit for bit; with a whole float or a number as field target this fails (1.0 prints as 1, `1 .f` prints as 1.f), and with a `let` operand too.", "quantifier": "all canonical expression trees", "why_tests_cant": "Composition of printer, lexer and parser over infinite inputs.", "anchors": ["lib/src/syntax.rs:Display", "lib/src/lexer.rs:segment", "lib/src/parser.rs:parse_expr"]}
{"id": "C10", "title": "Definitions are collected by name, last one wins, order of expressions kept", "statement": "After a successful parse the top-level expressions appear in source order, and for each request or test name the stored definition is the last one with that name in the source; names never defined are absent.", "quantifier": "all successful parses with any number of definitions and duplicates", "why_tests_cant": "Any number and order of duplicates.", "anchors": ["lib/src/parser.rs:parse", "lib/src/parser.rs:parse_request_literal", "lib/src/parser.rs:parse_test_literal"]}
{"id": "C11", "title": "Integer arithmetic is 64-bit two's complement", "statement": "For all 64-bit integers the operators + - * and unary - give the mathematical result when it fits in 64 bits; when it does not, a build with overflow checks aborts and a release build gives the result modulo 2^64; ! ^ | & are the bitwise operations; << and >> shift by the low six bits of the right operand in a release build and abort in a checked build when the amount is outside 0..63.", "quantifier": "all pairs of 64-bit integers, both build modes", "why_tests_cant": "2^128 operand pairs.", "anchors": ["lib/src/value.rs:Add", "lib/src/value.rs:Sub", "lib/src/value.rs:Mul", "lib/src/value.rs:Shl", "lib/src/value.rs:Shr", "lib/src/evaluator.rs:eval_unary_expr"]}
{"id": "C12", "title": "Division and remainder truncate toward zero and abort exactly on zero divisors or MIN/-1", "statement": "For all 64-bit integers, / and % satisfy a = b*(a/b) + a%b with |a%b|<|b| and the remainder taking the dividend's sign; evaluation aborts (does not return an error) exactly when the divisor is 0 or the operands are MIN and -1, in both build modes.", "quantifier": "all pairs of 64-bit integers", "why_tests_cant": "2^128 operand pairs.", "anchors": ["lib/src/value.rs:Div", "lib/src/value.rs:Rem"]}
{"id": "C13", "title": "Mixed arithmetic promotes the integer; type errors are reported, never aborts", "statement": "For all operand values, an arithmetic operator applied to an integer and a float equals the IEEE-754 binary64 operation after converting the integer with round-to-nearest-even; bit operators accept only integers; + also concatenates strings; every other combination returns a type-mismatch error naming both operands and the operator; the only aborts are the integer cases of overflow, bad shift and bad division.", "quantifier": "all pairs of values of all types, all binary operators, both build modes", "why_tests_cant": "Infinite value domain (strings, arrays, maps nested arbitrarily).", "anchors": ["lib/src/value.rs", "lib/src/evaluator.rs:eval_binary_expr"]}
{"id": "C14", "title": "Comparisons are mutually consistent", "statement": "For all values: a<b iff b>a; a<=b iff b>=a; a<b implies a<=b and not a>=b; values of incomparable types (or NaN) make all four orderings false; != is the negation of ==; integers and strings are totally ordered (strings by byte order). Equality is structural and type-strict, so 1 == 1.0 is false although 1 <= 1.0 and 1 >= 1.0 hold.", "quantifier": "all pairs of values", "why_tests_cant": "Infinite value domain.", "anchors": ["lib/src/value.rs:PartialOrd", "lib/src/value.rs:PartialEq", "lib/src/evaluator.rs:eval_binary_expr"]}
{"id": "C15", "title": "Map equality ignores order; equality is an equivalence on NaN-free values", "statement": "Two maps are equal iff they have the same keys with equal values, regardless of insertion order; == is reflexive on NaN-free values, symmetric and transitive.", "quantifier": "all values of any nesting", "why_tests_cant": "Infinite nested domain.", "anchors": ["lib/src/value.rs:Value"]}
{"id": "C16", "title": "Short-circuit operators", "statement": "For all expressions and contexts, if the left operand evaluates to false or null, && returns it and if to anything else || returns it, and in those cases the right operand is not evaluated: no variable, record, output or request of the right operand appears; otherwise the result and effects are those of the right operand evaluated after the left.", "quantifier": "all operand expressions and contexts", "why_tests_cant": "Effects of arbitrary right operands.", "anchors": ["lib/src/evaluator.rs:eval_binary_expr"]}
{"id": "C17", "title": "Only false and null are falsy in conditionals", "statement": "For all conditions, branches and contexts exactly one branch runs: the else branch iff the condition evaluated to false or null (0, empty string, empty array and map are true); a missing or empty branch yields null; errors of the condition prevent both branches.", "quantifier": "all conditions, branches and contexts", "why_tests_cant": "Arbitrary sub-programs.", "anchors": ["lib/src/evaluator.rs:eval_if_expr"]}
{"id": "C18", "title": "Blocks run in order and stop at the first error", "statement": "Evaluating a block of expressions followed by another equals evaluating the first and, if it succeeded, the second in the resulting context; the value is the last one (null for an empty block); after an error or abort nothing later runs and effects already made remain.", "quantifier": "all pairs of expression lists and contexts", "why_tests_cant": "Arbitrary programs and error points.", "anchors": ["lib/src/evaluator.rs:eval_block"]}
{"id": "C19", "title": "Evaluation only changes variables bound by let", "statement": "For every expression and context, after evaluation (whether it succeeded or failed) every variable whose name is not the target of a let inside the expression has its old value, the request definitions are unchanged, and the records and output only grow by appending.", "quantifier": "all expressions and contexts", "why_tests_cant": "Arbitrary programs.", "anchors": ["lib/src/evaluator.rs:eval_expr", "lib/src/context.rs:Context"]}
{"id": "C20", "title": "let binds the value it returns", "statement": "For every name and expression, if `let name = e` succeeds with v then v is e's value and reading name yields v until name is bound again; other names are those left by e; if e fails, name keeps its old value.", "quantifier": "all names, expressions, contexts", "why_tests_cant": "Arbitrary programs.", "anchors": ["lib/src/evaluator.rs:eval_let_expr", "lib/src/evaluator.rs:eval_ident_expr", "lib/src/context.rs:set"]}
{"id": "C21", "title": "Array and map access", "statement": "Indexing an array gives the element at that position for 0 <= i < length and null for every other integer including negatives; indexing or field access on a map gives the value stored under the key's displayed text, null if absent; access copies and never changes the collection held in a variable; other targets are errors.", "quantifier": "all arrays, maps, indices, contexts", "why_tests_cant": "All 2^64 indices and arbitrary collections.", "anchors": ["lib/src/evaluator.rs:eval_index_expr", "lib/src/evaluator.rs:eval_field_expr"]}
{"id": "C22", "title": "Map literals keep the last value per displayed key", "statement": "Evaluating a map literal evaluates keys and values left to right and yields a map whose entry for each key text is the last value written under that text; keys with the same displayed text (1 and \"1\") collide.", "quantifier": "all map literals", "why_tests_cant": "Arbitrary number of duplicate keys.", "anchors": ["lib/src/evaluator.rs:eval_map_literal"]}
{"id": "C23", "title": "Operands and arguments evaluate left to right exactly once", "statement": "For every array literal, argument list and non-short-circuit binary expression, operands are evaluated left to right, each exactly once, each seeing the effects of the earlier ones, and evaluation stops at the first failing operand.", "quantifier": "all operand lists and contexts", "why_tests_cant": "Arbitrary effects.", "anchors": ["lib/src/evaluator.rs:eval_list", "lib/src/evaluator.rs:eval_binary_expr"]}
{"id": "C24", "title": "Calls send at most one request each", "statement": "For every program and context, the number of HTTP requests sent while evaluating equals the number of records appended and is at most the number of call expressions in the program; asserts never send requests.", "quantifier": "all programs, contexts, network behaviours", "why_tests_cant": "Arbitrary programs.", "anchors": ["lib/src/evaluator.rs:eval_call_expr"]}
{"id": "C25", "title": "Assertions are isolated from the caller", "statement": "Evaluating the asserts of a request cannot read or change the caller's variables, cannot send requests and cannot add records: their results are a function of the response alone, and a failing sub-expression counts as null.", "quantifier": "all assert lists, responses and caller contexts", "why_tests_cant": "Arbitrary assert expressions.", "anchors": ["lib/src/evaluator.rs:eval_call_expr", "lib/src/context.rs:from"]}
{"id": "C26", "title": "Reported assertions are exactly the top-level comparisons, in order", "statement": "For every request call the record's assertions are, in source order, the declared asserts whose top operator is one of < > <= >= == !=, each with the displayed operands and the comparison's truth value; every other declared assert (parenthesised, negated, &&, ||, plain value) is silently dropped.", "quantifier": "all assert lists and responses", "why_tests_cant": "Arbitrary assert lists.", "anchors": ["lib/src/evaluator.rs:eval_call_expr"]}
{"id": "C27", "title": "A record prints PASS exactly when every reported assertion holds", "statement": "The printed verdict of a record is PASS iff all its reported assertions are true, independently of the transport error; in particular a call whose connection failed and which reports no assertion prints PASS.", "quantifier": "all records", "why_tests_cant": "Arbitrary assertion lists and errors.", "anchors": ["lib/src/context.rs:Display for Record"]}
{"id": "C28", "title": "Request definitions shadow built-in functions; unknown functions are errors", "statement": "For every name, a call runs the request definition when one exists, otherwise the built-in println/print/format/length/append of that name, otherwise returns a not-found error; arguments are evaluated first in all three cases.", "quantifier": "all names, argument lists, contexts", "why_tests_cant": "Arbitrary contexts.", "anchors": ["lib/src/evaluator.rs:eval_call_expr"]}
{"id": "C29", "title": "format substitutes placeholders simultaneously and in order", "statement": "For every format string and argument list, if the number of {name} placeholders equals the number of arguments the result is the string with the i-th placeholder replaced by the i-th argument's text and all other text unchanged (inserted text is never re-scanned); otherwise an error reports both counts.", "quantifier": "all strings and argument lists", "why_tests_cant": "Arbitrary strings, overlapping brace patterns, inserted text containing placeholders.", "anchors": ["lib/src/native.rs:format"]}
{"id": "C30", "title": "Request templates substitute variables by name", "statement": "For every template and context the message sent is the template with every {name} placeholder (optional whitespace inside) replaced by the displayed value of that variable, or null when unbound, all other text unchanged and inserted text never re-scanned.", "quantifier": "all templates and contexts", "why_tests_cant": "Arbitrary templates and variable contents.", "anchors": ["lib/src/evaluator.rs:eval_call_expr"]}
{"id": "C31", "title": "length and append laws", "statement": "length of a string is its UTF-8 byte count, of an array or map its number of entries (when it fits 64 bits); append(a, x1..xn) is the array a followed by x1..xn in order, so its length is the sum; wrong types or argument counts are errors; the original array variable is unchanged.", "quantifier": "all values and argument lists", "why_tests_cant": "Arbitrary data.", "anchors": ["lib/src/native.rs:length", "lib/src/native.rs:append"]}
{"id": "C32", "title": "print and println output", "statement": "print emits exactly the formatted text and println the same plus one newline, both return null; on a format error nothing is emitted and the error is returned.", "quantifier": "all argument lists", "why_tests_cant": "Arbitrary data.", "anchors": ["lib/src/native.rs:print", "lib/src/native.rs:println"]}
{"id": "C33", "title": "URL decomposition", "statement": "Every string either has no \"://\" or is scheme://host[:port][/path] followed by nothing or by a second \"://\", and parsing yields that scheme, host, port (the scheme's default 80/443 when absent or not a number up to 65535, which includes \"h:\" and \"h:1:2\") and path (default /); a second \"://\" anywhere truncates the rest of the URL; unknown or upper-case schemes are treated as plain http; text without \"://\" becomes localhost.", "quantifier": "all URL strings", "why_tests_cant": "Arbitrary strings.", "anchors": ["lib/src/http/url.rs:From<&str>"]}
{"id": "C34", "title": "Recorded URL omits the port", "statement": "The displayed URL is scheme://host + path: it re-parses to the same URL exactly when the port was the scheme's default (for host and path as produced by parsing without embedded ':' or \"://\").", "quantifier": "all URLs", "why_tests_cant": "Arbitrary ports.", "anchors": ["lib/src/http/url.rs:Display"]}
{"id": "C35", "title": "Request message parsing", "statement": "For every request written as a request line, header lines and a blank line followed by body lines, parsing recovers method (GET if unknown), URL, version (HTTP/1.1 if unknown), the headers in order with names and values trimmed (split at the first colon), and the body as the concatenation of body lines without line breaks.", "quantifier": "all request messages of any number of headers and body lines, any indentation", "why_tests_cant": "Arbitrary messages.", "anchors": ["lib/src/http/request.rs:from", "lib/src/http/mod.rs:Method", "lib/src/http/mod.rs:Version"]}
{"id": "C36", "title": "Wire format of a request", "statement": "The bytes written for a request are METHOD SP path SP VERSION CRLF, one `name: value` CRLF line per header in order, CRLF, then the body bytes; a server splitting at line feeds recovers exactly the same request line, headers and body; no parsed header name or value contains a line feed, so no header line can be split.", "quantifier": "all request messages", "why_tests_cant": "Arbitrary header contents.", "anchors": ["lib/src/http/request.rs:write", "lib/src/http/content.rs:write"]}
{"id": "C37", "title": "Substituted values can inject header lines", "statement": "Placeholders are substituted before the message is split into lines, so a variable's text containing a line break adds header lines; if no substituted text contains a line feed the number of message lines equals that of the template.", "quantifier": "all templates and variable values", "why_tests_cant": "Arbitrary values.", "anchors": ["lib/src/evaluator.rs:eval_call_expr", "lib/src/http/request.rs:from"]}
{"id": "C38", "title": "Form bodies decode to the written fields", "statement": "For an application/x-www-form-urlencoded request the body sent is a form encoding which decodes to the list of (name, text after the colon) pairs of the trimmed body lines that contain a colon, in order; the space after the colon is kept as part of the value.", "quantifier": "all body line lists", "why_tests_cant": "Arbitrary Unicode field contents.", "anchors": ["lib/src/http/request.rs:from"]}
{"id": "C39", "title": "Response parsing", "statement": "For every response consisting of a status line, header lines, an empty line and a body ended by connection close, parsing returns the version, the status, the first word of the reason, the headers in order trimmed and split at the first colon, and the exact body; invalid UTF-8 or a transport error gives an error.", "quantifier": "all byte streams", "why_tests_cant": "Arbitrary bytes from the network.", "anchors": ["lib/src/http/response.rs:from"]}
{"id": "C40", "title": "Response map contents", "statement": "The value returned to the script has version, status, reason, body equal to the response's, and headers mapping each header name to the array of all its values in order of appearance, with no other names.", "quantifier": "all responses, any repetition of header names", "why_tests_cant": "Arbitrary header lists.", "anchors": ["lib/src/http/response.rs:to_map"]}
{"id": "C41", "title": "JSON bodies become the corresponding value", "statement": "If the response body is a JSON document (any whitespace) built from objects, arrays, strings without quotes and escapes, non-negative 64-bit integers, decimals and booleans, the json entry equals the corresponding value, later duplicate keys winning; negative numbers become null.", "quantifier": "all such JSON documents of any depth", "why_tests_cant": "Infinite documents.", "anchors": ["lib/src/http/response.rs:to_map", "lib/src/syntax.rs:eval", "lib/src/parser.rs"]}
{"id": "C42", "title": "Some response bodies hang the client", "statement": "For a response body that is a word directly followed by '!' (for example Hello!) building the response value never terminates; for every body in which no '!' token directly follows a token that can end an operand and no 'let' directly follows an operator it terminates.", "quantifier": "all bodies, all step budgets", "why_tests_cant": "Non-termination.", "anchors": ["lib/src/http/response.rs:to_map", "lib/src/parser.rs:parse_expr"]}
{"id": "C43", "title": "Send reports either a response or an error", "statement": "For every network behaviour, sending a message returns the parsed request together with either the parsed response and an empty error text or an empty default response and the text of the first failure; total = resolve + connect + write + delay + read holds on success and no duration subtraction underflows when the clock is monotone. After a failure the recorded total, write and read times are 0 and the end is the start (so a failed request counts as 0 ms).", "quantifier": "all network behaviours and monotone clock readings", "why_tests_cant": "Arbitrary timing.", "anchors": ["lib/src/http/client.rs:send", "lib/src/http/time.rs"]}
{"id": "C44", "title": "Address attempts alternate families and cover every address once", "statement": "The sequence of connection attempts is a permutation of the resolved addresses that keeps the relative order within IPv6 and within IPv4, starts with IPv6 when present and alternates while both families remain.", "quantifier": "all address lists", "why_tests_cant": "Arbitrary lists.", "anchors": ["lib/src/http/stream.rs:rotate", "lib/src/http/stream.rs:connect_happy"]}
{"id": "C45", "title": "Connection racing returns a working connection whenever one attempt succeeds", "statement": "For every schedule of attempt completions, connecting returns a stream only of an attempt that succeeded; if some attempt succeeds it returns a stream; if all fail it returns the first reported failure; with no address it reports that no connection is available.", "quantifier": "all address lists, all outcomes, all interleavings", "why_tests_cant": "Schedules.", "anchors": ["lib/src/http/stream.rs:connect_happy"]}
{"id": "C46", "title": "Long encoding round trip", "statement": "For every 64-bit integer, the encoding is a zig-zag base-128 varint of 1 to 10 bytes that an Avro reader decodes to the same integer leaving following bytes untouched; distinct integers have encodings neither of which is a prefix of the other.", "quantifier": "all 64-bit integers and all following bytes", "why_tests_cant": "2^64 integers.", "anchors": ["lib/src/writer.rs:encode_long", "lib/src/writer.rs:encode_variable"]}
{"id": "C47", "title": "String encoding round trip", "statement": "For every byte string shorter than 2^63 the encoding is decoded by an Avro reader to the same bytes leaving the rest untouched; a text is written as its UTF-8 bytes with their number before them, and read back as the same text.", "quantifier": "all byte strings, texts and suffixes", "why_tests_cant": "Infinite.", "anchors": ["lib/src/writer.rs:encode_bytes"]}
{"id": "C48", "title": "Record files are well-framed containers", "statement": "After creating a writer and any sequence of writes (all bytes accepted by the file), the file is the container header (magic, metadata map with schema and codec, sync marker) followed by one block per write whose object count, byte size and sync marker are right, so a reader recovers each block's exact data bytes.", "quantifier": "all sequences of writes of any record lists", "why_tests_cant": "Histories.", "anchors": ["lib/src/writer.rs:Writer", "lib/src/writer.rs:header"]}
{"id": "C49", "title": "Records decode under the embedded schema exactly when their arrays are empty", "statement": "For records without headers and assertions, decoding a block with the schema stored in the file yields the same records; as soon as a record has a header or assertion the array encoding lacks its end marker and schema decoding does not yield the record; a length-counting reader still recovers every field, so no information is lost.", "quantifier": "all record lists", "why_tests_cant": "Unit test only writes the empty record.", "anchors": ["lib/src/writer.rs:Writer::write", "lib/src/writer.rs:META"]}
{"id": "C50", "title": "Record positions are stamped", "statement": "Each written record carries the test name, thread, iteration number and its position 0,1,2,... within the batch.", "quantifier": "all record lists", "why_tests_cant": "Arbitrary batches.", "anchors": ["lib/src/writer.rs:Writer::write"]}
{"id": "C51", "title": "Short writes lose data silently", "statement": "If the file accepts only part of a buffer the remainder is dropped and no error is reported; the file then equals the concatenation of the accepted prefixes, and it is a container holding exactly the written batches iff nothing was dropped.", "quantifier": "all acceptance behaviours of the file", "why_tests_cant": "Fault histories.", "anchors": ["lib/src/writer.rs:Writer::new", "lib/src/writer.rs:Writer::write"]}
{"id": "C52", "title": "Statistics are exact", "statement": "After any sequence of samples, each name's count, sum, max, min and average are the number, sum, maximum, minimum and floor of sum/count of that name's samples, names never sampled are absent, and min <= avg <= max.", "quantifier": "all finite sample sequences", "why_tests_cant": "Histories.", "anchors": ["lib/src/stat.rs:Stat::add", "lib/src/stat.rs:Stats::add"]}
{"id": "C53", "title": "Statistics do not depend on arrival order", "statement": "Any two orders of the same samples (any interleaving of threads) give the same statistics for every name.", "quantifier": "all permutations of all sample sequences", "why_tests_cant": "Schedules.", "anchors": ["lib/src/stat.rs:Stats::add", "cmd/src/command.rs:test"]}
{"id": "C54", "title": "Duration arguments", "statement": "A duration argument is accepted iff it is an unsigned 64-bit decimal (optional leading +) followed by s, m or h; it denotes that many seconds, minutes or hours; when minutes or hours overflow 64-bit seconds a checked build aborts and a release build wraps. A rejection says either that what precedes the last character is no number, or which unit is unknown.", "quantifier": "all argument strings", "why_tests_cant": "Arbitrary strings.", "anchors": ["cmd/src/main.rs:parse_duration"]}
{"id": "C55", "title": "Source collection order", "statement": "The program text for a directory is the concatenation, in path order, of the contents of exactly the files with extension fan at any depth. Reading fails iff one of these files cannot be read or is not UTF-8, or a directory at any depth cannot be listed; unreadable files of other kinds do not matter.", "quantifier": "all directory trees, readable or not", "why_tests_cant": "Arbitrary trees.", "anchors": ["cmd/src/command.rs:read"]}
{"id": "C56", "title": "Iterations per run", "statement": "For a named test with T>0 threads and number N, under every schedule each thread runs the test at most N/T (integer division) times, exactly N/T times if no iteration fails and no stop occurs; hence the total is T*(N/T), which is N only if T divides N and 0 if T>N; T=0 aborts.", "quantifier": "all T, N and schedules", "why_tests_cant": "Schedules and all parameter pairs.", "anchors": ["cmd/src/command.rs:test"]}
{"id": "C57", "title": "Stopping starts no new iteration", "statement": "Under every schedule, once the duration has elapsed or an interrupt arrived, no thread starts another iteration; iterations in progress complete.", "quantifier": "all schedules and stop points", "why_tests_cant": "Schedules.", "anchors": ["cmd/src/command.rs:test", "cmd/src/command.rs:handle_interrupt"]}
{"id": "C58", "title": "Threads are isolated", "statement": "Under every schedule, each thread's variables, records, file contents and sent batches after k iterations are those of running k iterations alone from the shared initial context.", "quantifier": "all schedules", "why_tests_cant": "Schedules.", "anchors": ["cmd/src/command.rs:test", "lib/src/context.rs:Clone"]}
{"id": "C59", "title": "Iteration numbering in record files", "statement": "Under every schedule, the blocks in a thread's file are numbered 0,1,2,... without gaps and carry that thread's index; an iteration that fails stops the thread and its records are neither printed, written nor counted.", "quantifier": "all schedules and failure points", "why_tests_cant": "Schedules.", "anchors": ["cmd/src/command.rs:test"]}
{"id": "C60", "title": "Statistics cover every sent record exactly once", "statement": "Under every schedule in which the run ends, the printed statistics are those of all records of all completed iterations of all threads, each counted once, independent of the schedule.", "quantifier": "all schedules", "why_tests_cant": "Schedules.", "anchors": ["cmd/src/command.rs:test", "lib/src/stat.rs:Stats"]}
{"id": "C61", "title": "Run-all mode runs each test once in a fresh copy of the context", "statement": "Without a test name, every test definition is evaluated exactly once from a copy of the initial context without earlier records, its records are written even when it fails, and no statistics are gathered.", "quantifier": "all sets of tests and schedules", "why_tests_cant": "Schedules.", "anchors": ["cmd/src/command.rs:test"]}
{"id": "C62", "title": "REPL state persists across lines and failing lines", "statement": "The REPL state after a sequence of lines is the state after evaluating them one after another; a line that fails to parse changes nothing, a line that fails in evaluation keeps the effects made before the failure; blank lines are ignored; exit stops; end of input without exit never stops the loop.", "quantifier": "all line sequences", "why_tests_cant": "Histories.", "anchors": ["cmd/src/command.rs:repl", "cmd/src/command.rs:eval"]}
{"id": "C63", "title": "UTF-8 encoding round trip", "statement": "Every text's byte form decodes back to the text, and only well-formed byte sequences decode.", "quantifier": "all texts and byte sequences", "why_tests_cant": "Infinite.", "anchors": ["lib/src/http/response.rs:from", "lib/src/native.rs:length", "lib/src/writer.rs:encode_bytes"]}
{"id": "C64", "title": "Literals denote what is written", "statement": "A program consisting of one decimal digit string below 2^63 evaluates to exactly that integer and one at or above 2^63 is rejected with a message quoting it; digits.digits (fraction possibly empty) evaluates to the double nearest to the written number, ties to even; a number with two dots is rejected; text between double quotes without a quote in it evaluates to exactly that text. None of them has any effect.", "quantifier": "all digit strings and all texts", "why_tests_cant": "Infinitely many literals; boundaries and roundings lie anywhere.", "anchors": ["lib/src/parser.rs:parse_integer_literal", "lib/src/parser.rs:parse_float_literal", "lib/src/parser.rs:parse_string_literal", "lib/src/lexer.rs:segment"]}
{"id": "C65", "title": "Every value of a running program is a valid value", "statement": "Whatever program text is evaluated, in any number of steps and whatever the network delivers, every value computed or held in a variable has integers within 64 bits, doubles of the binary64 format, text of Unicode scalar values, and maps without duplicate keys, at any nesting depth.", "quantifier": "all program texts, states reached by evaluation, and network behaviours", "why_tests_cant": "An invariant over all executions.", "anchors": ["lib/src/evaluator.rs:eval_expr", "lib/src/value.rs:Value", "lib/src/http/response.rs:to_map"]}
{"id": "C66", "title": "What the test command starts", "statement": "A source that does not parse, or whose top-level expressions fail, prints that error and starts no thread, creates no record file and gathers no statistics; if parsing never ends, or the top-level expressions abort or never end, so does the command; an unknown test name prints Test not found and starts no test thread; a known name starts exactly the requested number of threads, each with the same test, the bound number/threads (2^32-1 in place of number when a duration is given), its own file, and a copy of the variables and requests left by the top-level expressions but none of their records; zero threads abort; without a name one thread per test is started, each test exactly once, with the same kind of context.", "quantifier": "all source texts, names, thread counts, numbers, durations and map iteration orders", "why_tests_cant": "Unboundedly many sources and parameters.", "anchors": ["cmd/src/command.rs:test", "cmd/src/main.rs:main", "lib/src/context.rs:Clone"]}
{"id": "C67", "title": "Record file names", "statement": "The record file of a thread is the value of POD followed by the decimal thread number padded to six digits; different threads never share a file, and below one million threads the names sort in thread order.", "quantifier": "all prefixes and thread numbers", "why_tests_cant": "All pairs of numbers.", "anchors": ["cmd/src/command.rs:writer"]}
{"id": "C68", "title": "Evaluation depends only on what it reads", "statement": "An expression can read the variables it names and those named by the placeholders of the requests it calls. Two states that agree on these, on the requests called and on what happened before, lead to the same result (value, error or abort), the same requests sent and text printed, and the same records added; every variable afterwards is either untouched on both sides or equal on both sides. Variables and definitions an expression does not mention never influence it.", "quantifier": "all expressions, blocks and pairs of states", "why_tests_cant": "A relation between all pairs of executions.", "anchors": ["lib/src/evaluator.rs:eval_expr", "lib/src/evaluator.rs:eval_block", "lib/src/context.rs:Context"]}
{"id": "C69", "title": "Evaluation always ends", "statement": "Evaluating any expression or block in any state ends with a value, an error or an abort, provided no response received has a body with an exclamation mark directly after an operand (or let after an operator), which makes the reader of the body loop; with such a body (Hello!) a program does loop.", "quantifier": "all programs, states and network behaviours", "why_tests_cant": "Termination over unboundedly many programs.", "anchors": ["lib/src/evaluator.rs:eval_expr", "lib/src/http/response.rs:to_map", "lib/src/parser.rs:parse_expr"]}
{"id": "C70", "title": "Programs without overflowing operators never abort", "statement": "Evaluating expressions that use neither / nor % (nor, in builds with overflow checks, + - * << >> and unary minus), anywhere including the assertions of the requests called, never aborts the process, given a clock that does not go backwards; it always returns a value or an error if the bodies received are readable in the sense of the previous property. Each of the binary operators left out does abort for some operands.", "quantifier": "all programs, states and network behaviours", "why_tests_cant": "Absence of aborts over all programs and replies.", "anchors": ["lib/src/evaluator.rs:eval_expr", "lib/src/value.rs:Div", "lib/src/value.rs:Rem", "lib/src/http/client.rs:send"]}
{"id": "C71", "title": "Several files mean what each of them means", "statement": "If all directories can be listed and every file of a directory ends in a blank after a complete item, with ; after every expression, and none starts with [, then the text read parses, its expressions are those of the files in reading order, and of several definitions of a name the last file's one is in force. In general this fails: files ending without ; can fuse with the next.", "quantifier": "all sets of files and directories", "why_tests_cant": "Unboundedly many combinations of files.", "anchors": ["cmd/src/command.rs:read", "lib/src/parser.rs:Parser::parse", "lib/src/lexer.rs:segment"]}
{"id": "C72", "title": "Accepted sources have matching brackets", "statement": "In every accepted source the three kinds of brackets outside quotations match and nest properly, hence occur equally often and are never closed before they are opened, and no illegal character occurs.", "quantifier": "all accepted texts", "why_tests_cant": "Infinitely many texts.", "anchors": ["lib/src/parser.rs:parse_expr", "lib/src/parser.rs:parse_block_expr", "lib/src/parser.rs:parse_expr_list"]}
{"id": "C73", "title": "Displayed numbers and truth values read back", "statement": "The displayed form of any integer above -2^63, of any float that is not a whole number, and of true and false is a program that evaluates to the same value without any effect; the displayed form of -2^63 is rejected and that of 1.0 reads back as the integer 1.", "quantifier": "all integers, floats and states", "why_tests_cant": "2^64 integers and as many floats.", "anchors": ["lib/src/value.rs:Display", "lib/src/parser.rs:parse_integer_literal", "lib/src/evaluator.rs:eval_expr"]}
{"id": "C74", "title": "A request written in the usual form is sent as written", "statement": "A message consisting of a request line with method, address and version, indented header lines name: value, an empty line and body lines is read as exactly that method, address, version, headers in order and body, whatever the indentation and the blanks around it, and sent as the request line with the path, the headers each on a line, an empty line and the body with its line breaks removed, provided the content type is none of the two form types.", "quantifier": "all methods, addresses, versions, header lists, bodies and indentations", "why_tests_cant": "Unboundedly many messages.", "anchors": ["lib/src/http/request.rs:from", "lib/src/http/request.rs:write", "lib/src/http/content.rs:write"]}
{"id": "C75", "title": "What the server gets when writing is slow or fails", "statement": "Whatever the connection does at each write (takes any number of bytes, is interrupted, fails or blocks) and whatever the buffer size, the bytes it has taken are a prefix of the request; if the write is reported successful they are the whole request; if the connection never fails and takes bytes often enough the write succeeds, provided that the files of a multipart body can be read; otherwise it does not succeed. A failure is reported only if the connection failed or a file could not be read, with the text of that failure. The converse is false: after a reported failure the server may still have got the whole request. A request without multipart body is handed over in a single write iff it has at most 8192 bytes, and the head of a multipart request, if it has at most 8192 bytes, goes out in a write of its own, before any of the body.", "quantifier": "all requests, buffer sizes and connection behaviours", "why_tests_cant": "Unboundedly many interleavings of partial writes.", "anchors": ["lib/src/http/request.rs:write", "lib/src/http/stream.rs:Write", "lib/src/http/content.rs:write"]}
{"id": "C76", "title": "Which connection is opened", "statement": "A connection for an http address is plain and for an https address encrypted for exactly the host of the address, never in clear; it goes to one of the socket addresses the host and port resolve to and which accepts; connecting always comes to an end, and each error is reported only for its reason: host name unusable or session refused (https only), name not resolved, no socket address, none of them accepts, read timeout not settable.", "quantifier": "all URLs, resolutions, networks and schedules", "why_tests_cant": "Schedules and networks.", "anchors": ["lib/src/http/stream.rs:connect", "lib/src/http/stream.rs:connect_tcp", "lib/src/http/stream.rs:connect_happy"]}
{"id": "C77", "title": "Answered requests were delivered", "statement": "Performing a request opens at most one connection, as its URL demands, and puts nothing on it but a prefix of the request's bytes; if a response other than the empty one is returned, the server has received exactly the bytes of the request on that connection.", "quantifier": "all messages, networks and connection behaviours", "why_tests_cant": "Composition of all behaviours.", "anchors": ["lib/src/http/client.rs:send", "lib/src/http/stream.rs:connect", "lib/src/http/request.rs:write"]}
{"id": "C78", "title": "How the network cuts a response into pieces does not matter", "statement": "Reading a response gives the same result however its bytes are cut into pieces, whatever the buffer sizes and wherever reads are interrupted after the first piece: if the connection ends, the response returned is the one that all the bytes that arrived form. Only an interruption of the very first read makes the request fail.", "quantifier": "all bytes, divisions into pieces, interruptions, buffer sizes, plain and encrypted connections", "why_tests_cant": "Exponentially many divisions of a response.", "anchors": ["lib/src/http/stream.rs:read", "lib/src/http/response.rs:from"]}
{"id": "C79", "title": "A response is returned only when the connection ends", "statement": "If a response is returned, then the connection has come to an end: the peer closed it or, on an encrypted connection, aborted it or ended it without notice; any other failure is reported as the error it is (or as invalid UTF-8, if the bytes before it are). Reading always comes to an end if the connection does. If the peer keeps the connection open after the response, the call never returns, whatever length the headers announce; and an encrypted response cut off without notice is returned as if complete.", "quantifier": "all bytes, ways to end, plain and encrypted connections", "why_tests_cant": "A test cannot observe that a call never returns, nor all ways to end.", "anchors": ["lib/src/http/stream.rs:read", "lib/src/http/response.rs:from", "lib/src/http/client.rs:send"]}
{"id": "C80", "title": "Every rejected program has a reason", "statement": "If a program is rejected, then at some token of it the message is justified: the tokens before it demand a token of another kind (the message names both kinds), or an expression must start there and cannot, or an integer does not fit into 64 bits, or a float literal is none, or what is called is not a name. Every program that starts with the same tokens up to that one is rejected with the same message.", "quantifier": "all source texts", "why_tests_cant": "Unboundedly many wrong programs.", "anchors": ["lib/src/parser.rs:parse", "lib/src/parser.rs:peek_token_expect", "lib/src/parser.rs:parse_expr", "lib/src/parser.rs:parse_call_expr"]}
{"id": "C81", "title": "The text shown for values", "statement": "Values are shown in the documented form: integers in decimal, text as it is, arrays and maps in brackets with their elements comma separated and marked with their type, map entries in some order. The form with types (used in messages and inside arrays and maps) tells the value: two values whose texts agree, even if followed by something else, are the same up to the order of map entries; arrays and maps are also told by their printed text. Other printed values are not: the integer 1 and the text 1 look the same. Text inside is quoted as in Rust: line breaks, quotes and backslashes escaped, other characters as they are or by their code.", "quantifier": "all values, map iteration orders and choices of characters that need no escaping", "why_tests_cant": "Infinitely many pairs of values.", "anchors": ["lib/src/value.rs:Display", "lib/src/value.rs:Value"]}
{"id": "C82", "title": "Every runtime error has a cause", "statement": "Evaluation fails with a message iff, following the order of evaluation, it comes to an expression whose parts can be evaluated but whose operation is impossible, and the message describes that operation with the values at that point: an unbound name, an index or field of something without, operands of the wrong types, an unknown function or one misused. Calls of requests never fail. A program stops at its first failing expression.", "quantifier": "all expressions, states, worlds and messages", "why_tests_cant": "Unboundedly many programs; requires that no error is lost, replaced or invented.", "anchors": ["lib/src/evaluator.rs:eval_expr", "lib/src/value.rs:Add", "lib/src/native.rs:format", "lib/src/native.rs:length", "lib/src/native.rs:append"]}
{"id": "C83", "title": "Floats are shown with the fewest digits that tell them", "statement": "The text shown for a finite float is a plain decimal numeral (never an exponent), without needless zeros, that rounds to exactly this float; no numeral with fewer digits does, and among those with as few digits none is nearer. Inside arrays and maps the same holds with a decimal point always present and an exponent exactly below 10^-4 and from 10^16 on. Infinities are inf and -inf, zero keeps its sign, and different floats have different texts.", "quantifier": "all binary64 floats", "why_tests_cant": "2^64 floats; shortest correct rounding cannot be tested exhaustively.", "anchors": ["lib/src/value.rs:Display", "lib/src/syntax.rs:Display"]}
{"id": "C84", "title": "The duration shown for a record is exact", "statement": "A duration is shown in the largest of the units s, ms, us and ns that it fills, as the exact decimal number of that unit without trailing zeros; hence different durations have different texts.", "quantifier": "all durations", "why_tests_cant": "Unboundedly many durations.", "anchors": ["lib/src/context.rs:Display for Record"]}
{"id": "C85", "title": "Every abort and every endless loop has a cause", "statement": "Evaluating an expression aborts iff, following the order of evaluation, it comes to an integer operation without result: a division or remainder by zero or of the smallest integer by -1 or, in a build with overflow checks, an operation whose result does not fit into 64 bits or a shift by 64 or more places or by a negative number. It never ends iff it comes to a call of an answered request whose body the parser cannot finish reading. Both may also happen inside the declared assertions of a request, at an operand that comes to such an expression. Nothing else aborts or loops, and what was done up to then is what the expressions before it did.", "quantifier": "all expressions, states and worlds whose clocks do not go back", "why_tests_cant": "Unboundedly many programs; a test cannot observe non-termination.", "anchors": ["lib/src/evaluator.rs:eval_expr", "lib/src/evaluator.rs:eval_call_expr", "lib/src/value.rs:Div", "lib/src/value.rs:Shl", "lib/src/evaluator.rs:eval_unary_expr"]}
{"id": "C86", "title": "What the test command prints and sends, and in which order", "statement": "The output and the requests of a run are those of the top-level expressions followed by those of the test threads, interleaved in any way. Each thread's own part is exactly what its iterations print and send one after the other, an iteration's records or its error message coming after what its body prints; at any moment it is a beginning of that. Nothing comes from threads beyond the number asked for. When the command exits, every thread has made all its iterations, or those before the stop signal, or those before one that failed or crashed, and no others. The statistics are printed once, after everything else, and count the requests of all completed iterations of all threads. Without a test name every test runs once, in its own thread, independently, and the statistics are an empty text.", "quantifier": "all sources, worlds, numbers of threads and iterations, interleavings and stop times", "why_tests_cant": "Unboundedly many interleavings of threads.", "anchors": ["cmd/src/command.rs:test", "cmd/src/command.rs:writer"]}
{"id": "C87", "title": "What is on the disk, at any moment and afterwards", "statement": "With recording on, thread i of a run writes the file PODiiiiii in the record directory and no other: until it starts the file is as before, from then on, even if the process is killed, it holds exactly a header and one block for each iteration the thread has completed, and nothing of earlier contents. If the disk accepts all bytes it is a valid Avro container with the iteration's records in each block. Files of other names, such as those of an earlier run with more threads, are untouched, and without recording all files are. In run-all mode a thread's file has one block once its test ended, also if it failed, and none if it crashed.", "quantifier": "all runs, interleavings, moments, earlier disk contents and record counts", "why_tests_cant": "Unboundedly many interleavings and moments at which a process can be killed.", "anchors": ["cmd/src/command.rs:test", "cmd/src/command.rs:writer", "lib/src/writer.rs:write"]}
{"id": "C88", "title": "The exit status of the test command", "statement": "The test command exits with a failure status iff sources cannot be read, evaluating the top-level expressions aborts, zero threads are asked for, or a record file cannot be created; in the last case no thread from there on does anything, no statistics are printed, and the threads already started may have done part of their work. Everything else exits successfully: syntax errors, top-level errors, an unknown test name (each reported on standard output, nothing being recorded). In particular the status does not tell whether the tests passed: failing assertions, failing iterations and crashing threads all give success.", "quantifier": "all sources, worlds, options, interleavings and file systems", "why_tests_cant": "Every way of running would have to be tried.", "anchors": ["cmd/src/command.rs:test", "cmd/src/main.rs:main"]}
{"id": "C89", "title": "The test command ends", "statement": "No run makes infinitely many steps, whatever the interleaving. From any moment of a run the command can go on to its exit, with no stop signal needed, provided no iteration that is due loops for ever (C85); it is never stuck waiting for its threads, the queue or the statistics.", "quantifier": "all sources, worlds, options, interleavings and moments", "why_tests_cant": "Termination and absence of deadlock over unboundedly many interleavings.", "anchors": ["cmd/src/command.rs:test"]}
{"id": "C90", "title": "When connections are tried and which one is used", "statement": "The addresses of a host are tried in the order of C44: the first at once, each further one 200 ms after the one before or as soon as an earlier attempt is refused, whichever comes first, and none after a connection stands. The connection returned is the one accepted first among the attempts made, at the moment it is accepted. If the first address answers within 200 ms no other is tried. If the k-th address accepts within d, a connection is returned by (k-1)*200 ms + d, whatever the others do. An error is returned only when every address was tried and refused, at the moment of the last refusal. With a connect timeout of l the outcome comes at the latest l after the last attempt can start. Without one, a host all of whose addresses are refused or silent, at least one being silent, is waited for for ever.", "quantifier": "all lists of addresses, answers, answer times and timeouts", "why_tests_cant": "Unboundedly many orders and times of answers; a test cannot observe waiting for ever.", "anchors": ["lib/src/http/stream.rs:connect_happy", "lib/src/http/stream.rs:connect_timeout"]}
{"id": "C91", "title": "What a session does with the bytes it gets", "statement": "An interactive session evaluates the lines entered, in order: bytes up to a line feed, without a carriage return before it, and what follows the last line feed once the input ends. Lines that are not UTF-8 are skipped silently, blank ones ignored; the session exits exactly at a line that is exit and nothing else, and ends with a failure at a line that aborts. When the input has ended or failed without that the session goes on for ever, and what was read of an incomplete line before a failure is lost. The pieces in which the input arrives make no difference. The eval command prints what a session prints for this one line and exits with success unless it aborts, also if the text is wrong.", "quantifier": "all inputs in all pieces, all ways the input ends, all texts and worlds", "why_tests_cant": "Unboundedly many inputs and ways of arriving; a test cannot observe that a session never ends.", "anchors": ["cmd/src/command.rs:repl", "cmd/src/command.rs:eval", "cmd/src/main.rs:main"]}
{"id": "C92", "title": "When standard output cannot be written", "statement": "A print that is refused (a closed pipe, a full disk) ends only the thread that prints. If it is the main thread, while the top-level expressions are evaluated or a mistake is reported, the command exits with a failure status, no thread is ever started and no file is touched. If it is a test thread, that thread stops just before what it could not print; the records of its completed iterations are in its file and in the statistics, those of the broken iteration are in neither although its requests were sent. If it is the statistics, only they are missing. In all these cases the other threads finish as usual and the status is success. At any moment of such a run, as after any end of it, output and files are as in an undisturbed run: each thread's output is a beginning of what it would print and its file holds exactly its completed iterations.", "quantifier": "all sources, worlds, options, interleavings and sets of refused prints", "why_tests_cant": "Unboundedly many interleavings and moments at which output can fail.", "anchors": ["cmd/src/command.rs:test"]}
{"id": "C93", "title": "Which interrupts are caught", "statement": "Once all threads of a named test are started and the handler could be set, an interrupt never kills the command: it only makes the threads stop after their current iteration, with records, statistics and exit as usual. Before that, and at any time when every test runs once, the interrupt kills the process: nothing else is printed, no statistics appear, and the record files hold the completed iterations only (in run-all mode the header alone for a test that has not ended).", "quantifier": "all sources, worlds, options, interleavings and moments of the interrupt", "why_tests_cant": "Unboundedly many moments at which the signal can arrive.", "anchors": ["cmd/src/command.rs:test", "cmd/src/command.rs:handle_interrupt"]}
{"id": "C94", "title": "Without trouble nothing changes, and with it the command still ends", "statement": "A run in which no print is refused, no signal kills and every thread can be started behaves exactly as described in C86 to C89, and every such behaviour occurs. Whatever was refused before, no run makes infinitely many steps, and from any moment before the end the command can go on to its exit without further trouble, provided no iteration that is due loops for ever. If the current directory does not exist the command exits with a failure status before doing anything, even if a path is given.", "quantifier": "all sources, worlds, options, interleavings, sets of refused prints and moments", "why_tests_cant": "Termination and absence of deadlock over unboundedly many interleavings.", "anchors": ["cmd/src/command.rs:test"]}
{"id": "C95", "title": "Floats of up to 15 digits are shown as typed", "statement": "Evaluating a decimal literal with a point, without superfluous zeros, of at most 15 significant digits and within the normal range of floats prints exactly the literal typed. More generally every float that is the nearest one to a number of at most 15 digits, computed or typed, is shown as that number. With 16 digits this fails. No float is ever shown with more than 17 significant digits, and no two texts without superfluous zeros stand for the same number.", "quantifier": "all literals and all 2^64 floats", "why_tests_cant": "All literals and floats would have to be tried.", "anchors": ["lib/src/value.rs:Display for Value", "lib/src/parser.rs:parse_float_literal", "cmd/src/command.rs:eval"]}
{"id": "C96", "title": "When a thread cannot be started", "statement": "If the system refuses to start a thread (too many threads asked for, or the timer or the statistics thread), the command ends with a failure status and nothing happens after that. The threads started before are cut off where they are: their output is a beginning of what they would have printed, and their record files hold exactly their completed iterations. The record file of the thread that failed holds the header alone, those of later threads are not touched, and no statistics are printed. Together with C92 this covers every failure status of a command whose sources load and whose record files can be created.", "quantifier": "all sources, worlds, options, interleavings and moments of the failure", "why_tests_cant": "Unboundedly many interleavings and moments at which the system can run out of threads.", "anchors": ["cmd/src/command.rs:test"]}
{"id": "C97", "title": "What a command line runs", "statement": "`basjoofan test ARGS` runs tests exactly if ARGS is one of the documented spellings of options (`--threads 4`, `--threads=4`, `-t 4`, `-t4`, `-t=4`, letters after `-s`, a name anywhere or after `--`), nothing is given twice and every value makes sense (32-bit counts, durations with unit, non-empty paths); threads and number are 1 unless given. A line has only one reading, and the order in which things are given does not matter. `eval` runs exactly one text, which may start with a hyphen only after `--` (so `eval \"-5\"` is refused); the interactive session starts only without arguments or with a lone `--`. Help or the version is shown only if asked for and is shown whenever help is asked for after well-formed arguments, and the process aborts exactly for a duration beyond 64 bits, after well-formed arguments, in a build with overflow checks. How clap reads an interface is described by the model, not taken from clap's source.", "quantifier": "all command lines", "why_tests_cant": "Unboundedly many command lines and spellings.", "anchors": ["cmd/src/main.rs:Interface", "cmd/src/main.rs:Commands", "cmd/src/main.rs:main", "cmd/src/main.rs:parse_duration"]}
{"id": "C98", "title": "From the command line to output, files and exit status", "statement": "A command line that runs nothing prints no result, sends nothing and leaves all files as they are; the exit status is 2 exactly for a line that is refused. `eval TEXT` does what C97 and the language say about the text: what has been printed and sent is always a beginning of that, status 0 means that all of it happened, status 101 that the evaluation panicked or that the next output was refused, and without trouble it ends if the evaluation does. A literal of at most 15 digits given to `eval` comes back as typed. A session does its lines up to `exit` and then ends with 0. `test` with any spelling of its options ends with status 0 only after every thread has done its share of iterations (or was stopped or cut off by refused output), with the records in files in the directory given by `--record` and statistics exactly if `--stat` was given; if the record files can be created, the status is 101 only if output was refused to the main thread or a thread could not be started; without a current directory it is 101 and nothing happens.", "quantifier": "all command lines, sources, worlds, inputs, interleavings and moments of refused output and signals", "why_tests_cant": "Unboundedly many command lines, programs, inputs and interleavings.", "anchors": ["cmd/src/main.rs:main", "cmd/src/command.rs:repl", "cmd/src/command.rs:eval", "cmd/src/command.rs:test"]}
{"id": "C99", "title": "A session answers every line as soon as it is complete", "statement": "While an interactive session waits for input, every complete line so far has been evaluated, and every one of them that is not blank or unreadable has been answered with at least one line of text, in the order of the lines; a line is never held back until more input arrives. What has been shown does not depend on anything that arrives later: more input only adds to it, and a session that has ended does not change. Once a complete line `exit` has arrived the session does not wait again.", "quantifier": "all inputs, continuations, worlds", "why_tests_cant": "Unboundedly many inputs and continuations; waiting cannot be observed by a test that ends.", "anchors": ["cmd/src/command.rs:repl", "cmd/src/command.rs:eval"]}
{"id": "C100", "title": "What the printed reports tell", "statement": "If no name and no shown value contains a line break, the printed reports of a run determine, request by request and in order, the name, which assertions held and failed, and the duration. The last line of the report of a request always shows its true verdict, name and duration, whatever the values contain; but a response body with line breaks can make one failed request print exactly what two requests print of which the first passed. The text of a reported assertion is what was compared: evaluating that text again in the same place gives the reported result, if both sides can be evaluated and the text has no float or field form that reads differently. A side that cannot be evaluated counts as null, so `statu != 200` with a misspelt name passes.", "quantifier": "all lists of records, scripts, worlds, assertions and states", "why_tests_cant": "All combinations of values, names and assertions would have to be printed and compared.", "anchors": ["lib/src/context.rs:Display for Record", "lib/src/evaluator.rs:eval_call_expr", "cmd/src/command.rs:test"]}
{"id": "C101", "title": "The records are the history of the exchanges", "statement": "Evaluating any script adds one record for every request sent, in the order of sending, and none for anything else. Each record bears the name of a request that was defined at that time, the message sent is that request's template filled in, the request, response, times and error are those of the exchange that took place after exactly the events before it, and its assertions are those declared, judged against that response in a context of its own. Only if the evaluation aborts or never ends may there be a request without a record, and then it is the last one. Names of requests and tests in a source are a letter or underscore followed by letters, digits and underscores, so no name breaks a report line.", "quantifier": "all scripts, worlds, states and executions", "why_tests_cant": "Unboundedly many scripts, nestings of calls and answers of the network.", "anchors": ["lib/src/evaluator.rs:eval_block", "lib/src/evaluator.rs:eval_call_expr", "lib/src/context.rs:push", "lib/src/parser.rs:parse"]}
{"id": "C102", "title": "Exactly which sources are accepted, and as what", "statement": "A source is accepted if and only if its tokens, up to the end of the text, can be read by the grammar: operators by precedence and to the left, the operand of `!` and `-` without binary operators, `[..]` and `.f` applied to what stands before them, a `let` taking the `;` after its value, `;` between expressions optional where the next token does not carry on the expression before it (`let` operands, e.g. `1 + let x = 2; * 3` read as `(1 + let x = 2) * 3`, included). It can be read in at most one way, and the expressions, requests and tests of the accepted source are those of that reading, the last definition of a name counting. So nothing else is accepted, nothing readable is rejected and nothing is dropped.", "quantifier": "all texts", "why_tests_cant": "Unboundedly many token sequences: tests can neither show that none is wrongly accepted nor that none is wrongly rejected.", "anchors": ["lib/src/parser.rs:parse", "lib/src/parser.rs:parse_expr", "lib/src/parser.rs:parse_binary_expr", "lib/src/lexer.rs:segment"]}
{"id": "C103", "title": "Evaluations repeat themselves whatever the order of map entries", "statement": "Rust shows the entries of a map in an order that differs from map to map and from run to run. If in one run of a script no map with more than one entry (alone or inside an array or map) is made into text, then that run is the only one possible: however the entries of maps are ordered, each time anew, every run from the same state with the same network gives the same value, error, panic or endlessness and the same state, prints and messages; the same for a text given to the command, with what it prints. Without the condition this fails: a map with two entries used as a key may or may not be found under an equal map.", "quantifier": "all scripts, texts, states, worlds and all choices of entry order at every display", "why_tests_cant": "The order depends on random seeds that a test cannot set, and all choices would have to be tried.", "anchors": ["lib/src/value.rs:Display for Value", "lib/src/evaluator.rs:eval_map_literal", "lib/src/evaluator.rs:eval_index_expr", "cmd/src/command.rs:eval"]}
{"id": "C104", "title": "Verdicts do not depend on the order of map entries", "statement": "If in one run of a script no map with more than one entry is made into text that is kept in a value or sent (as a key, an index, by `format`, or in a message), then in every run, however map entries are ordered each time they are shown and whatever was printed before, the same value or error results, the same messages are sent, and the same records are made with the same requests, responses, times and errors and the same assertions with the same results: only the texts printed and the two sides of assertions as written may differ. In particular assertions that compare whole maps always come out the same. This assumes that servers do not see what is printed. Without the condition an assertion may pass in one run and fail in the next.", "quantifier": "all scripts, states, worlds and all choices of entry order at every display", "why_tests_cant": "The order depends on random seeds that a test cannot set; a flaky verdict may show once in many runs.", "anchors": ["lib/src/evaluator.rs:eval_call_expr", "lib/src/value.rs:Display for Value", "lib/src/context.rs:Record"]}
{"id": "C105", "title": "How deep the parser's calls nest", "statement": "While a text is parsed at most (b + l + 1) * (12 + r) calls of the recursive parse function are under way at once, where b is the greatest number of brackets open at once, l the number of `let`s and r the longest sequence of `!` and `-`; never more than there are tokens, and so never more than the characters of the text and one. For every text that is accepted at least b - 1 are needed, and every text, accepted or not, that starts with k opening brackets needs k. So flat texts of any length need a small fixed stack, and no stack is enough for all texts: since the code sets no limit, deep nesting in a source or in a response body ends the whole process.", "quantifier": "all texts", "why_tests_cant": "A test shows the depth of one text on one machine's stack; that nothing but brackets, lets and prefix operators costs stack is about all texts.", "anchors": ["lib/src/parser.rs:parse_expr", "lib/src/parser.rs:parse", "lib/src/http/response.rs:to_map"]}
{"id": "C106", "title": "How deep the evaluator's calls nest", "statement": "Evaluating a block never has more calls of the evaluator, the parser and the reader of response bodies under way at once than the height of its expressions, plus the height of the assertions of the requests in scope or one more than the characters of the longest body received, whichever is more; so for a source of n characters and bodies of at most m at most 2n + m + 1. An expression without `if`, `&&` and `||` that evaluates to a value needs its height; a request whose body needs d needs d + 1. No fixed depth is enough: `1+1+...+1` is parsed with at most 12 nested calls but its evaluation needs one for every summand, and for every k there is a server whose answer of k brackets makes a single short request nest more than k calls, so a server can end the process that tests it.", "quantifier": "all scripts, states, worlds and depths", "why_tests_cant": "Unboundedly many scripts and answers; a test cannot survive the overflow it looks for.", "anchors": ["lib/src/evaluator.rs:eval_expr", "lib/src/evaluator.rs:eval_call_expr", "lib/src/http/response.rs:to_map", "lib/src/syntax.rs:eval"]}
{"id": "C107", "title": "How the server marks the end of a response is ignored", "statement": "Whatever headers a response has (any Content-Length, Transfer-Encoding, or none), its body is everything after the empty line up to the end of the connection. So a chunked response is taken with the chunk sizes as part of its body: the body is never the document that was sent, its `json` entry is missing, null or an integer (typically the first chunk size), never the document's object or array, and if a chunk ends inside a character the request fails. An interim response (100 Continue) is taken as the response, the real one as its body. A response that breaks off anywhere between two characters counts as complete: in the body as one with the shorter body and the same status and headers, whatever length was announced, and a connection closed without a byte as a response with status 0.", "quantifier": "all status lines, headers, bodies, chunkings and points of breaking off", "why_tests_cant": "Unboundedly many responses; tests against one server see one framing only.", "anchors": ["lib/src/http/response.rs:from", "lib/src/http/response.rs:to_map"]}
{"id": "C108", "title": "The parser's work grows with the length of the text only", "statement": "Whenever parsing ends, with a result or with an error, the recursive parse function was called and the parser's loops went round at most 3t + 4 times together, where t is the number of tokens, and so at most 3n + 7 times for a text of n characters: no token is tried twice and nesting is not paid for more than once. At least one call or round is made for every expression of the result. A text with `!` after an operand, such as `a!b`, makes the loop go round more often than any number.", "quantifier": "all texts", "why_tests_cant": "A test measures some texts; exponential work in some nesting would show on others.", "anchors": ["lib/src/parser.rs:parse", "lib/src/parser.rs:parse_expr", "lib/src/parser.rs:parse_block_expr"]}
{"id": "C109", "title": "The evaluator's work is bounded by the source and the answers, its values are not", "statement": "If the evaluation of a block comes back, the evaluator was called at most once for every expression in the block, and for every request sent at most once for every expression in its assertions, plus 4m + 7 steps to read its body, m being the longest body in characters. So for a source of n characters there are at most n(n + 4m + 8) calls: there is no loop and no recursion in the language. An expression without `if`, `&&` and `||` that has a value takes at least one call for each of its parts, and a request at least one step for each value in the body received. But ten more characters of source (`let a=a+a;`) double the length of the text a script makes: 10 + 10k characters give a text of 2^k characters, so nothing limits the memory or the size of messages.", "quantifier": "all scripts, states, worlds and numbers k", "why_tests_cant": "Unboundedly many scripts, answers and lengths.", "anchors": ["lib/src/evaluator.rs:eval_expr", "lib/src/evaluator.rs:eval_call_expr", "lib/src/evaluator.rs:eval_block", "lib/src/http/response.rs:to_map", "lib/src/value.rs:Add for Value"]}
{"id": "C110", "title": "Renaming variables and requests changes nothing else", "statement": "Take any program and give its variables new names, everywhere they are bound, read or named by a placeholder, and its requests new names, where they are defined and called, so that no two variables and no two requests become one and the names of the built-in functions are neither taken nor given away. Then it does the same: the same requests with the same bytes, the same output, the same value, the same error up to the names in it, the same records up to the names of the requests. The names in assertions are those of the response and must stay.", "quantifier": "all programs, states, networks and renamings", "why_tests_cant": "Unboundedly many programs and renamings.", "anchors": ["lib/src/evaluator.rs:eval_expr", "lib/src/evaluator.rs:eval_call_expr", "lib/src/context.rs:Context"]}
{"id": "C111", "title": "When statements may be swapped or left out", "statement": "Two neighbouring statements may be swapped, with the same outcome, output, requests, records and variables at the end of the program, if both succeed, neither reads or sets a variable the other sets (counting the placeholders of the requests called) and at least one makes no calls. A statement that makes no calls and succeeds may be left out if nothing later reads the variables it sets. Neither holds without these conditions: two calls can be told apart by their order, and a statement that fails stops the program.", "quantifier": "all programs, states and networks", "why_tests_cant": "Unboundedly many programs and states.", "anchors": ["lib/src/evaluator.rs:eval_block", "lib/src/evaluator.rs:eval_expr", "lib/src/evaluator.rs:eval_let_expr"]}
{"id": "C112", "title": "A variable may be replaced by the expression it was bound to", "statement": "If a program binds a variable to an expression without calls and lets that has a value there, and later sets neither the variable nor a variable of the expression, and calls no request with a placeholder for it, then writing the expression in parentheses wherever the variable is read, and leaving out the binding, gives the same outcome, output, requests, records and other variables. A placeholder reads the variable itself, so there the replacement changes what is sent.", "quantifier": "all programs, expressions, states and networks", "why_tests_cant": "Unboundedly many programs and expressions.", "anchors": ["lib/src/evaluator.rs:eval_block", "lib/src/evaluator.rs:eval_ident_expr", "lib/src/evaluator.rs:eval_let_expr", "lib/src/evaluator.rs:eval_call_expr"]}
{"id": "C113", "title": "Which laws of arithmetic expressions obey", "statement": "`+` and `*` of numbers, floats included, and `^`, `|`, `&` of integers give the same either way round. For integers `+ * ^ | &` may be regrouped, `*` distributes over `+` and `-`, `a - b` is `a + -b`, `a - (b - c)` is `a - b + c`, `a - b + b` and `--a` are `a`: always in builds without overflow checks, however often results wrap, and in builds with checks whenever neither side aborts. One side alone may abort, as with `(a + 1) + -1` for the largest integer. The bit operators obey the laws of Boolean algebra, with `!` as complement. Shifting by b and then by c is shifting by b + c as long as that is below 64; from 64 on the two differ. Joining strings may be regrouped and the empty string changes nothing; strings and numbers never mix. For floats `a - b` is `a + -b` and `--a` is `a`, but sums cannot be regrouped: `0.1 + 0.2 + 0.3`.", "quantifier": "all values and builds", "why_tests_cant": "A test tries a few numbers; wrapping, promotion and rounding make laws fail at others.", "anchors": ["lib/src/value.rs:Add for Value", "lib/src/value.rs:Sub for Value", "lib/src/value.rs:Mul for Value", "lib/src/value.rs:BitXor for Value", "lib/src/value.rs:Shl for Value", "lib/src/evaluator.rs:eval_unary_expr", "lib/src/evaluator.rs:eval_binary_expr"]}
{"id": "C114", "title": "Which laws the logical operators obey", "statement": "`||` and `&&` may each be regrouped whatever their operands are and do, calls included. On values of any types they are idempotent, absorb each other and distribute over each other, although the result is one of the operands and not a Boolean. Operands may not be swapped. If the value of `a` is not an integer, `!(a && b)` is `!a || !b`, `!(a || b)` is `!a && !b`, `!!a` says whether `a` counts as true, and `if (!a)` with its arms exchanged is `if (a)`. For an integer these can fail, because `!` then flips its bits and the result counts as true.", "quantifier": "all expressions, values, states and networks", "why_tests_cant": "Unboundedly many expressions and values.", "anchors": ["lib/src/evaluator.rs:eval_binary_expr", "lib/src/evaluator.rs:eval_unary_expr", "lib/src/evaluator.rs:eval_if_expr"]}
{"id": "C115", "title": "What a program reads before it sets it is all that matters", "statement": "Call a variable needed by a program if it may be read, by name or by a placeholder of a request called, before it is surely set: a `let` inside one arm of an `if`, or on the right of `||` or `&&`, is not sure. Two runs that start with the same values for the needed variables and meet the same network send the same requests, print the same, record the same and have the same value or error, whatever the other variables hold. Hence the iterations of a test whose body sets no variable it needs are independent: none is affected by what earlier ones left behind, and against a server that answers equal requests equally all have the same records and messages. If the body reads a variable and then changes it, as a counter does, iterations differ.", "quantifier": "all programs, states, networks and numbers of iterations", "why_tests_cant": "Unboundedly many programs, states and iterations.", "anchors": ["lib/src/evaluator.rs:eval_block", "lib/src/evaluator.rs:eval_expr", "lib/src/evaluator.rs:eval_let_expr", "lib/src/evaluator.rs:eval_ident_expr", "lib/src/evaluator.rs:eval_call_expr", "cmd/src/command.rs:test"]}
{"id": "C116", "title": "An assertion passes exactly if it is true of the response", "statement": "Suppose an assertion of a request compares a place in the response (`version`, `status`, `reason`, `headers`, `body` or `json`, followed by any number of `.k`, `[\"k\"]` and `[i]`) with a literal number, text or Boolean, the assertions contain no `let`, and, if the place is in `json`, the body is a JSON document or surely none (blank, or beginning with `<` like a page, in which nothing is found). Then it is reported as true exactly if it is true of what is found at that place: `==` if the same is found there, a fraction never being equal to an integer; `!=` otherwise, also if nothing is found; `<`, `>`, `<=`, `>=` if something of the same sort is found that is so ordered, a fraction and an integer as numbers, texts by their bytes. Of several members of one name the last counts, headers are arrays of all values under the exact name sent. Nothing can be asserted about negative numbers: with `{\"n\": -5}`, `json.n == -5` and `json.n < 0` are reported as false.", "quantifier": "all scripts, states, networks, responses, places and literals", "why_tests_cant": "Unboundedly many documents, places and literals.", "anchors": ["lib/src/evaluator.rs:eval_call_expr", "lib/src/evaluator.rs:eval_index_expr", "lib/src/evaluator.rs:eval_field_expr", "lib/src/http/response.rs:to_map", "lib/src/syntax.rs:eval", "lib/src/value.rs:PartialOrd for Value"]}
{"id": "C117", "title": "A program typed into a session line by line does what its text does", "statement": "Take a program whose lines are complete by themselves, every expression ending in `;`, and in which no request is defined on a later line than one that calls it, and servers that cannot see what is printed. Evaluating its text and entering its lines one after another in an interactive session have the same effects: the same messages in the same order, the same variables and records, and the same output, to which the session adds one answer after each line that is not blank; the last answer is the value of the text. If the text fails, the session up to and including the line that fails has the same effects and that line is answered with the error; the session then goes on with the next line. If a request is called before the line that defines it the two differ: the text finds the definition, the session does not.", "quantifier": "all programs, networks and numbers of lines", "why_tests_cant": "Unboundedly many programs and ways of splitting them.", "anchors": ["cmd/src/command.rs:repl", "cmd/src/command.rs:eval", "lib/src/parser.rs:parse", "lib/src/evaluator.rs:eval_block", "lib/src/context.rs:extend"]}
{"id": "C118", "title": "Builds with and without overflow checks behave alike until the former aborts", "statement": "Debug builds check integer arithmetic for overflow, release builds do not. Given the same text, the same input and servers that answer alike, a build with checks and one without print the same, send the same messages, and end with the same value or error, exit status, variables and records, or else the build with checks aborts; then all that it printed and sent is the beginning of what the other prints and sends. This holds of evaluating a text, of an interactive session, of what the test command does before its threads start and of reading durations. For the threads of a test: every execution with checks in which no thread aborts is one without checks, with the same states, record files and statistics, and if no execution with checks makes a thread abort, both builds have the same executions.", "quantifier": "all programs, inputs, networks, numbers of threads and schedules", "why_tests_cant": "Tests run in one build, and unboundedly many programs and schedules would have to be compared.", "anchors": ["lib/src/value.rs:Add for Value", "lib/src/value.rs:Shl for Value", "lib/src/evaluator.rs:eval_unary_expr", "lib/src/evaluator.rs:eval_expr", "cmd/src/command.rs:eval", "cmd/src/command.rs:repl", "cmd/src/command.rs:test", "cmd/src/main.rs:parse_duration"]}
{"id": "C119", "title": "Programs whose operands surely have the right types never fail", "statement": "Say of an expression what its value may be: calling a request that is defined and whose assertions contain no `let` gives an answer with an integer `status`, texts `version`, `reason` and `body` and a map `headers`, whatever the server answers and if nothing answers; of two integers `+ - * / % ^ | & << >>` give an integer, of numbers one of which is a fraction `+ - * / %` give a fraction, `+` of two texts a text, comparisons of anything a Boolean; variables are known that were set before, after `if` those that both arms set; `print`, `println` and `format` need a literal format with as many placeholders as there are values, `length` a text, array or map, `append` an array; elements and fields of arrays and maps may be anything. If every operand, argument, indexed value and variable is known to be of a kind that its use allows, the program gives no run-time error, whatever servers answer, and its value is what was said of it. If moreover it uses no operator that can abort, clocks are steady and bodies readable, it runs to its end; so do all iterations of a test if each knows afterwards what was known before; and a suite whose setup and tests are such is set up and all its tests run to their end. A field of `json` of an answer is not known: `r.json.n` fails if the body is empty.", "quantifier": "all programs, states, networks and iterations", "why_tests_cant": "Unboundedly many programs and answers.", "anchors": ["lib/src/evaluator.rs:eval_block", "lib/src/evaluator.rs:eval_expr", "lib/src/evaluator.rs:eval_call_expr", "lib/src/evaluator.rs:eval_unary_expr", "lib/src/evaluator.rs:eval_binary_expr", "lib/src/evaluator.rs:eval_field_expr", "lib/src/native.rs:format", "lib/src/http/response.rs:to_map", "cmd/src/command.rs:test"]}
{"id": "C120", "title": "A test does the same by its name and among all tests, unless it fails", "statement": "Let a test be run by its name, each thread once, without being interrupted, and let it be run together with all other tests, the servers answering alike. Both runs having ended, the test has printed and sent the same, in the same order, and its record files hold the same records, except if an iteration ends with an error: then the requests made before it are reported and recorded when all tests are run, but neither reported nor recorded when the test is run by its name.", "quantifier": "all suites, tests, numbers of threads, schedules and servers", "why_tests_cant": "Unboundedly many suites, schedules and answers.", "anchors": ["cmd/src/command.rs:test", "lib/src/context.rs:records", "lib/src/writer.rs:write"]}
{"id": "C121", "title": "Layout does not matter", "statement": "If two texts differ only in blanks outside quotations (blanks replaced by other blanks, or added or removed at the ends, beside `, ; : ( ) { } [ ]`, or before a quotation), they have the same tokens, are parsed to the same program or the same error, and behave alike: as a line of a session, as the argument of `eval`, and as the sources of a suite, whatever is run from them. Elsewhere blanks matter: inside quotations, between `<` and `=`, and a session is left by the line `exit` but not by ` exit`.", "quantifier": "all texts and layouts", "why_tests_cant": "Unboundedly many texts.", "anchors": ["lib/src/lexer.rs:segment", "lib/src/parser.rs:parse", "cmd/src/command.rs:repl", "cmd/src/command.rs:test"]}
{"id": "C122", "title": "Tests keep doing what they did when a suite grows", "statement": "Let tests, requests and further top-level expressions at the end be added to a suite, no new request having the name of a function called before and no new expression setting a variable that a given test reads, both suites loading without error. Then that test prints and sends the same as before in every thread, and writes the same records, whether it is run by its name without interruption or among all tests, the servers answering alike. Adding a file does this to a suite of files that are complete by themselves, at any place if it has definitions only. A new request that has the name of a function in use, even of a built-in one, changes the tests that call it.", "quantifier": "all suites, additions, tests, threads, schedules and servers", "why_tests_cant": "Unboundedly many suites and additions.", "anchors": ["cmd/src/command.rs:test", "cmd/src/command.rs:read", "lib/src/evaluator.rs:eval_call_expr", "lib/src/parser.rs:parse", "lib/src/context.rs:extend"]}
{"id": "C123", "title": "A request arrives as written in the suite, with the texts of the variables filled in", "statement": "Write a suite of lines `let x = \"text\";`, a request in the usual form (method, address and version, header lines, an empty line, the body; placeholders anywhere, none stretching over lines) and a call of it. Evaluating the text sends exactly one message. Run as a test by any number of threads, every message sent is that one; threads not asked for and the main thread send nothing, and a run that ends uninterrupted, every exchange coming to an end, sends it once per iteration of every thread. If address, headers and body lines after filling in have the usual form and the content type is neither that of a form nor multipart, the bytes written are the method, the path of the filled address and the version, the filled header lines, an empty line, and the filled body lines joined without line breaks. The text of a variable is the last one given, `null` without one; texts filled in are not themselves filled in; braces that are no placeholders stay, as those of a JSON body.", "quantifier": "all names, texts, requests of this form, numbers of threads, schedules and servers", "why_tests_cant": "Unboundedly many texts and requests; the way leads through lexer, parser, evaluator, template filling, request parser and writer.", "anchors": ["lib/src/lexer.rs:segment", "lib/src/parser.rs:parse", "lib/src/evaluator.rs:eval_call_expr", "lib/src/http/request.rs:from", "lib/src/http/request.rs:write", "cmd/src/command.rs:test", "cmd/src/command.rs:eval"]}
{"id": "C124", "title": "What the unary operators do to every value", "statement": "If an expression has a value, `!` of it has one too: true for `null` and false, for an integer z the integer -z-1, and false for everything else, texts, arrays and maps being empty or not. `-` of an integer is that of C11; of a fraction it is the number with the other sign, zeros and infinities included, and not-a-number stays so; of anything else it is the error `unknown operator: -` followed by the value. Neither has an effect of its own.", "quantifier": "all expressions, states and values", "why_tests_cant": "Unboundedly many values.", "anchors": ["lib/src/evaluator.rs:eval_unary_expr"]}
{"id": "C125", "title": "A report says PASS exactly if its assertions are true of what the server sent", "statement": "Let every assertion of a request compare, by one of the six comparisons, a place in the response (its version, status, reason, headers, body or JSON document, and fields and indexes from there) with a literal; where the document is meant, the body is one or surely none (blank or beginning with `<`). Then a call of the request, its exchange having ended and its response having become variables, succeeds and appends one record, whose report begins with the name of the request and ends with `--- PASS`, the name and the duration if each comparison is true of the response, and with `--- FAIL` instead if one is not; it never reads PASS otherwise. The response is what the server's bytes say: status line, header lines, empty line, body. So it is for every report of every thread of a run that has ended, which is printed, the assertions being those of the request in the suite.", "quantifier": "all suites, requests with such assertions, responses, threads, schedules and servers", "why_tests_cant": "Unboundedly many assertions and responses; verdicts come about in lexer, parser, response reader, JSON reader, evaluator and report.", "anchors": ["lib/src/evaluator.rs:eval_call_expr", "lib/src/http/response.rs:from", "lib/src/http/response.rs:to_map", "lib/src/context.rs:fmt", "cmd/src/command.rs:test"]}
{"id": "C126", "title": "What a test run prints follows from the text of the suite and what the server sends", "statement": "Let the text of a suite be: variables (`let x = \"v\";`), a request whose template is followed by assertions in brackets, each a place in the response (a name, then fields, keys in quotes and indexes), one of the six comparisons and a literal (digits, digits with a point, true or false, a text in quotes), and a test that makes the request. In a run of that test that has ended, every exchange being answered and bodies being JSON documents or surely none (blank or beginning with `<`) if there are assertions about `json`, each thread has done nothing but rounds: it sends the template with the variables filled in, and prints a report about the response to that very message. The report has the name of the request, then one line for each assertion in the order of the suite, then the verdict and the duration. The line shows the assertion as in the suite (numbers in their usual form: `[01]` is shown as `[1]`, `1.50` as `1.5`), the part of the response found at the place (`null` if there is none; texts without quotes), the comparison, the literal, and true or false, which is true exactly if the comparison is true of what was found. The verdict is PASS exactly if all of them are true, else FAIL. Uninterrupted, there are as many rounds as the share of the thread, else not more. The response is what the bytes of the server say.", "quantifier": "all such suites (any number of variables and assertions), servers, responses, numbers of threads and rounds, and schedules", "why_tests_cant": "Unboundedly many texts, responses and schedules; the claim spans lexer, parser, evaluator, template, client, response and JSON reader, report and threads.", "anchors": ["lib/src/lexer.rs:segment", "lib/src/parser.rs:parse_request_literal", "lib/src/syntax.rs:fmt", "lib/src/evaluator.rs:eval_call_expr", "lib/src/http/response.rs:to_map", "lib/src/context.rs:fmt", "cmd/src/command.rs:test"]}
{"id": "C127", "title": "What a response says can be sent in the next request", "statement": "Let a suite have two requests with assertions and a test `{ let x = first().part...; second() }`, which takes something out of the first response (its status, reason, headers, body or a place in its JSON document) and whose second template may have `{x}`. In a run that has ended, every exchange being answered and each first response having a null, truth value, number or text at that place, every thread goes through the test as often as its share says (if not interrupted), and each time it sends the first message, then the second template filled in with the text of what this very response has at the place (numbers in their usual form, texts without quotes), then prints the report of the first and of the second request, each about its own response. If instead nothing is at the place, either the variable is null and shown as `null`, or the test stops there and sends nothing more.", "quantifier": "all such suites, servers (which may answer differently each time), responses, places, numbers of threads and rounds, and schedules", "why_tests_cant": "Unboundedly many suites, responses and schedules; values pass from the network through JSON reader, evaluator and template back to the network.", "anchors": ["lib/src/evaluator.rs:eval_call_expr", "lib/src/evaluator.rs:eval_let_expr", "lib/src/evaluator.rs:eval_index_expr", "lib/src/evaluator.rs:eval_field_expr", "lib/src/http/response.rs:to_map", "cmd/src/command.rs:test"]}
{"id": "C128", "title": "Which request is made next follows from what a response says", "statement": "Let a suite have three requests with assertions and a test `{ if (first().place op literal) { second() } else { third() } }`, where the place is a part of the response or a place in its JSON document and op one of ==, !=, <, >, <=, >=. In a run that has ended, every exchange being answered and each first response having something at the place, every thread goes through the test as often as its share says (if not interrupted), and each time it sends the first message and then the second message if the comparison is true of this very response and otherwise the third, never both; then it prints the reports of the two requests made, in this order, each about its own response. Whether the comparison is true of the response is the same as for an assertion with the same text.", "quantifier": "all such suites, servers (which may answer differently each time), responses, places, comparisons, literals, numbers of threads and rounds, and schedules", "why_tests_cant": "Unboundedly many suites, responses and schedules; which requests are made depends on what the network answers.", "anchors": ["lib/src/evaluator.rs:eval_if_expr", "lib/src/evaluator.rs:eval_binary_expr", "lib/src/evaluator.rs:eval_call_expr", "lib/src/evaluator.rs:eval_field_expr", "lib/src/parser.rs:parse_if_expr", "cmd/src/command.rs:test"]}
{"id": "C129", "title": "What suites with any number of requests and tests send and print", "statement": "Let a suite consist of `let` lines with texts, any number of requests with assertions (of different names) and any number of tests (of different names), each making any sequence of these requests, possibly the same one several times. If every exchange is answered (with bodies that are JSON documents or surely none where `json` is asserted about; and the record files, if wanted, can be created), then in every schedule the test command can always come to its end with exit status 0; and when it has ended: with the name of a test, every thread has gone through it as often as its share says (if not interrupted), each time sending all messages of the sequence in order and then printing one report per request in the same order; without a name, there is exactly one thread for each test, in some order, that has done this once, and nothing else was done by any thread. Each report is about the response to that very request: a line per assertion as written, what was found, what was expected, the truth, and PASS exactly if all assertions are true of the response.", "quantifier": "all such suites, servers (which may answer differently each time), numbers of threads and rounds, ways of recording, and schedules", "why_tests_cant": "Unboundedly many suites, responses and schedules; mixing up of requests, responses, reports or tests shows only in some of them.", "anchors": ["cmd/src/command.rs:test", "lib/src/evaluator.rs:eval_call_expr", "lib/src/evaluator.rs:eval_block", "lib/src/parser.rs:parse", "lib/src/lexer.rs:segment"]}
{"id": "C130", "title": "The statistics count every request made and sum up the durations reported", "statement": "For a suite as in C129 whose requests are answered, a test run by its name with statistics prints, after everything else and exactly once, one line for each request made: the name, how many reports there were about it, and the sum, the average (rounded down), the maximum and the minimum of the whole milliseconds of the durations that these very reports show, over all threads and rounds. If the run was not interrupted, the number of reports about a request is the number of threads times the rounds of a thread times how often the test makes it; a request that is not made has no line.", "quantifier": "all such suites, servers, durations of exchanges, numbers of threads and rounds, orders in which the records reach the statistics, and schedules", "why_tests_cant": "Whether a record is lost or counted twice depends on the schedule of threads, channel and shutdown; unboundedly many suites and durations.", "anchors": ["cmd/src/command.rs:test", "lib/src/stat.rs:Stat::add", "lib/src/stat.rs:Stats::add", "lib/src/context.rs:Display for Record"]}
{"id": "C131", "title": "The record file of a thread tells what the thread sent, received and printed", "statement": "For a suite as in C129 whose requests are answered, run with recording into files that take what is written and stay below 2^63 bytes, every thread leaves a file which is an Avro object container of uncompressed blocks whose schema is that of a record. It has one block for each time the thread went through its test, in order, and the block has one record for each request of the test, in order: the name of the test, the number of the thread, of the time through (from 0) and of the request (from 0), the request as sent, the very response it got, the durations of this exchange, and the assertions, such that the report which the thread printed about this request is the one these stored assertions and this stored duration give. (Arrays in a record are stored as a number and the items, without the end mark Avro wants, see C49.) This holds for a test run by name in any number of threads and for running all tests, where each test has its own file with one block.", "quantifier": "all such suites, servers, durations below 292 years, numbers of threads and rounds, interruptions, and schedules", "why_tests_cant": "Unboundedly many suites, responses and schedules; a record that is stored twice, in the wrong file, under the wrong number or with another response shows only in some of them, and unit tests of the encoder do not run threads.", "anchors": ["cmd/src/command.rs:test", "lib/src/writer.rs:write", "lib/src/evaluator.rs:eval_call_expr", "lib/src/context.rs:Display for Record"]}
{"id": "C132", "title": "The report about a request depends on nothing but its response and the duration", "statement": "For suites as in C129 whose requests are answered there is, for one build and one order of map entries, a text for each request (its name and assertions) and each response, fixed once and for all, such that in every run of every such suite every report printed about this request, having got this response, is this text followed by the duration in parentheses. So neither the test, the thread, the round, other requests, other responses, earlier reports, the variables, the number of threads, recording, statistics, an interruption nor the schedule have an influence on what a report says.", "quantifier": "all such suites, servers, runs, threads, rounds and schedules, compared with each other", "why_tests_cant": "It compares two arbitrary runs with each other, over unboundedly many suites, histories and schedules; state leaking from one request into another shows only in some of them.", "anchors": ["lib/src/evaluator.rs:eval_call_expr", "lib/src/context.rs:Display for Record", "lib/src/http/response.rs:to_map", "cmd/src/command.rs:test"]}
{"id": "C133", "title": "Requests without a response are reported as if about an empty one", "statement": "If the connection is not made, the request cannot be written or what comes back is no response, then the call gives the response with status 0 and empty version, reason, headers and body, the total duration 0, and the error as text in the record. If this is so for every request of a suite as in C129, then the test command still comes to its end with exit status 0, and what every thread sends and prints is fixed by the suite, whatever the errors are and whichever thread meets which: each time through the test all messages in order, then one report per request, with the duration `0ns` and the lines of the assertions judged for the empty response. The error is not printed. So `status == 200` fails, but a request without assertions, or with `body != \"no\"` or `json.error != \"x\"`, is reported as PASS although the server was never reached.", "quantifier": "all such suites, kinds and texts of errors, numbers of threads and rounds, and schedules", "why_tests_cant": "Unboundedly many suites, errors and schedules, and unit tests need a network that fails in the wanted way; it is a claim that two different failures cannot be told apart in the output.", "anchors": ["lib/src/http/client.rs:send", "lib/src/evaluator.rs:eval_call_expr", "lib/src/context.rs:Display for Record", "cmd/src/command.rs:test"]}
{"id": "C134", "title": "The order of files and of definitions does not matter", "statement": "What the test command can be seen doing depends on its sources only through the sequence of top-level expressions and the request and test defined last under every name: if two sources agree in these, then whatever a run with the one does up to any moment, in any schedule, interrupted or not, failing or not, some run with the other does as well: the same prints and requests in the same order by the same threads, the same files, the same end with the same exit status (given no name, provided the map of tests happens to be gone through in the same order, which is possible as both hold the same tests). So files that are complete in themselves (as in C71) and define no name in common may be renamed and thus come in another order, as long as those with top-level expressions keep their order; if at most one has any, in any order at all. The definitions within a source, having different names, may be permuted and put anywhere between the expressions. If two files define the same request, renaming them changes which one is sent.", "quantifier": "all sources, files, directories, networks, arguments, schedules and moments", "why_tests_cant": "A simulation between unboundedly many executions of two processes.", "anchors": ["lib/src/parser.rs:66-95", "cmd/src/command.rs:49-161", "cmd/src/command.rs:163-182"]}
{"id": "C135", "title": "Whether a text stands in a template or in a variable does not matter", "statement": "Let two suites come to the same output and requests when loaded, and let their tests of the same name do the same each time they are gone through (same output, requests, records and ending, whatever was sent and answered before). Then whatever a run with the one does up to any moment, in any schedule, some run with the other does as well: the same prints and requests in the same order by the same threads, the same files, the same end. So a variable of fixed text, which the tests do not set, may be written out in the templates of the requests, or a text moved from templates into a variable, whatever the tests and top-level expressions are otherwise; a variable that is then nowhere mentioned may be left out. For suites as in C129 nothing but the names, the assertions and the messages with all variables filled in can be seen: the variables and the templates may be any that give these. If a test sets the variable, or if its text has a placeholder in it, writing it out changes what is sent.", "quantifier": "all suites, variables, templates, networks, arguments, schedules and moments", "why_tests_cant": "A simulation between unboundedly many executions of two processes; unit tests fix one suite.", "anchors": ["lib/src/evaluator.rs:eval_call_expr", "lib/src/context.rs", "cmd/src/command.rs:49-161"]}
{"id": "C136", "title": "Recording and statistics change nothing else", "statement": "Whatever a run of the test command prints and sends up to any moment, in any schedule, interrupted or not, apart from the statistics themselves: with recording or statistics switched on or off, or with another record directory, pod name or order of the statistics, some run prints and sends the same, in the same order, by the same threads, and has come to the same end with the same exit status if the first has. So neither option makes a test do, leave out or reorder anything, nor keeps the process from ending, nor takes part in the exit status. Without recording no file is touched, whatever else is done. All this provided the record files can be created: if one cannot, the run with recording may fail with an exit status other than 0, which no run without it does once it has come to starting threads; what it has printed and sent until then some run without recording does as well.", "quantifier": "all suites, networks, arguments, record directories, schedules and moments", "why_tests_cant": "A simulation, in both directions, between unboundedly many executions of processes with different threads and files; unit tests see one schedule at a time.", "anchors": ["cmd/src/command.rs:49-161", "cmd/src/command.rs:184-194", "lib/src/writer.rs:write", "lib/src/stat.rs"]}
{"id": "C137", "title": "Threads do not wait for each other: every order of their doings is possible, and no other output", "statement": "Let the answers each thread gets depend on what it has sent itself only, let the record files be creatable, and let there be no more than 2^32 tests when all are run. All runs with the same arguments agree about every thread: of what a thread prints and sends in two runs, one is the beginning of the other, and a run that has ended without having been interrupted contains all that any run ever prints and sends. Moreover whatever a run does up to any moment, interrupted or not, it prints and sends first what comes before the tests, and for every other order of the remaining prints and requests, in which each thread keeps its own order, there is a run that prints and sends exactly this, and ends with the same exit status if the first has ended. So what the runs that end undisturbed print and send, apart from the statistics, are exactly all the interleavings of one list per thread: nothing about the order between threads may be relied on, everything else may.", "quantifier": "all suites, networks, arguments, with and without recording and statistics, all schedules, moments and interleavings", "why_tests_cant": "An exact description of the set of all outputs, over unboundedly many schedules; a hidden lock, queue or shared state between the threads would only make some interleavings impossible, which no test can notice.", "anchors": ["cmd/src/command.rs:76-161", "lib/src/context.rs", "lib/src/evaluator.rs:eval_call_expr"]}
{"id": "C138", "title": "Nothing depends on answers that have not been given", "statement": "Let a program print and send a list T of things first, with one network, and let another network give the same answers to those requests in T that come before its end. Then with the other network the program prints and sends T first as well; and if the two networks answer all requests of a whole evaluation alike, then the evaluation has the same outcome and leaves the same state, whatever the networks would have answered otherwise. The same holds for runs of the test command: whatever has been printed and sent up to any moment, by all threads, in whichever order, and whether it was interrupted or not, can be printed and sent with any other servers that have answered the earlier requests of each thread alike; if the run has ended and all its requests are answered alike, then there is such a run that has ended with the same exit status. So requests are sent and reports printed before, and without regard to, what later answers may be: nothing is looked up ahead, repeated or taken back.", "quantifier": "all programs, suites, networks, arguments, schedules and moments", "why_tests_cant": "It compares all networks that agree up to an arbitrary moment; a test fixes one network, and would not notice a request being sent early or twice in some of them.", "anchors": ["lib/src/evaluator.rs:eval_call_expr", "lib/src/evaluator.rs:eval_block", "lib/src/http/client.rs:send", "cmd/src/command.rs:76-161"]}
{"id": "C139", "title": "Threads that talk to one server meet through it only", "statement": "Let one server answer the requests of all threads, each answer depending in any way on all that was sent and printed before by any thread. A run of the test command against this server can at every moment be continued by whatever step the program can take, and the request this sends, if any, then has the answer of this server; if the record files can be created and no body is one that hangs the client (C42), then it can be continued to the end. And the server and the order in which the threads act determine everything: if of two runs with the same arguments against the same server, with or without recording and statistics, one has the threads act in an order that is the beginning of that of the other, then all that it prints and sends is the beginning of what the other does, by the same threads, with the same texts and messages. So besides the order there is nothing random in a run, and no other way for a thread to influence another. Against such a server, other than in C137, what a thread does may depend on the order: the first thread to come may be answered otherwise.", "quantifier": "all suites, servers with any memory common to the threads, arguments, schedules and moments", "why_tests_cant": "Unboundedly many schedules and servers; races through shared state of the program would show up only as rare differences between runs, which tests cannot tell from those the server makes.", "anchors": ["cmd/src/command.rs:76-161", "lib/src/context.rs", "lib/src/evaluator.rs:eval_call_expr", "lib/src/http/client.rs:send"]}
{"id": "C140", "title": "No run makes more requests than its arguments and the suite allow", "statement": "Whatever the servers answer, with any schedule, up to any moment, interrupted or not: running a named test, a thread makes at most as many requests as its share of the rounds, number / threads, times the calls written in the body of the test; all threads together at most the number of rounds asked for times those calls (2^32 - 1 rounds if a duration is given), besides at most one request per call written in the top-level expressions. Running all tests, a thread makes at most one request per call written in its test. Once a run of a named test has been interrupted, or its duration is over, each thread makes at most as many further requests as calls are written in the test. So no answer or error makes a thread repeat a request, assertions never send any, and the load put on a server is known beforehand. The bound is reached.", "quantifier": "all suites, networks, arguments, schedules and moments", "why_tests_cant": "A bound over unboundedly many executions, networks and numbers of rounds; a retry in a rare case of failure would escape tests.", "anchors": ["cmd/src/command.rs:49-161", "lib/src/evaluator.rs:eval_call_expr", "lib/src/http/client.rs:send"]}
{"id": "C141", "title": "Longer runs begin like shorter ones, and every thread does what a single one does", "statement": "Compare any two runs of the test command with the same suite and test name, but with any number of threads, rounds or duration, with or without recording and statistics, and in each of them a thread, both meeting servers that answer a thread alike. At any two moments what the one thread has printed and sent is the beginning of what the other has, or the other way round. If the first run has come to its end uninterrupted and the share of rounds of its threads is not less than that of the other, then what the other thread has done is the beginning of what the first has done; and if both recorded with equal success in writing, and the other run has ended, too, then so is the content of its record file. In particular each of several threads does exactly what the only thread of a run with number / threads rounds does. So trying out a test with one thread and few rounds shows how every thread of a long run will begin.", "quantifier": "all suites, tests, networks, pairs of arguments, threads, schedules and moments", "why_tests_cant": "It relates unboundedly many pairs of executions; a test compares single runs.", "anchors": ["cmd/src/command.rs:76-161", "cmd/src/command.rs:184-194", "lib/src/context.rs", "lib/src/writer.rs:write"]}
{"id": "C142", "title": "How long answers take changes nothing but the durations shown", "statement": "Compare servers that give the same answers, or the same errors, to the same sequence of messages, but take different times for it, by any clocks that do not run backwards. Whatever run of the test command is possible against the one is possible against the other, step by step: at the same stage or with the same exit status, the threads having sent the same messages and printed the same texts in the same order among them, but for the duration at the end of each report, with statistics of the same lines and counts though other times, and with the same files existing on disk. So assertions, branches, templates, what is sent, verdicts and the exit status never depend on how fast the servers are; a suite cannot pass on a fast network and fail on a slow one as long as the bytes are the same, and there is no way to write a test of response times.", "quantifier": "all suites, arguments, schedules, moments and pairs of networks that differ in their times only", "why_tests_cant": "It relates all pairs of executions with different timings; a test sees the timing of one machine.", "anchors": ["lib/src/evaluator.rs:eval_call_expr", "lib/src/http/client.rs:send", "lib/src/context.rs:Display", "cmd/src/command.rs:49-161"]}
{"id": "C143", "title": "Adding assertions changes nothing but the lines of reports and their verdicts", "statement": "Take a suite and put into the lists of its requests, anywhere, further comparisons of things that only look at the response: names, fields, indexes, literals, parentheses, !, comparisons, && and ||, and length. Against servers that answer by the messages they get, every run of the old suite is possible with the new one, step by step, and the other way round: at the same stage or with the same exit status, the same messages sent and the same texts printed by the same threads in the same order, the same statistics, the same files. Only the reports have the added lines at their places besides the old ones, unchanged; a report that said FAIL still does, and one that said PASS says FAIL exactly if one of the added lines says false. It does not matter whether what is looked at exists: the line then shows null. This does not hold of assertions that set variables: such a variable is part of what the call gives to the test.", "quantifier": "all suites, added assertions, networks, arguments, schedules and moments", "why_tests_cant": "It relates all executions of unboundedly many pairs of suites.", "anchors": ["lib/src/evaluator.rs:eval_call_expr", "lib/src/context.rs:Display", "cmd/src/command.rs:49-161"]}
{"id": "C144", "title": "The names of tests choose and label, nothing else", "statement": "Give the tests of a suite other names, all still different. Running a test by its new name, or all tests in the corresponding order, allows exactly the runs that the old suite has: the same messages sent and the same texts printed, statistics included, by the same threads in the same order, with the same exit status and the same record files existing, at every moment. Nothing that is printed tells the name of a test; the record files do, so what is in them may differ.", "quantifier": "all suites, new names, networks, arguments, schedules and moments", "why_tests_cant": "It relates all executions of unboundedly many pairs of suites.", "anchors": ["cmd/src/command.rs:49-161", "lib/src/writer.rs:write", "lib/src/parser.rs:parse"]}
{"id": "C145", "title": "One round tells the whole run", "statement": "Suppose the servers answer equal requests equally at all times, and no round of a test reads a variable that an earlier round of it has set. Then whatever the schedule, each thread of a run of that test does exactly what the first round does, again and again: at any moment its messages and texts are whole copies of the first round and a beginning of one more, never more than its share. When the run has ended without being interrupted, each thread has done its share of rounds exactly, its record file holds that many copies of the first round's records, and the statistics are those of the first round's requests times the number of rounds of all threads. If the first round fails, each thread does that one round, prints its error (a panic prints none to the output) and stops; the record files hold nothing but the header and the statistics are empty.", "quantifier": "all suites, tests that carry nothing over, networks that answer equal requests equally, arguments, schedules and moments", "why_tests_cant": "It is about all rounds, threads and schedules of unboundedly many suites.", "anchors": ["cmd/src/command.rs:49-161", "lib/src/evaluator.rs:eval_block", "lib/src/stat.rs:add", "lib/src/writer.rs:write"]}
{"id": "C146", "title": "A test body that does the same can take the place of another in every run", "statement": "Say that one body serves as another if, from states whose variables differ at most in an agreed way, it sends, prints and records the same things, ends alike (success, the same error message, or abort) and leaves variables that differ at most in that way again. Exchanging the bodies of tests, and the statements outside of tests, for ones that serve as them allows exactly the same runs: the same log of messages and texts, statistics included, in the same order, the same exit status and record files equal byte by byte, at every moment, for any number of threads and rounds, by name or all tests together. Such exchanges can be chained, and made in parts of a body. One of them is to leave out a statement that calls nothing and cannot fail, and whose variables the rest does not read. Another is to move such a statement past one with which it shares no variables, even if that one may fail.", "quantifier": "all suites, bodies, agreed differences, networks, arguments, schedules and moments", "why_tests_cant": "It lifts an equivalence of single evaluations to all executions with threads, rounds and files.", "anchors": ["cmd/src/command.rs:49-161", "lib/src/evaluator.rs:eval_block", "lib/src/writer.rs:write"]}
{"id": "C147", "title": "Whole test runs are the same in debug and release builds as long as nothing panics", "statement": "Take a test file whose statements outside of tests evaluate without error in a build that checks integer overflow. Every run of the test command in that build, followed up to any moment at which no test thread has panicked, or at which the command has neither printed the statistics nor ended successfully, is also a run of the build without checks, with the same stage of the command, everything printed and sent so far in the same order by the same threads, the same answer whether the run has been stopped and the same files on disk. (So a thread that panics has done nothing by then that it would not do in the other build.) Conversely, if no run of the checking build makes a thread panic, then every run of the other build, at every moment, is a run of the checking one in the same sense. That no thread panics is sure if neither the tests nor the assertions of requests use `/`, `%`, `+`, `-`, `*`, `<<` or `>>` and the clock does not go backwards during an exchange, whatever the servers answer.", "quantifier": "all test files, chosen tests, numbers of threads and rounds, limits of time, recording or not, networks, schedules and moments, including interruptions, files that cannot be created and writes that fail", "why_tests_cant": "Tests run in one build at a time; the schedules of threads of two builds cannot be made the same, nor all of them tried.", "anchors": ["lib/src/value.rs:Add for Value", "lib/src/value.rs:Shl for Value", "lib/src/evaluator.rs:eval_unary_expr", "cmd/src/command.rs:test"]}
