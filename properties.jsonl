{"id": "C01", "title": "Token streams are always in whitespace-canonical form", "statement": "Whatever sequence of items, appends, space/push/line/indent/unindent calls built a token stream, the stream never holds two adjacent spaces, two adjacent line-break markers (push/line in any combination), a space followed by a push, whitespace immediately before an indentation change, two adjacent indentation changes, or an indentation change of zero.", "quantifier": "every finite history of public builder calls on a fresh stream", "why_tests_cant": "the set of histories is infinite and the bad adjacency only arises from particular interleavings of pops and pushes", "anchors": ["src/tokens/tokens.rs:space", "src/tokens/tokens.rs:push", "src/tokens/tokens.rs:line", "src/tokens/tokens.rs:indentation", "src/tokens/tokens.rs:item"]}
{"id": "C02", "title": "Content is never lost, duplicated or reordered by the builder", "statement": "The non-whitespace items of a stream (literals, language items, registrations, quote and eval markers) are exactly the ones supplied, in the order supplied, for any interleaving with whitespace calls; only spacing and indentation items may be merged or dropped.", "quantifier": "every finite history of builder calls", "why_tests_cant": "whitespace calls pop from the end of the stream; that they never pop content has to hold for every prefix", "anchors": ["src/tokens/tokens.rs:push", "src/tokens/tokens.rs:line", "src/tokens/tokens.rs:indentation", "src/tokens/tokens.rs:extend"]}
{"id": "C03", "title": "Net indentation is preserved", "statement": "The sum of the indentation changes stored in a stream equals the number of indent calls minus unindent calls (plus explicitly supplied indentation items), at every point of every history.", "quantifier": "every finite history of builder calls", "why_tests_cant": "merging of adjacent indentation changes depends on arbitrary preceding whitespace", "anchors": ["src/tokens/tokens.rs:indent", "src/tokens/tokens.rs:unindent", "src/tokens/tokens.rs:indentation"]}
{"id": "C04", "title": "Walking imports yields exactly the language items", "statement": "Iterating the imports of a stream terminates and yields every language item and every registered item ever appended, each exactly once per append, most recent first, and nothing else.", "quantifier": "every history of appends, registrations, extends and whitespace calls, and every nesting of streams appended into streams", "why_tests_cant": "the iteration follows a linked list threaded through positions of the item vector, which whitespace calls shrink and regrow; the link invariant must hold after every operation", "anchors": ["src/tokens/tokens.rs:walk_imports", "src/tokens/tokens.rs:WalkImports", "src/tokens/tokens.rs:lang_item", "src/tokens/tokens.rs:lang_item_register"]}
{"id": "C05", "title": "Appending a stream equals replaying its items; rebuilding is the identity", "statement": "Appending a stream B to a stream A gives the same stream as performing on A the calls that built B; consequently appending is associative, the empty stream is neutral and collecting the items of a stream gives back an equal stream with equal import links.", "quantifier": "all streams A, B, C built by any histories", "why_tests_cant": "the already merged whitespace of B meets the trailing whitespace of A, so every combination of tails and heads matters", "anchors": ["src/tokens/tokens.rs:extend", "src/tokens/tokens.rs:from_iter", "src/tokens/format_into.rs:FormatInto for Tokens", "src/tokens/format_into.rs:FormatInto for &Tokens"]}
{"id": "C06", "title": "Algebra of whitespace requests", "statement": "On any stream: space, push and line are idempotent; push after line changes nothing; line after push equals line; push discards preceding spaces; space/push/line before an indent or unindent are discarded.", "quantifier": "every reachable stream", "why_tests_cant": "the effect is defined by a pop loop over an arbitrary tail", "anchors": ["src/tokens/tokens.rs:space", "src/tokens/tokens.rs:push", "src/tokens/tokens.rs:line", "src/tokens/tokens.rs:indentation"]}
{"id": "C07", "title": "Indent followed directly by unindent is neutral", "statement": "Calling indent and then unindent with nothing appended in between leaves the rendering of the stream unchanged, also when a space, push or line was already requested.", "quantifier": "every reachable stream", "why_tests_cant": "depends on which whitespace is pending at the end of an arbitrary stream", "anchors": ["src/tokens/tokens.rs:indentation"]}
{"id": "C08", "title": "Composite values append as the concatenation of their parts", "statement": "Appending a vector, slice, copy-on-write slice, option, string-like value, number, quoted value, register tuple, closure or displayable value is the same as appending its parts in order; in particular an absent option or empty collection leaves the stream untouched, and the text appended by each string-like value is exactly its text.", "quantifier": "all values of the modelled value types, nested to any depth, and all streams they are appended to", "why_tests_cant": "values nest without bound", "anchors": ["src/tokens/format_into.rs", "src/tokens/quoted.rs", "src/tokens/register.rs", "src/tokens/display.rs", "src/tokens/static_literal.rs", "src/tokens/from_fn.rs"]}
{"id": "C09", "title": "No indentation overflow within the documented range", "statement": "If the absolute values of all indentation changes requested in a history add up to at most 32767, no 16-bit indentation counter overflows (no panic, no wrap-around), neither while building nor while formatting.", "quantifier": "every finite history of builder calls whose requested changes sum to at most 32767 in absolute value", "why_tests_cant": "the intermediate sums depend on merging order; overflow needs tens of thousands of calls", "anchors": ["src/tokens/tokens.rs:indentation", "src/fmt/formatter.rs:indentation"]}
{"id": "C10", "title": "Rendering is determined by the gaps between visible texts", "statement": "For a stream of texts, language items and whitespace, the output is the concatenation of the visible texts, each preceded by a separator that depends only on the whitespace between it and the previous visible text: two newlines if a line was requested there, else one newline if a push or indentation change was, else nothing; after newlines (or at the very start) the indentation of the current level; then one space per space requested after the last effective break. Whitespace after the last visible text produces no output.", "quantifier": "all item sequences without quotes, all formatter configurations", "why_tests_cant": "whitespace is accumulated lazily in formatter state across arbitrary runs of items", "anchors": ["src/fmt/formatter.rs:flush_whitespace", "src/fmt/formatter.rs:format_cursor", "src/fmt/formatter.rs:push", "src/fmt/formatter.rs:line", "src/fmt/formatter.rs:space", "src/fmt/formatter.rs:indentation"]}
{"id": "C11", "title": "No trailing whitespace", "statement": "If no visible text ends in a blank or contains a newline, then no line of the output ends in a blank, whatever whitespace was requested.", "quantifier": "all item sequences without quotes, all configurations", "why_tests_cant": "requires that pending spaces are dropped at every possible line break and at the end of output", "anchors": ["src/fmt/formatter.rs:push", "src/fmt/formatter.rs:line", "src/fmt/formatter.rs:flush_whitespace"]}
{"id": "C12", "title": "At most one blank line, never at the start or end", "statement": "If the visible texts contain no newline, the output never starts or ends with an empty line and never has two consecutive empty lines, and every blank line is completely empty.", "quantifier": "all item sequences without quotes, all configurations", "why_tests_cant": "must hold for arbitrarily long runs of line requests interleaved with invisible items", "anchors": ["src/fmt/formatter.rs:line", "src/fmt/formatter.rs:push", "src/fmt/formatter.rs:flush_whitespace"]}
{"id": "C13", "title": "Each line is indented by the current level", "statement": "Every output line begins with exactly max(0, net indentation requested so far) indentation units: n blanks per level, or one tab per level, followed by the explicitly requested spaces; negative levels render as zero. This is exact for any level and width, however large.", "quantifier": "all item sequences without quotes, all indentation levels and widths", "why_tests_cant": "padding is written in bounded chunks by a loop; exactness must hold for every size", "anchors": ["src/fmt/formatter.rs:flush_whitespace", "src/fmt/formatter.rs:indentation", "src/fmt/config.rs:Indentation"]}
{"id": "C14", "title": "Line-ending configuration only affects line separators", "statement": "Changing the configured newline string replaces exactly the line separators emitted by the formatter and changes nothing else; changing the indentation style changes only leading whitespace of lines.", "quantifier": "all item sequences, all newline strings and indentation styles", "why_tests_cant": "a relation between two runs over every input", "anchors": ["src/fmt/config.rs", "src/fmt/formatter.rs:flush_whitespace", "src/fmt/fmt_writer.rs"]}
{"id": "C15", "title": "String and line-vector outputs agree", "statement": "Formatting to a string gives the lines of formatting to a vector joined with newlines; formatting to a file string gives the same with exactly one trailing newline; both succeed or fail together.", "quantifier": "all token streams, languages and language configurations", "why_tests_cant": "two different writer implementations driven by the same formatter over every input", "anchors": ["src/tokens/tokens.rs:to_string", "src/tokens/tokens.rs:to_vec", "src/tokens/tokens.rs:to_file_string", "src/tokens/tokens.rs:to_file_vec", "src/fmt/vec_writer.rs", "src/fmt/fmt_writer.rs"]}
{"id": "C16", "title": "Byte output is the UTF-8 encoding of text output", "statement": "Formatting to an I/O sink writes exactly the UTF-8 encoding of what formatting to a string produces.", "quantifier": "all token streams, configurations and all Unicode texts", "why_tests_cant": "relates two writers over every input and every code point", "anchors": ["src/fmt/io_writer.rs", "src/fmt/fmt_writer.rs"]}
{"id": "C17", "title": "Sink failures are reported and leave a prefix", "statement": "If the sink fails at any write, formatting returns an error, nothing is written afterwards, and what reached the sink is a prefix of the output a non-failing sink would have received; if no write fails the full output is delivered.", "quantifier": "every stream, every failure point and every failure behaviour of the sink", "why_tests_cant": "crash points are unbounded and every call site must propagate the error", "anchors": ["src/fmt/formatter.rs:write_str", "src/fmt/formatter.rs:flush_whitespace", "src/fmt/formatter.rs:format_cursor", "src/fmt/formatter.rs:write_trailing_line"]}
{"id": "C18", "title": "Registered imports never render", "statement": "Registering an import affects only the import header: removing the registrations from a stream does not change its rendering, and registering between two pieces of code does not change how they are laid out.", "quantifier": "all streams and all positions of registrations", "why_tests_cant": "registrations can sit between any two whitespace requests", "anchors": ["src/fmt/formatter.rs:format_cursor", "src/tokens/tokens.rs:lang_item_register", "src/tokens/register.rs"]}
{"id": "C19", "title": "Formatting succeeds exactly on well-formed quote structure", "statement": "Formatting to an infallible sink fails if and only if the stream violates the quote/eval discipline: closing a quote that is not open, opening or closing an evaluation outside a quote or evaluation, or opening an evaluating quote inside a quote. All streams produced by quoting values and string interpolation format successfully.", "quantifier": "all item sequences (acceptance), all nestings of quoted values and interpolated strings (success)", "why_tests_cant": "acceptance is defined by a stack machine with lookahead over arbitrary sequences", "anchors": ["src/fmt/formatter.rs:format_cursor", "src/fmt/formatter.rs:quoted_quote", "src/fmt/cursor.rs"]}
{"id": "C20", "title": "Files end in exactly one line terminator", "statement": "A file string always ends with a newline written after the last visible text, with all pending whitespace dropped; a stream without visible text produces a file consisting of the header (if any) and a single newline.", "quantifier": "all streams and languages", "why_tests_cant": "pending whitespace of any shape must be discarded", "anchors": ["src/tokens/tokens.rs:format_file", "src/fmt/formatter.rs:write_trailing_line"]}
{"id": "C21", "title": "Layout of an API history", "statement": "The text produced by any history of append/space/push/line/indent/unindent calls is the texts in order, where the separator between two consecutive texts is determined by a small automaton over just the calls made between them (blank line, newline plus indentation, one space, or nothing).", "quantifier": "every finite history of builder calls with non-empty texts", "why_tests_cant": "composes builder-side merging with formatter-side accumulation over arbitrary histories", "anchors": ["src/tokens/tokens.rs:item", "src/fmt/formatter.rs:format_items"]}
{"id": "C22", "title": "Quoting round-trips: Rust", "statement": "For Rust: the quoted form of a string, read back by the target language's own lexical rules for string literals, denotes the original string, and the literal ends exactly where genco ends it.", "quantifier": "all Unicode strings, and any text following the literal", "why_tests_cant": "all of Unicode, and escapes interact with the character that follows them", "anchors": ["src/lang/rust.rs:write_quoted"]}
{"id": "C23", "title": "Quoting round-trips: Swift", "statement": "For Swift: the quoted form of a string, read back by the target language's own lexical rules for string literals, denotes the original string, and the literal ends exactly where genco ends it.", "quantifier": "all Unicode strings, and any text following the literal", "why_tests_cant": "all of Unicode, and escapes interact with the character that follows them", "anchors": ["src/lang/swift.rs:write_quoted"]}
{"id": "C24", "title": "Quoting round-trips: Java", "statement": "For Java: the quoted form of a string, read back by the target language's own lexical rules for string literals, denotes the original string, and the literal ends exactly where genco ends it (including Java's early translation of unicode escapes).", "quantifier": "all Unicode strings, and any text following the literal", "why_tests_cant": "all of Unicode, and escapes interact with the character that follows them", "anchors": ["src/lang/java/mod.rs:write_quoted"]}
{"id": "C25", "title": "Quoting round-trips: JavaScript (plain strings)", "statement": "For JavaScript (plain strings): the quoted form of a string, read back by the target language's own lexical rules for string literals, denotes the original string, and the literal ends exactly where genco ends it.", "quantifier": "all Unicode strings, and any text following the literal", "why_tests_cant": "all of Unicode, and escapes interact with the character that follows them", "anchors": ["src/lang/js.rs:write_quoted"]}
{"id": "C26", "title": "Quoting round-trips: JavaScript (template literals used for interpolation)", "statement": "For JavaScript (template literals used for interpolation): the quoted form of a string, read back by the target language's own lexical rules for string literals, denotes the original string, and the literal ends exactly where genco ends it.", "quantifier": "all Unicode strings, and any text following the literal", "why_tests_cant": "all of Unicode, and escapes interact with the character that follows them", "anchors": ["src/lang/js.rs:write_quoted", "src/lang/js.rs:open_quote"]}
{"id": "C27", "title": "Quoting round-trips: Dart", "statement": "For Dart: the quoted form of a string, read back by the target language's own lexical rules for string literals, denotes the original string, and the literal ends exactly where genco ends it.", "quantifier": "all Unicode strings, and any text following the literal", "why_tests_cant": "all of Unicode, and escapes interact with the character that follows them", "anchors": ["src/lang/dart/mod.rs:write_quoted"]}
{"id": "C28", "title": "Quoting round-trips: Python", "statement": "For Python: the quoted form of a string, read back by the target language's own lexical rules for string literals, denotes the original string, and the literal ends exactly where genco ends it.", "quantifier": "all Unicode strings, and any text following the literal", "why_tests_cant": "all of Unicode, and escapes interact with the character that follows them", "anchors": ["src/lang/python.rs:write_quoted", "src/lang/mod.rs:c_family_write_quoted"]}
{"id": "C29", "title": "Quoting round-trips: Go", "statement": "For Go: the quoted form of a string, read back by the target language's own lexical rules for string literals, denotes the original string, and the literal ends exactly where genco ends it.", "quantifier": "all Unicode strings, and any text following the literal", "why_tests_cant": "all of Unicode, and escapes interact with the character that follows them", "anchors": ["src/lang/go.rs:write_quoted", "src/lang/mod.rs:c_family_write_quoted"]}
{"id": "C30", "title": "Quoting round-trips: C", "statement": "For C: the quoted form of a string, read back by the target language's own lexical rules for string literals, denotes the original string, and the literal ends exactly where genco ends it.", "quantifier": "all Unicode strings, and any text following the literal", "why_tests_cant": "all of Unicode, and escapes interact with the character that follows them", "anchors": ["src/lang/c.rs:write_quoted", "src/lang/mod.rs:c_family_write_quoted"]}
{"id": "C31", "title": "Quoting round-trips: C#", "statement": "For C#: the quoted form of a string, read back by the target language's own lexical rules for string literals, denotes the original string, and the literal ends exactly where genco ends it.", "quantifier": "all Unicode strings, and any text following the literal", "why_tests_cant": "all of Unicode, and escapes interact with the character that follows them", "anchors": ["src/lang/csharp/mod.rs:write_quoted", "src/lang/mod.rs:c_family_write_quoted"]}
{"id": "C32", "title": "Quoting round-trips: Nix", "statement": "For Nix: the quoted form of a string, read back by the target language's own lexical rules for string literals, denotes the original string, and the literal ends exactly where genco ends it.", "quantifier": "all Unicode strings, and any text following the literal", "why_tests_cant": "all of Unicode, and escapes interact with the character that follows them", "anchors": ["src/lang/nix.rs:write_quoted", "src/lang/mod.rs:c_family_write_quoted"]}
{"id": "C33", "title": "Quoted output alphabet", "statement": "Quoted strings never contain a raw control character or an unescaped double quote, in any language; for C, C#, Go, Nix, Python and Java they consist of printable ASCII only.", "quantifier": "all Unicode strings, all languages", "why_tests_cant": "must hold for every code point", "anchors": ["src/lang/mod.rs:c_family_write_quoted", "src/lang/java/mod.rs:write_quoted", "src/lang/rust.rs:write_quoted"]}
{"id": "C34", "title": "Quoting a quoted value escapes once per level", "statement": "Interpolating a quoted value inside a string literal yields a literal whose content is the source form of the inner literal; quoting can be nested to any depth.", "quantifier": "all strings, all nesting depths, all languages", "why_tests_cant": "nesting depth is unbounded and the inner formatter is a fresh one reading from the same cursor", "anchors": ["src/fmt/formatter.rs:quoted_quote", "src/tokens/quoted.rs"]}
{"id": "C35", "title": "String interpolation structure", "statement": "An interpolated string renders as opening quote, then for each constant part its escaped text and for each evaluated part the language's evaluation syntax around its (unescaped) rendering, then the matching closing quote, nested to any depth; JavaScript uses backticks exactly when the string has evaluations, Dart uses $name for a single literal and ${...} otherwise. A language that overrides none of the methods for strings shows double quotes around strings and nothing around evaluations.", "quantifier": "all interpolated strings, nested to any depth", "why_tests_cant": "nesting and part lists are unbounded", "anchors": ["src/fmt/formatter.rs:format_cursor", "src/lang/js.rs:open_quote", "src/lang/js.rs:close_quote", "src/lang/js.rs:start_string_eval", "src/lang/dart/mod.rs:string_eval_literal"]}
{"id": "C36", "title": "C includes", "statement": "The header of a C file contains one include line per distinct (path, system) pair used anywhere in the file, angle brackets exactly for system includes, sorted, and no other lines; the header is independent of the order and multiplicity of uses.", "quantifier": "all multisets and orders of imports used or registered in a stream", "why_tests_cant": "the header is computed from sets built by walking an arbitrary stream", "anchors": ["src/lang/c.rs:imports", "src/lang/c.rs:format_file"]}
{"id": "C37", "title": "C# using directives and qualification", "statement": "Every C# type reference in the body denotes the intended type under the generated using directives and the file namespace: either it is written qualified, or its simple name is imported unambiguously; there is one using line per namespace, sorted, and none for the file's own namespace.", "quantifier": "all multisets and orders of imports used or registered in a stream", "why_tests_cant": "the header is computed from sets built by walking an arbitrary stream", "anchors": ["src/lang/csharp/mod.rs:imports", "src/lang/csharp/mod.rs:format_file"]}
{"id": "C38", "title": "Dart imports", "statement": "Every Dart import used (except dart:core) is imported exactly once per distinct path and alias, sorted, nothing else is imported, and references are prefixed by the alias exactly when one is given.", "quantifier": "all multisets and orders of imports used or registered in a stream", "why_tests_cant": "the header is computed from sets built by walking an arbitrary stream", "anchors": ["src/lang/dart/mod.rs:imports", "src/lang/dart/mod.rs:format_file"]}
{"id": "C39", "title": "Go imports", "statement": "Every Go package used is imported exactly once, sorted, nothing else is imported, and references are written with the last path element of the package as qualifier.", "quantifier": "all multisets and orders of imports used or registered in a stream", "why_tests_cant": "the header is computed from sets built by walking an arbitrary stream", "anchors": ["src/lang/go.rs:imports", "src/lang/go.rs:format_file"]}
{"id": "C40", "title": "Java imports and qualification", "statement": "Every Java class reference in the body denotes the intended class under the generated import statements and package: no two import statements bind the same simple name, conflicting names are written fully qualified, java.lang and same-package classes are not imported.", "quantifier": "all multisets and orders of imports used or registered in a stream", "why_tests_cant": "the header is computed from sets built by walking an arbitrary stream", "anchors": ["src/lang/java/mod.rs:imports", "src/lang/java/mod.rs:format_file"]}
{"id": "C41", "title": "JavaScript imports", "statement": "Every JavaScript name referenced in the body is bound by the generated import statements to the intended export (named, aliased, default or wildcard), with one import statement per module for named imports and one per wildcard.", "quantifier": "all multisets and orders of imports used or registered in a stream", "why_tests_cant": "the header is computed from sets built by walking an arbitrary stream", "anchors": ["src/lang/js.rs:imports", "src/lang/js.rs:format_file"]}
{"id": "C42", "title": "Nix arguments and bindings", "statement": "Every Nix variable, inherit and argument referenced is bound in the generated file header: as a function argument, a let binding, an inherit or a with.", "quantifier": "all multisets and orders of imports used or registered in a stream", "why_tests_cant": "the header is computed from sets built by walking an arbitrary stream", "anchors": ["src/lang/nix.rs:imports", "src/lang/nix.rs:format_file"]}
{"id": "C43", "title": "Python imports", "statement": "Every Python name referenced in the body is bound by the generated import statements to the intended object; one from-import per module, one import per module or alias, sorted, nothing else.", "quantifier": "all multisets and orders of imports used or registered in a stream", "why_tests_cant": "the header is computed from sets built by walking an arbitrary stream", "anchors": ["src/lang/python.rs:imports", "src/lang/python.rs:format_file"]}
{"id": "C44", "title": "Rust use declarations", "statement": "Every Rust path referenced in the body has its first segment bound by the generated use declarations (or names a crate root), to the intended item; there is one use declaration per module, sorted; nothing unused is declared.", "quantifier": "all multisets and orders of imports used or registered in a stream", "why_tests_cant": "the header is computed from sets built by walking an arbitrary stream", "anchors": ["src/lang/rust.rs:imports", "src/lang/rust.rs:format_file"]}
{"id": "C45", "title": "Swift imports", "statement": "The Swift header contains one import line per distinct module used, sorted, and nothing else.", "quantifier": "all multisets and orders of imports used or registered in a stream", "why_tests_cant": "the header is computed from sets built by walking an arbitrary stream", "anchors": ["src/lang/swift.rs:imports", "src/lang/swift.rs:format_file"]}
{"id": "C46", "title": "Headers do not depend on order or repetition of uses", "statement": "Two streams that use the same set of imports, in any order and any number of times, get the same import header.", "quantifier": "all multisets and orders of imports used or registered in a stream", "why_tests_cant": "a relation between two streams over all permutations", "anchors": ["src/lang/*:format_file", "src/tokens/tokens.rs:walk_imports"]}
{"id": "C47", "title": "Imports are deduplicated by their text", "statement": "The same import given once as a static string and once as an owned string is imported once.", "quantifier": "all multisets and orders of imports used or registered in a stream", "why_tests_cant": "requires equality of import keys to be equality of text for every representation", "anchors": ["src/tokens/item_str.rs:ItemStr", "src/lang/*:format_file"]}
{"id": "C48", "title": "Header and body are separated and the body is unchanged", "statement": "A generated file is the header lines, then (if there are any) one blank line, then exactly the rendering the body has on its own (indented one level inside the C# namespace block), then one newline.", "quantifier": "all streams, languages and configurations", "why_tests_cant": "whitespace at the head of an arbitrary body meets the header's trailing line", "anchors": ["src/lang/*:format_file", "src/tokens/tokens.rs:format_file"]}
{"id": "C49", "title": "Doc and block comments", "statement": "Comment helpers emit each supplied line, in order, each on its own line with the language's comment prefix; an empty list emits nothing.", "quantifier": "all lists of comment lines", "why_tests_cant": "list length is unbounded", "anchors": ["src/lang/csharp/comment.rs", "src/lang/java/block_comment.rs", "src/lang/dart/doc_comment.rs"]}
{"id": "C50", "title": "quote! leaves indentation balanced", "statement": "The code generated by the quoting macro emits as many unindents as indents: quoting never changes the net indentation of the target stream.", "quantifier": "all macro inputs accepted by the macro, all source positions", "why_tests_cant": "source layouts are unbounded", "anchors": ["genco-macros/src/encoder.rs:finalize", "genco-macros/src/encoder.rs:tokenize_whitespace"]}
{"id": "C51", "title": "quote! spacing rule", "statement": "Two tokens on the same source line produce a space between them exactly when at least one column separates them, regardless of how many.", "quantifier": "all token sequences and positions", "why_tests_cant": "positions are arbitrary", "anchors": ["genco-macros/src/encoder.rs:from", "genco-macros/src/encoder.rs:tokenize_whitespace"]}
{"id": "C52", "title": "quote! line rule", "statement": "Tokens on different source lines are separated by a line break, and by exactly one blank line when at least one empty source line lies between them.", "quantifier": "all accepted token sequences and positions", "why_tests_cant": "positions are arbitrary", "anchors": ["genco-macros/src/encoder.rs:tokenize_whitespace"]}
{"id": "C53", "title": "quote! indentation rule", "statement": "A line starting further right than the previous one is indented one level deeper; a line starting further left returns to the level of an enclosing line with the same start column; a start column matching no enclosing level is rejected at compile time.", "quantifier": "all token sequences and positions", "why_tests_cant": "the stack of known columns is unbounded", "anchors": ["genco-macros/src/encoder.rs:tokenize_whitespace", "genco-macros/src/encoder.rs:step"]}
{"id": "C54", "title": "quote! reproduces the source layout", "statement": "For a block of plain tokens accepted by the macro, the rendered text has one line per non-empty source line with the same words, single-spaced where the source had gaps, indented by the nesting depth of its start column, with runs of empty lines collapsed to one.", "quantifier": "all accepted layouts of plain tokens", "why_tests_cant": "end-to-end over unbounded source layouts", "anchors": ["genco-macros/src/encoder.rs", "src/tokens/tokens.rs", "src/fmt/formatter.rs"]}
{"id": "C55", "title": "Static text coalescing", "statement": "Adjacent static tokens are merged into one literal without changing the rendered text; static text is flushed before any whitespace request or dynamic value, so order is preserved.", "quantifier": "all encoder inputs", "why_tests_cant": "interleavings are unbounded", "anchors": ["genco-macros/src/static_buffer.rs", "genco-macros/src/encoder.rs"]}
{"id": "C56", "title": "Loops with join", "statement": "A joined loop over n elements produces the n bodies with exactly n-1 separators between them and none at either end.", "quantifier": "all n, all bodies and separators", "why_tests_cant": "n is unbounded", "anchors": ["genco-macros/src/encoder.rs:encode_repeat"]}
{"id": "C57", "title": "Control flow in quotes", "statement": "Conditionals and matches emit exactly the tokens of the selected branch, absent else branches emit nothing, let bindings emit nothing, scopes emit exactly what their code appends.", "quantifier": "all quotes nested to any depth, all runtime environments", "why_tests_cant": "nesting is unbounded", "anchors": ["genco-macros/src/encoder.rs:encode_condition", "genco-macros/src/encoder.rs:encode_match", "genco-macros/src/encoder.rs:encode_scope", "genco-macros/src/encoder.rs:encode_let"]}
{"id": "C58", "title": "Interpolated strings keep source spacing", "statement": "Inside $[str](...) the constant text equals the source text, including the exact number of blanks between tokens and at both ends; line breaks are rejected.", "quantifier": "all token sequences and positions inside a string", "why_tests_cant": "positions are arbitrary", "anchors": ["genco-macros/src/string_parser.rs:StringParser"]}
{"id": "C59", "title": "Macro-generated strings are well formed", "statement": "The quote and evaluation markers emitted for any interpolated string are balanced and flagged as evaluating exactly when an evaluation is present, so formatting them never fails.", "quantifier": "all interpolated strings nested to any depth", "why_tests_cant": "nesting is unbounded", "anchors": ["genco-macros/src/string_parser.rs", "genco-macros/src/encoder.rs:encode_quoted"]}
{"id": "C60", "title": "quote_in! equals appending quote!", "statement": "Quoting into a target stream gives the same stream as quoting into a fresh stream and appending the result.", "quantifier": "all macro inputs and all target streams", "why_tests_cant": "target tails are arbitrary", "anchors": ["genco-macros/src/quote_in.rs", "genco-macros/src/lib.rs:quote"]}
{"id": "C61", "title": "The grammar of quotes", "statement": "The macro reads a token sequence as the documented grammar says, accepting exactly the inputs of that grammar and nothing else: escapes, variables, expressions, conditions, loops with join, matches with guards and the three kinds of arms, bindings, scopes, controls, strings, literals and groups, each nested in any other.", "quantifier": "all sequences of token trees, for any way Rust expressions and patterns are read", "why_tests_cant": "inputs and their nesting are unbounded; acceptance must be compared with a grammar in both directions", "anchors": ["genco-macros/src/quote.rs:Quote::parse_inner", "genco-macros/src/quote.rs:parse_internal_function", "genco-macros/src/string_parser.rs:StringParser"]}
{"id": "C62", "title": "Tokens stand for themselves", "statement": "Tokens other than dollar signs and string literals stand for themselves at any bracket depth, so a quote made of them renders the lines of its source; with every dollar sign doubled any token sequence without string literals can be quoted and yields its own text.", "quantifier": "all sequences of token trees", "why_tests_cant": "inputs and bracket depth are unbounded", "anchors": ["genco-macros/src/quote.rs:Quote::parse_inner", "genco-macros/src/quote.rs:Quote::parse_group"]}
{"id": "C63", "title": "Interpolation at any depth", "statement": "A variable interpolated within any number of brackets is evaluated exactly there, between the tokens that precede and follow it. A dollar sign in front of a word is such a variable unless the word is a keyword of Rust, a word Rust reserves or the underscore: then both stand for themselves.", "quantifier": "all bracket contexts and surrounding tokens", "why_tests_cant": "depth is unbounded", "anchors": ["genco-macros/src/quote.rs:Quote::parse_inner", "genco-macros/src/string_parser.rs:StringParser::parse"]}
{"id": "C64", "title": "Go references resolve", "statement": "In a generated Go file every reference package.Name denotes the requested name of the requested package: exactly one import declares that package name.", "quantifier": "all multisets and orders of imports used or registered in a stream", "why_tests_cant": "sets of used packages and their names are unbounded", "anchors": ["src/lang/go.rs:imports", "src/lang/go.rs:Import::format"]}
{"id": "C65", "title": "Dart references resolve", "statement": "In a generated Dart file every reference, prefixed or not, denotes the requested declaration of the requested library.", "quantifier": "all multisets and orders of imports used or registered in a stream", "why_tests_cant": "sets of used libraries are unbounded and what they declare is not known to the generator", "anchors": ["src/lang/dart/mod.rs:imports", "src/lang/dart/mod.rs:Import::format"]}
{"id": "C66", "title": "Swift references resolve", "statement": "In a generated Swift file every reference denotes the requested declaration of the requested module.", "quantifier": "all multisets and orders of imports used or registered in a stream", "why_tests_cant": "sets of used modules are unbounded and what they declare is not known to the generator", "anchors": ["src/lang/swift.rs:imports", "src/lang/swift.rs:Import::format"]}
{"id": "C67", "title": "JavaScript module paths lead to the module", "statement": "With a configured module path, the specifier written for an imported path leads from the module path to the imported path, and is one that JavaScript resolves relative to the importing module.", "quantifier": "all module paths and imported paths, all streams", "why_tests_cant": "paths are unbounded, with common prefixes and parent components anywhere", "anchors": ["src/lang/js.rs:render_from", "src/lang/js.rs:Config::with_module_path"]}
{"id": "C68", "title": "Quotes on stable compilers", "statement": "On a compiler that does not tell the line of a token, the byte offsets of the tokens serve as columns of one line: no quote is rejected for its indentation, a quote asks for no line break or indentation unless by what is inserted into it or by explicit controls, its output does not depend on the configured indentation and line terminator, and tokens that stand for themselves are written with exactly one space wherever anything separates them in the source.", "quantifier": "all span texts, all token trees, values, writers and configurations", "why_tests_cant": "inputs are unbounded and the tests run with one kind of compiler only", "anchors": ["genco-macros/src/fake.rs:Buf::find_line_column", "genco-macros/src/fake.rs:Buf::cursor", "genco-macros/src/encoder.rs:Encoder::tokenize_whitespace"]}
{"id": "C69", "title": "Quotes lay out interpolated values in place", "statement": "A quote whose lines consist of text and interpolations (variables, expressions, loops, conditions, streams built elsewhere, references to imported items) renders the lines of its source, indented by level, with one space where words are separated, at most one blank line between lines, and each interpolation replaced by what it shows: values on one line are written in place, values of several lines form a block indented to the level of the line they stand on, and the text that follows continues its last line. In a file these lines follow the header.", "quantifier": "all quotes nested in quotes to any depth, positions, environments and values that show something; values that end at a deeper level than they start end their line, and if they end exactly one level deeper the next line does not start further right directly below them (C70 shows what happens then); all languages and configurations", "why_tests_cant": "values, nesting, positions and numbers of lines are unbounded", "anchors": ["genco-macros/src/encoder.rs:Encoder::step", "genco-macros/src/encoder.rs:Encoder::tokenize_whitespace", "genco-macros/src/ast.rs", "src/tokens/format_into.rs", "src/tokens/tokens.rs", "src/fmt/formatter.rs"]}
{"id": "C70", "title": "Quotes keep the block structure of indentation", "statement": "Read as Python reads indentation, the output of a quote has the block structure of the quote's source relative to its first line: the same lines open and close the same blocks, whatever the configured indentation and line terminator; an interpolated value stands for the blocks of its own lines, also if it is a quote with values in turn; in a Python file the import statements come first and belong to no block. A source whose indentation Python finds inconsistent is rejected.", "quantifier": "all quotes of any number of lines and columns, all values on one or several lines, all indentations but zero spaces, all of the three line terminators", "why_tests_cant": "columns, depths and numbers of lines are unbounded; output must be compared with how another tool reads it", "anchors": ["genco-macros/src/encoder.rs:Encoder::step", "genco-macros/src/encoder.rs:Encoder::tokenize_whitespace", "src/fmt/formatter.rs", "src/lang/python.rs"]}
{"id": "C71", "title": "Comparing streams", "statement": "Two streams compare equal exactly if the same items follow each other in both, however they were built; equal streams are interchangeable; comparison with vectors and slices agrees with this from both sides; streams are totally ordered, consistently with equality and lexicographically by their items, whatever the bookkeeping in them. Text from a constant and text from a string are different items even where no output can show it.", "quantifier": "all sequences of API calls, all languages whose items are totally ordered", "why_tests_cant": "streams are unbounded; equality must not depend on internal links for any history", "anchors": ["src/tokens/tokens.rs:Tokens (derive, PartialEq impls)", "src/tokens/item.rs:Item", "src/tokens/item_str.rs:ItemStr"]}
{"id": "C72", "title": "Interpolations that show nothing leave no trace", "statement": "A quote with interpolations that add nothing (None, an empty stream or collection, a condition that is false, a loop over nothing, bindings) renders what the same quote without them renders: the blanks around such a word come together as one space, a line of only such words disappears and the empty lines around it come together, provided such a line starts where the next one does and a line that starts with such words continues without blanks.", "quantifier": "all quotes, positions, environments and values, any number and placement of such interpolations", "why_tests_cant": "which values are empty is known only at run time; positions and combinations are unbounded", "anchors": ["genco-macros/src/encoder.rs:Encoder::step", "genco-macros/src/encoder.rs:Encoder::tokenize_whitespace", "src/tokens/tokens.rs:push,line,indentation", "src/tokens/format_into.rs:Option"]}
{"id": "C73", "title": "Making imports", "statement": "The functions and methods that make imports say what they are documented to say: in a file that uses only the import made, the header declares the name asked for, the item that the name stands for and the way it is imported, and the reference is to that name; of several calls that set the same thing the last one counts.", "quantifier": "all sequences of calls on an import, all names, all languages with imports", "why_tests_cant": "sequences of calls are unbounded and each combination gives a different declaration", "anchors": ["src/lang/js.rs:Import", "src/lang/python.rs:Import,ImportModule", "src/lang/rust.rs:Import", "src/lang/dart/mod.rs:Import", "src/lang/csharp/mod.rs:Import", "src/lang/c.rs:include,include_system", "src/lang/go.rs:import", "src/lang/java/mod.rs:import", "src/lang/swift.rs:import"]}
{"id": "C74", "title": "Control flow shows what its bodies show", "statement": "In a quote a condition or match shows exactly the block of lines its selected body shows, placed like any interpolated value. A loop shows the blocks of its rounds: with a separator of text the separator stands between any two of them with the spaces that surround it in the source, a separator that asks for a line break puts each round on lines of its own, one that asks for an empty line puts exactly one between them, and without a separator the rounds are written next to each other, but after a round that ends indented the next one starts on a line of its own at the level of the loop.", "quantifier": "all bodies of any lines, nested to any depth, any number of rounds, any environments, all separators that always show the same, configurations and languages", "why_tests_cant": "numbers of rounds, lines and nesting are unbounded", "anchors": ["genco-macros/src/encoder.rs:encode_repeat", "genco-macros/src/encoder.rs:encode_condition", "genco-macros/src/encoder.rs:encode_match", "src/tokens/tokens.rs:append,push,line,indentation", "src/fmt/formatter.rs"]}
{"id": "C75", "title": "Interpolated strings read back", "statement": "An interpolated JavaScript or Dart string is read by the language as the constant text and the interpolated code that were put into it, in this order, ending where the string ends, wherever it stands in a document and though the code contains braces and further interpolated strings; so is a string quoted with $[str](..), whose text is the source between the parentheses and whose interpolations are its names and the code in its $(..), as quoted by itself.", "quantifier": "all texts, all nestings of strings in code in strings, all documents around them, all configurations", "why_tests_cant": "texts and nesting are unbounded; the output must be compared with how another language reads it", "anchors": ["src/lang/js.rs:write_quoted,start_string_eval,end_string_eval,open_quote,close_quote", "src/lang/dart/mod.rs:write_quoted,string_eval_literal,start_string_eval,end_string_eval", "src/fmt/formatter.rs:format_items", "genco-macros/src/string_parser.rs:StringParser", "genco-macros/src/encoder.rs:encode_quoted"]}
{"id": "C76", "title": "Quoted code reads as itself", "statement": "The output of a quote is its source with white space in the same places and each interpolation replaced by its text. So code without interpolations comes out with the same words in any language, and Rust code quoted for Rust reads, as Rust reads code, as the same tokens in the same order: the same names, numbers, punctuation with the same joints, brackets and characters, and string literals with the same values, also if they span lines.", "quantifier": "all source texts of names, numbers, punctuation, brackets, character and plain string literals in any layout whose lines start further right, or in the column of an enclosing line; all configurations with a line terminator of white space; interpolated values on one line", "why_tests_cant": "sources are unbounded, and what comes out must be compared with how a compiler reads it", "anchors": ["genco-macros/src/quote.rs:Quote::parse_inner", "genco-macros/src/encoder.rs:Encoder::step", "genco-macros/src/encoder.rs:Encoder::tokenize_whitespace", "src/fmt/formatter.rs", "src/lang/rust.rs:write_quoted", "src/lang/swift.rs:write_quoted"]}
{"id": "C77", "title": "Leaving a quote early", "statement": "If Rust code in a quote_in! leaves the function (by ?, return or a panic), the stream keeps what it had and has, of the quote, all that precedes that code with the separation from it, and nothing that follows; an expression that leaves supplies nothing; rounds of loops before it are complete; what is written to the stream later is not affected. A quote that is not left is not affected by the possibility.", "quantifier": "all quotes, environments, streams and points at which any code in the quote leaves", "why_tests_cant": "every expression, iterator, condition and binding of every quote is a possible exit point", "anchors": ["genco-macros/src/lib.rs:quote", "genco-macros/src/quote_in.rs:QuoteIn::parse", "genco-macros/src/encoder.rs:encode_eval", "genco-macros/src/encoder.rs:encode_scope", "genco-macros/src/encoder.rs:encode_repeat", "genco-macros/src/static_buffer.rs:StaticBuffer::flush"]}
{"id": "C78", "title": "Errors about indentation help", "statement": "A quote whose lines are rejected for their indentation is rejected with an error at the first token of the first such line; the error says by how many spaces, and in which direction, to move the line: moved so, the line starts in the column of an enclosing line and the quote is accepted up to there.", "quantifier": "all quotes, positions and numbers of lines", "why_tests_cant": "columns and nesting are unbounded; the advice must lead to an accepted quote from every rejected one", "anchors": ["genco-macros/src/encoder.rs:Encoder::tokenize_whitespace", "genco-macros/src/encoder.rs:indentation_error", "genco-macros/src/encoder.rs:Encoder::step"]}
{"id": "C79", "title": "Jumps in quoted loops", "statement": "break and continue in the body of a quoted loop act as in a Rust loop: what the round has written stays, continue goes on with the next element and break with what follows the loop, through conditions and matches in between. A loop whose rounds start by skipping some elements writes what the loop over the other elements writes, with the separators between them, and what follows is not affected. Elements are only left out by what the body does.", "quantifier": "all quotes, environments, streams, lists of elements and points at which code in the body jumps", "why_tests_cant": "every expression and binding in a loop is a possible jump, the numbers of elements are unbounded", "anchors": ["genco-macros/src/encoder.rs:encode_repeat", "genco-macros/src/encoder.rs:encode_condition", "genco-macros/src/encoder.rs:encode_match", "genco-macros/src/encoder.rs:encode_let"]}
{"id": "C80", "title": "Quoting what was written writes it again", "statement": "Code that a quote has written can be quoted in turn, and is then written as it is: quoting is a normal form. Rust code without interpolations, quoted for Rust, gives code that is accepted by the macro and gives itself; so does code without string literals in any language, and code with interpolated values on one line without other white space than single spaces, if each word of the output shows itself.", "quantifier": "all source texts of names, numbers, punctuation, brackets, character and plain string literals in any layout whose lines start further right, or in the column of an enclosing line; all indentations; the line terminators LF and CR LF; the output quoted at the start of any line", "why_tests_cant": "sources are unbounded; indentation that is taken for more or less than it is shows only when its result is quoted again", "anchors": ["genco-macros/src/quote.rs:Quote::parse_inner", "genco-macros/src/encoder.rs:Encoder::step", "genco-macros/src/encoder.rs:Encoder::tokenize_whitespace", "src/fmt/formatter.rs", "src/lang/rust.rs:write_quoted"]}
{"id": "C81", "title": "Names bound in quotes", "statement": "A name bound by $(let ..) is in scope from there to the end of the innermost loop body, separator, branch or arm it is in, or of the quote; the names of a loop's pattern are in scope in its body and separator, those of if let in its first branch, those of a match pattern in its arm; what is bound inside shadows what is outside only there, nothing bound in a quote is visible after it, and no other names come into scope.", "quantifier": "all quotes nested to any depth, all environments, names and streams", "why_tests_cant": "nesting, rounds and shadowing combine without bound", "anchors": ["genco-macros/src/encoder.rs:encode_let", "genco-macros/src/encoder.rs:encode_repeat", "genco-macros/src/encoder.rs:encode_condition", "genco-macros/src/encoder.rs:encode_match", "genco-macros/src/string_parser.rs:Encoder::eval_stream", "genco-macros/src/lib.rs:quote", "genco-macros/src/quote_in.rs:QuoteIn::parse"]}
{"id": "C82", "title": "Order of the code in quotes", "statement": "The Rust code in a quote runs in the order of the source: each expression once where the control flow around it gets to it, at any depth of brackets and in strings; the iterator of a loop once before its rounds, the separator between two rounds, a condition or scrutinee once before its branch. Neither the stream nor the positions of the tokens make a difference to it.", "quantifier": "all quotes nested to any depth, all environments, expressions and streams", "why_tests_cant": "nesting and numbers of rounds are unbounded, and the generated code is split into runs that could be reordered or dropped", "anchors": ["genco-macros/src/encoder.rs:encode", "genco-macros/src/encoder.rs:encode_repeat", "genco-macros/src/encoder.rs:encode_condition", "genco-macros/src/encoder.rs:encode_match", "genco-macros/src/string_parser.rs:Encoder::eval_stream", "genco-macros/src/quote.rs:Quote::parse_inner"]}
{"id": "C83", "title": "Several outputs through one writer", "statement": "What is written to a writer through one formatter after the other is what each of them would write by itself, one after the other and up to the first failure: for strings, byte sinks and any other sink that keeps what it accepts. Streams written through one formatter are laid out as one stream, up to the end of a file, where a line ends and requests that are pending are dropped; files that are written through one formatter, or collected as lines by one vector, are the same files one after the other.", "quantifier": "all sequences of streams and files in any languages and configurations, all sinks including failing ones, all contents of the writer before", "why_tests_cant": "sequences of outputs are unbounded, and state left behind by one shows only in the next", "anchors": ["src/fmt/formatter.rs:Formatter::new,write_trailing_line", "src/fmt/fmt_writer.rs:FmtWriter", "src/fmt/io_writer.rs:IoWriter", "src/fmt/vec_writer.rs:VecWriter", "src/tokens/tokens.rs:format,format_file"]}
{"id": "C84", "title": "Quoted Rust files are the programs that are meant", "statement": "A Rust program quoted with imports interpolated in it gives a file that reads, as Rust reads code, as the tokens of one use declaration for each module that some import needs, with just the names, aliases and self that are needed, followed by the tokens of the program with each import replaced by its reference; a reference denotes, through these declarations, what its import is meant to denote exactly if the imports that bind its first segment agree and lead there. In any language, code with interpolations that show text on one line reads as the source with each interpolation replaced by this text.", "quantifier": "all source texts of names, numbers, punctuation, brackets, character and plain string literals and interpolations in any layout whose lines start further right, or in the column of an enclosing line; all imports whose modules are paths and whose names are names; both default ways of importing; all configurations with a line terminator of white space", "why_tests_cant": "sources and sets of imports are unbounded, and the file must be compared with how a compiler reads and resolves it", "anchors": ["genco-macros/src/quote.rs:Quote::parse_inner", "genco-macros/src/encoder.rs:Encoder::step", "genco-macros/src/encoder.rs:Encoder::tokenize_whitespace", "src/fmt/formatter.rs", "src/lang/rust.rs:format_file,imports,write_quoted,Import::format", "src/tokens/tokens.rs:walk_imports"]}
{"id": "C85", "title": "Settings change the style of a file, not its lines", "statement": "A file without quoted values inside of strings consists of the same lines of code, each at the same level, whatever indentation and newline are set on the formatter's configuration and in whatever order: each line starts with the indentation set last for its level, the newline set last is between the lines and after the last one, and unless set the indentation is four spaces and the newline a line feed. The same lines are collected by a vector. Of several calls on a configuration, of the formatter or of a language, the last one counts.", "quantifier": "all languages, also ones defined by users, all streams without quoted values inside of strings, all sequences of settings", "why_tests_cant": "settings, streams and levels combine without bound; header and body of a file are separate streams", "anchors": ["src/fmt/config.rs:Config,Indentation", "src/fmt/formatter.rs:flush_whitespace,write_trailing_line", "src/tokens/tokens.rs:format_file", "src/lang/rust.rs:Config::with_default_import", "src/lang/js.rs:Config::with_module_path", "src/lang/nix.rs:Config::with_scoped", "src/lang/go.rs:Config::with_package", "src/lang/java/mod.rs:Config::with_package", "src/lang/csharp/mod.rs:Config::with_namespace"]}
{"id": "C86", "title": "Quoted files in the other languages are the programs that are meant", "statement": "A program in C, C#, Dart, Go, Java, JavaScript, Nix, Python or Swift, quoted with imports, texts and string literals in it, gives a file that consists of the header for exactly the imports in the program and the program: its source with white space in the same places, each literal written as the language writes it and each import replaced by its reference; and a reference denotes, through this header, what its import is meant to denote exactly under a condition on the imports in the program that is stated for each language.", "quantifier": "all source texts of words, string literals and interpolations of imports and texts, in any layout whose lines start further right, or in the column of an enclosing line; all sets of imports with names; for C# files without a namespace; all configurations with a line terminator of white space", "why_tests_cant": "sources and sets of imports are unbounded; macro, formatter and the language's collection of imports must agree for every one", "anchors": ["genco-macros/src/quote.rs:Quote::parse_inner", "genco-macros/src/encoder.rs:Encoder::step", "genco-macros/src/encoder.rs:Encoder::tokenize_whitespace", "src/fmt/formatter.rs", "src/tokens/tokens.rs:walk_imports,format_file", "src/lang/c.rs:imports", "src/lang/csharp/mod.rs:imports,format", "src/lang/dart/mod.rs:imports,format", "src/lang/go.rs:imports,format", "src/lang/java/mod.rs:imports,format", "src/lang/js.rs:imports,format", "src/lang/nix.rs:imports,format", "src/lang/python.rs:imports,format", "src/lang/swift.rs:imports,format"]}
{"id": "C87", "title": "Files assembled from quoted parts, character by character", "statement": "A program quoted with quoted parts in it (words, string literals, texts and numbers, quoted values, imports, streams quoted elsewhere, the branch of a condition or match, the rounds of a loop with or without separator, nested to any depth) gives a file whose text is determined character by character: the header for exactly the imports of all the parts that are used, in every language, and the parts in their places: single spaces where the source has blanks, a line break where it has one, one empty line where it has any, each line indented by the levels of its own source below the level of the line the part stands in, and separators between any two rounds, a line break if rounds without separator end deeper than they start; parts that show nothing (bindings, conditions that are false, loops over nothing, absent values), and lines of only such parts, are as if they were not in the source; and each reference denotes what its import is meant to under the same conditions on the imports of all parts.", "quantifier": "all quotes nested to any depth, all numbers of rounds, environments, values, imports with names and layouts whose lines start further right, or in the column of an enclosing line; rounds that all end at the level they start at, or, without separator or with a line break or an empty line as the separator, all deeper, other parts that end at the level they start at or are the last on a line after which no line starts further right, and parts that show nothing, neither first nor last, in quotes without parts that end deeper, where a line of them starts in the column of the next line and, if they start a line, no blanks follow; all configurations; for C# also with a namespace if the program ends at the level it starts at", "why_tests_cant": "nesting and rounds are unbounded; macro, formatter, stream and the language's collection of imports must agree for every combination", "anchors": ["genco-macros/src/quote.rs:Quote::parse_inner", "genco-macros/src/encoder.rs:Encoder::step", "genco-macros/src/encoder.rs:Encoder::tokenize_whitespace", "genco-macros/src/encoder.rs:encode_repeat", "genco-macros/src/encoder.rs:encode_condition", "genco-macros/src/encoder.rs:encode_match", "src/tokens/tokens.rs:append,extend,walk_imports,format_file", "src/tokens/format_into.rs", "src/fmt/formatter.rs", "src/lang/mod.rs:Lang"]}
{"id": "C88", "title": "Assembled Rust files are the tokens of their parts", "statement": "The file of a Rust program that is quoted with other code in it (texts, literals, imports, quoted streams, conditions, matches, loops with or without separators, to any depth) reads as the tokens of one use declaration for each module that is needed, sorted, followed by exactly the tokens of the parts in order, with each string literal the string that was meant: levels, line breaks and line ends neither join, split, drop nor reorder tokens. A reference denotes what its import is meant to denote exactly if the imports under its first segment agree", "quantifier": "all quotes nested to any depth, all numbers of rounds, environments, values, imports whose modules are paths, separators and layouts whose lines start further right, or in the column of an enclosing line; rounds that all end at the level they start at, or, without separator or with a line break or an empty line as the separator, all deeper, other parts that end at the level they start at or are the last on a line after which no line starts further right, and parts that show nothing, neither first nor last, in quotes without parts that end deeper, where a line of them starts in the column of the next line and, if they start a line, no blanks follow, and whose texts, on one line, are tokens; all configurations whose line terminator is white space", "why_tests_cant": "nesting, rounds and layouts are unbounded; macro, stream, formatter, header and literals act together; tests compare the text of a few files", "anchors": ["src/quote.rs:quote!", "genco-macros/src/quote.rs:Quote", "genco-macros/src/encoder.rs:Encoder", "src/lang/rust.rs:format_file", "src/fmt/formatter.rs:Formatter"]}
{"id": "C89", "title": "Comments stay comments", "statement": "What a comment helper writes at any level of indentation is read by the target language as a comment and nothing else, exactly if no line that is passed to it can end the comment: contains no line terminator of the language (Dart: line feed and carriage return; C#: also U+0085, U+2028 and U+2029), or, in a Java block comment, neither the end of one, by itself or once Unicode escapes are replaced, nor an incomplete Unicode escape. Each line passed to a Dart or C# helper is then one line of comment", "quantifier": "all lists of lines, levels of indentation and configurations whose line terminator is LF or CR LF", "why_tests_cant": "texts are unbounded, and the characters that end a comment depend on the language and on neighbouring characters", "anchors": ["src/lang/java/block_comment.rs:BlockComment", "src/lang/dart/doc_comment.rs:DocComment", "src/lang/csharp/block_comment.rs:BlockComment", "src/lang/csharp/comment.rs:Comment"]}
{"id": "C90", "title": "Assembled files in the other languages are the tokens of their parts", "statement": "The file of a program in C#, Dart, Go, Java, JavaScript or Swift that is quoted with other code in it (texts, literals, imports, quoted streams, conditions, matches, loops with or without separators, to any depth) reads, with the string literals of the language, as the tokens of the package line if there is one and of one import line for each import that is needed, in order, followed by exactly the tokens of the parts in order, in C# inside of the block of the namespace if there is one; each string literal stores the string that was meant, for strings the language can be relied on for. In C this holds of the program below the includes. Levels, line breaks and line ends neither join, split, drop nor reorder tokens", "quantifier": "all quotes nested to any depth, all numbers of rounds, environments, values, imports with names, separators and layouts whose lines start further right, or in the column of an enclosing line; rounds that all end at the level they start at, or, without separator or with a line break or an empty line as the separator, all deeper, other parts that end at the level they start at or are the last on a line after which no line starts further right, and parts that show nothing, neither first nor last, in quotes without parts that end deeper, where a line of them starts in the column of the next line and, if they start a line, no blanks follow, and whose texts, on one line, are tokens (names, numbers, punctuation, brackets, string and character literals); all configurations whose line terminator is white space", "why_tests_cant": "nesting, rounds and layouts are unbounded; macro, stream, formatter, header and literals act together and the file must be compared with how another language reads it", "anchors": ["src/quote.rs:quote!", "genco-macros/src/quote.rs:Quote", "genco-macros/src/encoder.rs:Encoder", "src/fmt/formatter.rs:Formatter", "src/lang/c.rs:format_file,write_quoted", "src/lang/csharp/mod.rs:format_file,write_quoted", "src/lang/dart/mod.rs:format_file,write_quoted", "src/lang/go.rs:format_file,write_quoted", "src/lang/java/mod.rs:format_file,write_quoted", "src/lang/js.rs:format_file,write_quoted", "src/lang/swift.rs:format_file,write_quoted"]}
{"id": "C91", "title": "Assembled Python files have the blocks of their parts", "statement": "Python reads the file of a program that is quoted with other code in it (texts, literals, imports, quoted streams, conditions, matches, loops with or without separators, to any depth) as the import statements that are needed, none of them in a block, followed by the statements of the parts, in order, grouped into exactly the blocks in which the lines of their sources are grouped: a line further right than the one before opens a block, a line further left closes blocks, and quoted code within other code belongs to the block of the line it stands in. The source of every program that the macro accepts has such blocks", "quantifier": "all quotes nested to any depth, all numbers of rounds, environments, values, imports with names of one line, separators and layouts whose lines start further right, or in the column of an enclosing line; rounds that all end at the level they start at, or, without separator or with a line break or an empty line as the separator, all deeper, other parts that end at the level they start at or are the last on a line after which no line starts further right, and parts that show nothing, neither first nor last, in quotes without parts that end deeper, where a line of them starts in the column of the next line and, if they start a line, no blanks follow; lines that start with neither blanks nor comments; all configurations with some indentation whose line terminator is LF, CR LF or CR", "why_tests_cant": "nesting, rounds and levels are unbounded; macro, stream and formatter each keep a level of their own and must agree for every program", "anchors": ["genco-macros/src/encoder.rs:Encoder::tokenize_whitespace", "src/tokens/tokens.rs:append,extend", "src/fmt/formatter.rs:flush_whitespace", "src/lang/python.rs:format_file"]}
