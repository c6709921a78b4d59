# Formal model of genco (udoprog/genco) in Rocq

## 1. Scope and approach

The model lives in `rocq/theories` (logical name `Verif`). It is plain Gallina:
total, computable functions that follow the Rust functions one by one, each with
a comment citing the file and lines it models. Strings are lists of code points
(`N`); a Rust `str` additionally consists of Unicode scalar values (`valid`),
which is a hypothesis only where it matters (UTF-8/UTF-16 encodings). Panics,
formatter errors and compile errors of the macros are explicit error values.
External code is a parameter of the definitions that use it, never an axiom.

For every area there are four kinds of files:

* the model (`Tokens.v`, `Fmt.v`, `LangC.v`, `Macro.v`, ...): only definitions
  that follow the code;
* the specification (`Spec*.v`): small independent definitions that do not use
  helpers of the model: the layout of a text, readers for the string literals of
  every target language, name resolution in every target language, source lines
  and levels, a reference semantics of quotes, ...;
* lemma files (`*Facts.v`, `Macro*.v`, `Nix*.v`);
* property files (`Props*.v`): the theorems named after the properties
  (`C07_...`), beside each an example that meets its hypotheses, and
  `Print Assumptions`.

When the code does not satisfy a property, a theorem `..._refuted` exhibits an
input (often all inputs of a kind) on which the faithful model violates it, and
the strongest statement that does hold is proved next to it as `..._partial`.

| area | models | files |
|---|---|---|
| text | code points, hex, UTF-8, UTF-16, decimal | `Str`, `SpecStr`, `StrFacts` |
| streams | `src/tokens/*.rs` | `Tokens`, `TokensRun`, `Values`, `Overflow`, `Compare`; `SpecTokens`, `SpecReplay`; `PropsTokens`, `PropsReplay`, `PropsOverflow`, `PropsCompare`, `PropsNeutral` |
| formatter | `src/fmt/*.rs` | `Fmt`, `FmtConfig`; `SpecFmt`, `SpecSession`, `SpecConfig`; `PropsFmt`, `PropsOneLine`, `PropsSession`, `PropsConfig` |
| quoting | `write_quoted` of all languages, `src/lang/mod.rs` | `Quote`; `SpecLex`, `SpecCode`, `SpecTemplate`, `SpecTrigraph`, `SpecStrings`; `PropsQuote`, `PropsExact`, `PropsNested`, `PropsTrigraph`, `PropsTemplate` |
| languages | `src/lang/**`, all ten languages | `Order`, `LangBase`, `LangC` ... `LangRust`, `LangBuild`; `SpecOrder`, `SpecFile`, `SpecLang`, `SpecPython`, `SpecRust`, `SpecJs`, `SpecNix`, `SpecHeader`, `SpecResolve`, `SpecBuild`; `PropsLang`, `PropsNames`, `PropsJs`, `PropsNix`, `PropsHeader`, `PropsDedup`, `PropsDefaults`, `PropsResolve`, `PropsClash`, `PropsBuild` |
| paths | `RelativePath::relative` as `js.rs` uses it | `RelPath`; `SpecPath`; `PropsPath` |
| comments | `csharp/{block_,}comment.rs`, `dart/doc_comment.rs`, `java/block_comment.rs` | in the language files; `SpecComment`, `SpecReadComment`; `PropsComment`, `PropsReadComment` |
| macros | `genco-macros/src/{fake,encoder,static_buffer,string_parser,quote,quote_in,quote_fn,lib,requirements,cursor,ast}.rs` | `Macro`, `Exit`, `Jump`, `Scope`, `Diag`, `Parse`, `Fake`; `SpecMacro`, `SpecQuote`, `SpecParse`, `SpecStable`, `SpecWords`, `SpecOutline`, `SpecReread`, `SpecAgain`, `SpecOffside`, `SpecSilent`, `SpecRounds`, `SpecExit`, `SpecJump`, `SpecDiag`, `SpecScope`, `SpecShadow`, `SpecInterp`, `SpecEvalOrder`, `SpecProgram`, `SpecWhole`, `SpecAssembled`, `SpecParts`, `SpecFileParts`; `PropsMacro`, `PropsAnySource`, `PropsControl`, `PropsSpelling`, `PropsParse`, `PropsStable`, `PropsWords`, `PropsReread`, `PropsAgain`, `PropsOffside`, `PropsSilent`, `PropsRounds`, `PropsExit`, `PropsJump`, `PropsDiag`, `PropsScope`, `PropsInterp`, `PropsEvalOrder`, `PropsProgram`, `PropsWhole`, `PropsAssembled`, `PropsParts`, `PropsFileParts` |

`LangExamples.v` runs the documentation examples of the languages on the model.
`Source.v` reads Rust source text into token trees (a stand-in for the compiler);
`MacroLangs.v` proves that every quote in `/repo/src/lang`, given by its text,
makes the calls the language models state. `RepoTests.v` runs the test suite of
`/repo` and the examples of its documentation, given by their source text, on the
model of parser, encoder, streams and formatter, and finds the stated outputs.

## 2. Properties

| id | what is modelled | how it is proved |
|---|---|---|
| C01 | stream operations as functions on the item vector | invariant by induction on the history |
| C02 | same | content items commute with every operation; induction |
| C03 | same | the sum of indentation is preserved by every operation; induction |
| C04 | positions and `prev` links | link invariant by induction on the history; walk by strong induction on the position |
| C05 | `extend`, `from_iter` | replaying a canonical stream; grafting; the exact condition for append = replay (SpecReplay.v) by following the requests on the whitespace at the end of the target (ReplayFacts.v) |
| C06, C07 | whitespace requests | equational reasoning on the loops that pop items; C07 exactly through the layout of histories (C21) |
| C08 | a datatype of values and its `format_into` | structural induction on values |
| C09 | checked 16-bit arithmetic | refinement: checked run = unchecked run under the bound; exactly when each counter overflows |
| C10 | formatter with an abstract fallible writer | refinement to a declarative layout |
| C11-C13 | same | corollaries of C10 by reasoning on lines |
| C14 | two configurations | relational induction; exact by comparing lengths for two line endings |
| C15, C16 | string, vector and byte writers | simulation between writers |
| C17 | arbitrary failing writer | induction over formatter runs |
| C18 | registrations | the elaboration of the stream ignores them; builder-level variant refuted, with the exact condition for texts and requests (`PropsNeutral`) |
| C19 | frame stack and nested formatter | equivalence with a small acceptance automaton, also for what the four rendering methods return |
| C20 | `format_file`, trailing line | from C10 |
| C21 | builder and formatter together | histories of requests refine to a layout |
| C22-C33 | `write_quoted` of every language | per language a reader of literals; induction on strings; where not all strings round-trip, `Cxx_.._exact` shows which do, exactly (what an escape swallows is bounded by counting what is read) |
| C34 | nested quotes | run of the formatter on nested quotes; exactly when the outer literal denotes the inner one: escaping makes texts longer, what literals denote is as long as the string (C22-C32) |
| C35 | interpolated strings in the formatter; the default methods of the trait | induction on a nested datatype of code; for the defaults on documents, from C10 (PropsDefaultStrings.v) |
| C36-C45 | `imports`, item formatting, `format_file` per language | sets and maps as strictly sorted lists; header streams as histories (C21); name resolution per language as specification; `Cxx_.._resolution_exact` shows for C#, Java, JavaScript, Python and Rust exactly which references resolve, as a condition on the other uses |
| C46 | same | extensionality of strictly sorted lists |
| C47 | `ItemStr` with its two constructors | proved when representations agree, refuted otherwise; for the eight languages concerned, exactly when an import is repeated |
| C48 | header and body | histories of header and body composed; for every stream that renders, what its body loses below a header and exactly when it is unchanged |
| C49 | comment helpers | histories; induction on lines |
| C50 | generated code | invariant of the encoder; induction on quotes |
| C51-C53 | encoder over positions of tokens | the encoder refines a walk over the tokens; levels of lines characterised by lists of start columns; C52 also: the text of every accepted source of words, and which are accepted (PropsAnySource.v) |
| C54 | same, and the formatter | lines of source to histories of requests to the layout (C21) |
| C55 | static buffer | output of the joined and of the unjoined code compared through the layout (C10) |
| C56, C57 | generated code as a small command language with semantics | refinement to a reference semantics; induction on quotes |
| C58 | string encoder | fold over the elements; slices of the source line; exactly when the text is the source, and what else it is |
| C59 | strings, nested | every quote supplies a well-formed document; induction on quotes |
| C60 | quoting into a target | grafting and the exact condition (C05) |
| C61 | the parser of the macros on token trees; `syn`'s readers of expressions and patterns are parameters | soundness and completeness against an inductive grammar; mutual induction, fuel monotonicity |
| C62, C63 | same | induction on token trees, C61, C54 |
| C64-C66 | headers and references of Go, Dart, Swift | from C39, C38, C45 with a specification of what names denote; `Cxx_.._resolution_exact` shows which references resolve |
| C67 | specifiers of JavaScript paths, `relative` of the dependency | canonical forms of paths, relative exactly outside the module path, empty exactly if the module path starts further above; C41 |
| C68 | reading of span texts, quotes whose tokens are on one line | digits of numbers; the encoder on one line makes no breaks, from C61 and C62; formatter on streams without breaks |
| C69 | lines of words (text or interpolation) and the documents they show | C57 gives what each word supplies, C21 what requests between words become; layouts of documents composed; values may leave levels open at the end of a line; a quote of such lines shows the block of its lines, so it can be interpolated again; C48 for files |
| C70 | Python's rules for indentation (SpecOffside.v: physical lines, columns, stack of open blocks) applied to source and output | stacks of source columns and of output columns have the same length; blocks of values shifted by a level keep their events; C69 for values, C43 for the header. Lines joined within brackets or by backslashes are not modelled |
| C71 | derived and written comparisons (Compare.v), language items with any equality and order | links are determined by the items before them, so comparison reduces to that of the items without links |
| C72 | as C69; words that add no item (SpecSilent.v), kept words and lines | induction over words: requests since the last shown text are combined (requested_after), lines of words that add nothing at the column of the next line change neither level nor break |
| C73 | the functions that make imports and their methods (LangBuild.v) as sequences of calls; what the last call of a kind says (SpecBuild.v) | induction over the calls gives the import; the file theorems of each language give its declaration and reference |
| C74 | what a body shows, rounds of a loop and what is between them, blocks put beside or below each other (SpecRounds.v), in terms of C69 | the selected body's items are the item's (C57); rounds by induction with the separator merged into the closed end of the round before; layouts of blocks are compositional (steady). After rounds that end indented only separators that are a line break or an empty line. Not covered: separators that change from round to round other than as a document between them (`C74_loop`) |
| C75 | how JavaScript and Dart read strings with interpolations, what a string in a document says (SpecTemplate.v), what the source of a quoted string says (SpecStrings.v) | the layout of a string in code is its text (a line without breaks); reading it back by induction over strings in code in strings, the text between by the lemmas of C25-C27. Conditions: text that C25-C27 read back, in Dart names for single words; code with single quotes, slashes or line breaks is not covered (comments, regular expressions); a quoted string may contain text, names, `$$`, constants and code `$(..)` on one line, whose document is what a quote of that code gives (SpecInterp.v, PropsInterp.v; for code made of words, C75_words gives it) |
| C76 | source text and its tokens, texts with white space in the same places, a reader of code as Rust reads it (SpecReread.v) | tokens in a text are words in lines, so C69 applies; the text of those lines differs from the source in white space only; a token is read the same whatever nonempty white space follows it, string literals by C22 and C23. The reader answers nothing for comments, raw and byte strings, raw names, signed exponents and names outside of ASCII |
| C77 | generated code in which every evaluation may leave (Exit.v), code until one leaves (SpecExit.v) | cut-off runs supply a prefix, by induction over statements; code of a quote split at any token (C51-C53), what precedes it supplies what C57 says; loops, conditions and matches by their code |
| C78 | the texts of errors about indentation and where they are reported (Diag.v) | the loop that pops columns complains about a column of an enclosing line (columns sorted, C53); with the token moved there the separations exist (C53). Quotes in elements are quotes on their own; the closing parenthesis of a joined loop's separator has no position of its own |
| C79 | the generated code as Rust runs it when code in a loop breaks or continues (Jump.v); the pattern of a joined loop is a `while let` | loops are the rounds of Rust loops (SpecJump.v), by induction over the elements; where nothing jumps the model agrees with C77's; a round that skips at its first element writes nothing (C77's facts about elements) |
| C80 | the lines of an output as source again: where its words are, and what its lines' columns make of them (SpecAgain.v) | a level is at most one more than the one before, so the columns of the output have the same levels (induction over the lines, C54's levels); a text has its words in one place only, so C69 applies to the output; for Rust, a text is read in one way (C76's reader). Interpolated text with other white space than single spaces is not a normal form (`C80_spaces`) |
| C81 | the environment as names in scope and everything else; the generated code run with blocks that end the names bound in them (Scope.v), including the variable `__it` of joined loops | a second reference semantics in which names are in scope where SpecScope.v says, by the induction of C52 with the end of scopes; where no body binds a name that is in use outside (SpecShadow.v) the two semantics agree, by induction over that relation |
| C82 | the environment that the Rust code in a quote runs in, threaded through the generated code (Macro.v) | the effect of a quote read off its elements in the order of the source (SpecEvalOrder.v), shown equal to the environment after the generated code by induction over quotes from C52's reference semantics |
| C83 | sequences of streams and files on formatters on one writer (SpecSession.v) | the calls on the writer are the same for all writers (C17's traces); the formatter's state between jobs in terms of the gap since the last text (C10) |
| C84 | programs with interpolated imports as text, tokens of use declarations, the reader of code of C76 (SpecProgram.v) | the output respaces the source (C76), reading a token is local; use lines are read compositionally; the stream's imports are those of the interpolations; C44's exact resolution |
| C85 | the calls on configurations (FmtConfig.v); lines with levels, settings made last (SpecConfig.v) | what the formatter makes of a stream depends on the configuration only at quotes inside of quotes; layouts have lines with levels (C14); the headers of all languages have no nested quotes |
| C86 | quoted programs as words with what stands at their places, and what each header lists (SpecWhole.v) | the stream of a quote uses the interpolated imports in order (WholeFacts.v); its body is the source respaced (C76); the file theorems C36-C45 and the exact resolutions C37, C40-C43, C64-C66 |
| C87 | programs as trees of quoted parts and their text at a level, defined by recursion on the tree (SpecAssembled.v); which quotes are such programs, as mutual inductive predicates over the macro's input | mutual induction over these predicates: each part shows a document whose text at every level is the specified one and whose imports are the specified ones (AssembledFacts.v, from the lines of C69 and the rounds of C74), with the number of levels it ends deeper than it starts; rounds that end deeper are closed by an indentation item, which makes the next one start on a new line also without a separator; words that show nothing are deleted from the source and the rest moved up and left (SparseFacts.v, from C72); then the file theorems as for C86, and for C# with a namespace the block one level deeper (BlockFacts.v) |
| C88 | the parts of a program in order, with white space exactly where the source or a separator has some, and the tokens of parts written on one line (SpecParts.v); reader of Rust code as for C76 | the text of C87 at every level is the parts in a layout, by recursion on the tree; parts in a layout read as parts on one line, since a token depends on the text after it only up to white space (PartsFacts.v); use declarations as for C84 |
| C89 | readers of lines, of block comments and of Java's Unicode escapes (SpecReadComment.v) | the text of a comment at a level (C49), then exact conditions by induction on the lines |
| C90 | the parts of files: lines of the header, then the parts of the program (SpecFileParts.v); reader of code as for C88 with the string literals of each language (SpecLex.v) | as C88: the file of C87 is its parts in a layout; literals read as their strings by the lemmas for C23-C31; for Java the layout is translated first |
| C91 | marks of a program: text, new line, block opened or closed, block closed at the end of a line, read off the sources' columns by Python's rules (SpecOutline.v); reader of Python's blocks as for C70 | the text of C87 is the text of the marks at the levels they lead to, by recursion on the program; a line at a level starts in the column of its block; sources that the macro accepts have marks by induction over the predicates of C87 |

## 3. What is not modelled, and simplifications

* Streams: a `Vec` is a list, `mem::take`/`Cow` are pure functions. Allocation,
  capacity (`with_capacity`), `Debug` and the derived hashing of whole streams
  are not modelled. Indentation is a mathematical integer except
  in `Overflow.v`, which models the 16-bit arithmetic and shows when the two
  agree.
* Language items: `Rc`/trait-object plumbing of `macros.rs` (`impl_lang!`) is
  modelled as one datatype of items per language with one formatting function.
* Formatter: writers are state transformers that may fail; `fmt::Error` carries
  nothing. Buffered writes of `std::io` are the parameter of the byte writer.
* Ordered collections: `BTreeMap`/`BTreeSet` are strictly sorted association
  lists (`Order.v`, proved to be so).
* `RelativePath::relative` is a parameter (`relative`) of the JavaScript model.
  For C67 only, `RelPath.v` models it from the published crate, whose source is
  not in `/repo`.
* The header of a file is quoted with `quote_in!` in the source; the language
  models state the calls this amounts to (`LangBase.v`), `MacroLangs.v` derives
  them from the text of the quotes.
* Macros: how `syn` reads Rust expressions and patterns (parameters of `Parse.v`,
  which consume a prefix of the input), groups without delimiters, attributes on
  match arms (rejected), spans used only for diagnostics, error messages other than those about
  indentation (C78), and
  the debug output of spans (its form is assumed in C68). Rust expressions inside quotes are
  functions on an abstract environment; they do not diverge, leave the quote only
  in C77 and C79 (there not from inside of a conversion, nor by labelled jumps),
  and iterators are given by the list of their elements. Names are not shadowed in
  the models of C52-C80; C81 models scopes and shows when this makes no difference.
* Specifications of target languages cover what the code can emit: literals
  with their escapes, import headers and references. C trigraphs
  are a separate translation (`SpecTrigraph`), since C23 and most compilers by
  default do not replace them.

## 4. Findings

Each is a `_refuted` theorem unless marked (note).

1. C05, C60: an indent/unindent pair inside an appended stream or quote cancels
   out before it reaches the target; made on the target itself it also removes
   pending spaces and line breaks.
2. C06, C07: indent followed by unindent deletes a pending space, push or line.
3. C09: indentation beyond 32767 overflows.
4. C14, C19, C34: a value quoted three times is an error; the inner literal of a
   doubly quoted value is escaped once only; line breaks inside it are escaped.
5. C18: a registration between two requests keeps them from merging, and one at
   the start of an interpolation changes the form of the interpolation.
6. C19: unclosed quotes and interpolations are not reported.
7. C24-C32: the escape tables of all languages but Rust, Swift and C# verbatim
   forms are wrong for some characters: decimal codes were taken for octal
   (`U+0011`, `U+0012`, `U+0014`), Java's bell becomes backspace, Go has no `\'`
   in strings, `\x` in C and C# swallows following digits, universal character
   names below `U+00A0` are illegal in C, Nix has no numeric escapes, `` ` `` and
   `${` in JavaScript templates and `${` in Nix are not escaped, `\0` before a
   digit in JavaScript.
8. C37, C40-C44: no language detects that two imports bind the same name
   (Python, Rust, JavaScript, Nix), nor that an unqualified name is shadowed
   (Java: `java.lang` and own package; C#: own namespace, ambiguity).
9. C41, C46: of two default imports from one JavaScript module one is dropped,
   depending on the order.
10. C42: Nix: variables and `with`s inside the value of a variable are not
    collected.
11. C43: Python: a qualified member with an alias of its own is written with the
    alias although nothing binds it.
12. C47: `ItemStr::Static` and `ItemStr::Box` of the same text are different
    keys, so the import is written twice; an error in Go, Rust and JavaScript.
13. C48: a body that starts with pending whitespace loses part of it after a header: exactly the spaces that a blank
    line request comes after before the first text (`C48_*_any_body`, for every stream that renders).
14. C49: a comment line that contains a line break leaves the comment; text right
    after a comment helper is part of the comment.
15. C52, C53: in a quote, a line further left than the first line is joined with
    the previous line without any separation. An element that turns out to be
    empty on an indented line of its own takes the line break with it.
16. C55: `$[str]($(foo.bar))` is written `$foo.bar` in Dart.
17. C58: tabs and comments between the tokens of `$[str](..)` become spaces.
18. (note) `string_parser.rs` takes `content.span()` for the extent of `$(..)`,
    which is the span of its first token only. Over several lines this trips the
    `debug_assert!` in `encoder.rs`.
19. (note) `parse_match` reads the attributes of the arms from the outer input
    instead of the body, so attributes on arms are rejected.
20. C63: within brackets in `$[str](..)` interpolations are not recognized:
    `$[str](a ($x))` is the text `a ($x)`, in the compiler's spacing.
21. (note) `$self`, `$if` and the like (keywords), and `$1`, are literal text in a
    quote without any error.
22. C64: Go packages with the same last path element are imported under one name,
    which is an error; a package that is not called as the last element of its
    path (`gopkg.in/yaml.v2`) is referred to by a name that does not exist.
23. C65: Dart: `dart:core` with an alias is referred to by the alias, which is
    never declared. C65, C66: names declared by two imported libraries or modules
    are ambiguous.
24. C67: JavaScript: paths are made relative to the configured file as if it were
    a directory (documented so), JavaScript resolves them from the directory of
    the file, one level higher: `foo/baz.js` importing `foo/bar.js` by
    `../bar.js` gets `bar.js`. Modules below the module path are written without
    `./`, so they name packages. From a module path that starts further above than
    the imported path the specifier is empty (`C67_js_above_refuted`).
25. C70: a value that ends exactly one level deeper than it starts (a function with
    its body, any quote whose last line is one level deeper) directly followed by a
    line further right: closing and opening cancel out, no line break is left and
    the line continues the last line of the value (`passy`).
26. C70: a comment line further left than the lines around it, which Python
    ignores, closes levels: what follows is indented less than in the source, so
    that `if a:`, `if b:`, comment at the left, body of `b` gives `b` no body.
27. C72: a line that starts with an interpolation that shows nothing, followed by
    blanks, starts with an extra space (in Python: an indentation error). An empty
    line before such a line is lost if the next line is at another level. (C52: and
    the line break, if it is deeper than both neighbours.)
28. C73: Rust: once an alias of the module is given, later calls of
    `with_module_alias`, `with_alias`, `qualified` and `direct` have no effect.
29. C73: Python: `with_alias` does not undo `qualified`, though documented to
    imply an unqualified import; the alias then is not bound (see 11).
30. C75: Dart: an interpolated name directly followed by text that starts with a
    letter, digit or underscore is continued by it: `$[str]($(x)y)` is written
    `"$xy"`, which interpolates `xy`. (Cf. 16.)
31. C77: leaving `quote_in!` early from an indented line leaves the indentation in
    the stream: what is written to it later is indented.
32. C77: static text directly in front of `$(ref _ => ..)` is supplied after that
    code has run, and lost if it leaves the quote.
33. C79: a joined loop ends without a word at the first element its pattern does not
    match, leaving out all others: `$(for Some(x) in xs join (, ) => $x)`. (The
    pattern becomes part of a `while let`; without `join` the compiler refuses it.)
34. C79: `continue` in a joined loop skips the separator after the round: if the last
    element is skipped, the separator in front of it dangles (`1, `).
35. C79: `continue` or `break` from an indented line leaves the indentation in the
    stream, one level for each time.
36. C81: the code of a loop with `join` has a variable `__it`, visible to the user's
    code: a variable of that name cannot be used in such a loop
    (`C81_iterator_refuted`). What an interpolation of a string binds stays in scope
    after the string, unlike what a loop or branch binds (`C81_string`).
37. C83: a `VecWriter` that collects two files joins the last line of the first with
    the first line of the second, since it ignores the trailing line
    (`C83_vec_files_refuted`). A `Formatter` used for two files writes an empty line
    before the second if that has imports (in Swift always), because only a fresh
    formatter ignores requests before the first text
    (`C83_formatter_imports_refuted`), and starts it at the level the first has left
    (`C83_formatter_level_refuted`).
38. C30: `?` is not escaped, so that where trigraphs are replaced (C before C23, or
    on request) a string with one is not read back (`C30_trigraph_refuted`), and one
    that ends in `??/` is no literal at all (`C30_backslash_trigraph_refuted`).
    Strings without trigraphs are not affected (`C30_trigraphs_partial`); nor is
    the one with an apostrophe, since that is escaped.
39. C89: comment helpers write lines as they are. A line with `*/` ends a Java block
    comment, so does one with the Unicode escapes of these characters, and a line with
    `\u` that is not followed by four digits (as in `C:\users`) makes the file
    invalid; a line with U+0085, U+2028 or U+2029 leaves a C# comment
    (`C89_java`, `C89_csharp`, `C89_example`).

## 5. Trusted base

* Coq 8.16.1's kernel, including `vm_compute` (used for examples and concrete
  refutations).
* `Print Assumptions` of every theorem named in `MANIFEST.json` prints
  "Closed under the global context": no axioms are used. (A check of the loaded
  libraries lists seven fields of module types in `Coq.ssr.ssrunder`, which the
  standard library loads and no theorem uses.)
* The reading of the cited Rust code in the model files, including the
  simplifications above, and the specification files.
* `seeded/LOG.jsonl` records the wrong programs the theorems were tried against.
