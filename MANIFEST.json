{
 "claims": [
  {
   "property": "C01",
   "status": "proved",
   "theorems": [
    "C01_is_empty",
    "C01_canonical",
    "C01_canonical_from"
   ],
   "note": ""
  },
  {
   "property": "C02",
   "status": "proved",
   "theorems": [
    "C02_content"
   ],
   "note": ""
  },
  {
   "property": "C03",
   "status": "proved",
   "theorems": [
    "C03_net_indentation"
   ],
   "note": ""
  },
  {
   "property": "C04",
   "status": "proved",
   "theorems": [
    "C04_walk_imports",
    "C04_walk_terminates"
   ],
   "note": ""
  },
  {
   "property": "C05",
   "status": "partial",
   "theorems": [
    "C05_append_replay",
    "C05_append_assoc",
    "C05_splits",
    "C05_rebuild",
    "C05_append_neutral",
    "C05_append_replay_partial",
    "C05_append_assoc_partial",
    "C05_append_replay_refuted",
    "C05_append_assoc_refuted"
   ],
   "note": "Rebuild and neutrality hold for all streams; append=replay and associativity hold exactly if the leading whitespace requests of the appended stream have the same effect on the end of the target as what is left of them (same_effect in SpecReplay.v), in particular for targets without pending whitespace; refuted in general."
  },
  {
   "property": "C06",
   "status": "partial",
   "theorems": [
    "C06_line_after_push",
    "C06_space",
    "C06_push",
    "C06_line",
    "C06_indentation",
    "C06_split_exists",
    "C06_idempotent",
    "C06_push_after",
    "C06_before_indent",
    "C06_line_after_push_partial",
    "C06_line_after_push_refuted"
   ],
   "note": "All laws proved; 'line after push equals line' holds exactly if no space is pending (refuted at item level when one is)."
  },
  {
   "property": "C07",
   "status": "partial",
   "theorems": [
    "C07_indent_unindent_rendering_refuted",
    "C07_exact",
    "C07_indent_unindent_partial"
   ],
   "note": "The exact effect is proved; the property itself is false of the code (pending space/push/line are deleted). C07_exact: whatever comes later, indent followed by unindent has no effect exactly if no space and no second line break is pending."
  },
  {
   "property": "C08",
   "status": "proved",
   "theorems": [
    "C08_append_parts",
    "C08_absent_is_neutral",
    "C08_numbers"
   ],
   "note": ""
  },
  {
   "property": "C09",
   "status": "proved",
   "theorems": [
    "C09_builder",
    "C09_formatter",
    "C09_no_overflow",
    "C09_overflow_refuted"
   ],
   "note": "The _refuted theorem shows that the bound is needed; C09_builder and C09_formatter say exactly when the two counters overflow."
  },
  {
   "property": "C10",
   "status": "proved",
   "theorems": [
    "C10_layout",
    "C10_layout_documents"
   ],
   "note": ""
  },
  {
   "property": "C11",
   "status": "proved",
   "theorems": [
    "C11_no_trailing_blank"
   ],
   "note": ""
  },
  {
   "property": "C12",
   "status": "proved",
   "theorems": [
    "C12_blank_lines",
    "C12_blank_is_empty"
   ],
   "note": ""
  },
  {
   "property": "C13",
   "status": "proved",
   "theorems": [
    "C13_indentation"
   ],
   "note": ""
  },
  {
   "property": "C14",
   "status": "partial",
   "theorems": [
    "C14_newline",
    "C14_indentation_style",
    "C14_nested_quote_refuted",
    "C14_newline_exact",
    "C14_settings_exact",
    "C14_languages"
   ],
   "note": "Holds exactly if values quoted inside of string literals are on one line (C14_newline_exact, C14_settings_exact, for every language that writes strings character by character; C14_languages: all ten do). Otherwise false: nested line breaks are escaped, see C14_nested_quote_refuted."
  },
  {
   "property": "C15",
   "status": "proved",
   "theorems": [
    "C15_string_and_vec",
    "C15_file_string_and_vec",
    "C15_any_config"
   ],
   "note": ""
  },
  {
   "property": "C16",
   "status": "proved",
   "theorems": [
    "C16_bytes",
    "C16_bytes_file",
    "C16_decodes"
   ],
   "note": ""
  },
  {
   "property": "C17",
   "status": "proved",
   "theorems": [
    "C17_delivery",
    "C17_prefix",
    "C17_all_delivered"
   ],
   "note": ""
  },
  {
   "property": "C18",
   "status": "partial",
   "theorems": [
    "C18_registrations_do_not_render",
    "C18_register_anywhere_partial",
    "C18_register_anywhere_refuted",
    "C18_eval_registration_refuted",
    "C18_exact"
   ],
   "note": "Registrations never render on item sequences without a registration at the start of an interpolation; registering on a stream without pending whitespace is neutral. Both restrictions are necessary (refuted otherwise). C18_exact: for a stream of texts and requests, whatever comes later, registering has no effect exactly if no space and (after a text) no line break is pending."
  },
  {
   "property": "C19",
   "status": "partial",
   "theorems": [
    "C19_accepts",
    "C19_rejects",
    "C19_rendered",
    "C19_file_rendered",
    "C19_documents_accepted",
    "C19_triple_quote_refuted",
    "C19_unclosed_refuted"
   ],
   "note": "The exact set of accepted streams is proved; quoting three times is rejected and unclosed quotes are accepted, so two parts of the English claim are refuted."
  },
  {
   "property": "C20",
   "status": "proved",
   "theorems": [
    "C20_file",
    "C20_any_file",
    "C20_layout_end",
    "C20_nothing_visible"
   ],
   "note": ""
  },
  {
   "property": "C21",
   "status": "proved",
   "theorems": [
    "C21_history"
   ],
   "note": ""
  },
  {
   "property": "C22",
   "status": "proved",
   "theorems": [
    "C22_rust_round_trip"
   ],
   "note": ""
  },
  {
   "property": "C23",
   "status": "proved",
   "theorems": [
    "C23_swift_round_trip"
   ],
   "note": ""
  },
  {
   "property": "C24",
   "status": "partial",
   "theorems": [
    "C24_java_exact",
    "C24_java_denotes",
    "C24_java_round_trip_partial",
    "C24_java_round_trip_refuted"
   ],
   "note": "Proved for all strings without U+0007 and U+0014; with them false of the code (the escape table gives U+0007 the escape of backspace), see the _refuted theorem. C24_java_exact: these conditions are necessary and sufficient."
  },
  {
   "property": "C25",
   "status": "partial",
   "theorems": [
    "C25_js_exact",
    "C25_js_denotes",
    "C25_js_round_trip_partial",
    "C25_js_round_trip_refuted"
   ],
   "note": "Proved for all strings without U+0011, U+0012 and NUL followed by a digit; false of the code otherwise (wrong escape table, \\0 before a digit is an illegal octal escape). C25_js_exact: these conditions are necessary and sufficient."
  },
  {
   "property": "C26",
   "status": "partial",
   "theorems": [
    "C26_template_exact",
    "C26_template_round_trip_partial",
    "C26_template_round_trip_refuted"
   ],
   "note": "Proved for constant parts without backticks, ${, U+0011, U+0012 and NUL before a digit; a backtick ends the template and ${ starts an evaluation (refuted). C26_template_exact: these conditions are necessary and sufficient."
  },
  {
   "property": "C27",
   "status": "partial",
   "theorems": [
    "C27_dart_exact",
    "C27_dart_denotes",
    "C27_dart_round_trip_partial",
    "C27_dart_round_trip_refuted"
   ],
   "note": "Proved for all strings without U+0011 and U+0012; false of the code for these (wrong escape table). C27_dart_exact: these conditions are necessary and sufficient."
  },
  {
   "property": "C28",
   "status": "partial",
   "theorems": [
    "C28_python_exact",
    "C28_python_denotes",
    "C28_python_round_trip_partial",
    "C28_python_round_trip_refuted"
   ],
   "note": "Proved for all strings without U+0011 and U+0012; false of the code for these (wrong escape table). C28_python_exact: these conditions are necessary and sufficient."
  },
  {
   "property": "C29",
   "status": "partial",
   "theorems": [
    "C29_go_exact",
    "C29_go_denotes",
    "C29_go_round_trip_partial",
    "C29_go_apostrophe_refuted"
   ],
   "note": "Proved for all strings without U+0011, U+0012 and apostrophes; refuted for every string with an apostrophe (\\' is illegal in Go string literals). C29_go_exact: these conditions are necessary and sufficient."
  },
  {
   "property": "C30",
   "status": "partial",
   "theorems": [
    "C30_c_exact",
    "C30_c_round_trip_partial",
    "C30_c_round_trip_refuted",
    "C30_trigraphs_partial",
    "C30_trigraph_refuted",
    "C30_backslash_trigraph_refuted"
   ],
   "note": "Proved for strings without U+0011, U+0012, U+0080-U+009F and control characters before a hexadecimal digit; false of the code otherwise (\\x takes any number of digits; universal character names below U+00A0 are illegal). C30_c_exact: these conditions are necessary and sufficient. Where trigraphs are replaced, C30_trigraphs_partial holds for such strings without trigraphs, and the trigraph theorems refute it for strings with one."
  },
  {
   "property": "C31",
   "status": "partial",
   "theorems": [
    "C31_csharp_exact",
    "C31_csharp_denotes",
    "C31_csharp_round_trip_partial",
    "C31_csharp_round_trip_refuted"
   ],
   "note": "Proved for strings without U+0011, U+0012 and control characters before a hexadecimal digit; false of the code otherwise (\\x takes up to four digits). C31_csharp_exact: these conditions are necessary and sufficient."
  },
  {
   "property": "C32",
   "status": "partial",
   "theorems": [
    "C32_nix_exact",
    "C32_nix_round_trip_partial",
    "C32_nix_round_trip_refuted"
   ],
   "note": "Exactly the strings of printable ASCII, tab, newline and carriage return in which no odd run of dollars precedes an opening brace round-trip (C32_nix_exact); false of the code otherwise (Nix has no numeric escapes, ${ interpolates)."
  },
  {
   "property": "C33",
   "status": "proved",
   "theorems": [
    "C33_printable",
    "C33_no_control"
   ],
   "note": ""
  },
  {
   "property": "C34",
   "status": "partial",
   "theorems": [
    "C34_rust",
    "C34_swift",
    "C34_java",
    "C34_dart",
    "C34_python",
    "C34_js",
    "C34_go",
    "C34_csharp",
    "C34_c",
    "C34_nix",
    "C34_twice",
    "C34_nested_partial",
    "C34_nested_refuted",
    "C34_three_levels_refuted"
   ],
   "note": "The exact text of a doubly quoted value is proved for all strings. In all ten languages it denotes the source of the inner literal exactly if nothing in the string needs escaping (for JavaScript, C, C# and Nix: of the strings that their literals read back, C25, C30-C32). Refuted otherwise (the inner escapes are not escaped again), and a third level is always refused."
  },
  {
   "property": "C35",
   "status": "proved",
   "theorems": [
    "C35_defaults",
    "C35_js",
    "C35_dart",
    "C35_others",
    "C35_literal_anywhere"
   ],
   "note": ""
  },
  {
   "property": "C36",
   "status": "proved",
   "theorems": [
    "C36_c_includes",
    "C36_c_reference"
   ],
   "note": ""
  },
  {
   "property": "C37",
   "status": "partial",
   "theorems": [
    "C37_csharp_resolution_exact",
    "C37_csharp_usings",
    "C37_csharp_resolution_partial",
    "C37_csharp_ambiguous_refuted",
    "C37_csharp_own_namespace_refuted"
   ],
   "note": "Every reference resolves if the file's own and the other imported namespaces declare no type of its name; refuted without (ambiguity, own namespace). The exact condition under which a reference resolves is proved as an equivalence."
  },
  {
   "property": "C38",
   "status": "proved",
   "theorems": [
    "C38_dart_imports",
    "C38_dart_reference"
   ],
   "note": ""
  },
  {
   "property": "C39",
   "status": "proved",
   "theorems": [
    "C39_go_imports",
    "C39_go_reference"
   ],
   "note": ""
  },
  {
   "property": "C40",
   "status": "partial",
   "theorems": [
    "C40_java_resolution_exact",
    "C40_java_imports",
    "C40_java_resolution_partial",
    "C40_java_resolution_refuted"
   ],
   "note": "Every reference resolves if classes of java.lang and of the own package share no simple name with a used class of another package; refuted without. The exact condition under which a reference resolves is proved as an equivalence."
  },
  {
   "property": "C41",
   "status": "partial",
   "theorems": [
    "C41_js_resolution_exact",
    "C41_js_imports",
    "C41_js_resolution_partial",
    "C41_js_defaults_refuted",
    "C41_js_conflict_refuted"
   ],
   "note": "Every reference resolves if no other import binds the same name and no second default import of the module is used; refuted without. The exact condition under which a reference resolves is proved as an equivalence."
  },
  {
   "property": "C42",
   "status": "partial",
   "theorems": [
    "C42_nix_header",
    "C42_variables",
    "C42_nix_resolution_partial",
    "C42_nix_resolution_exact",
    "C42_nix_nested_variable_refuted",
    "C42_nix_nested_with_refuted",
    "C42_nix_conflict_refuted"
   ],
   "note": "Every reference used at top level resolves if names do not clash; with/variables inside the values of variables are not collected by the code (refuted), nor are clashes detected (refuted). C42_nix_resolution_exact says exactly when a reference that is used directly resolves."
  },
  {
   "property": "C43",
   "status": "partial",
   "theorems": [
    "C43_python_resolution_exact",
    "C43_python_imports",
    "C43_python_resolution_partial",
    "C43_python_qualified_alias_refuted",
    "C43_python_conflict_refuted"
   ],
   "note": "Every reference resolves if no two uses bind one name to different objects and no qualified member carries an alias; refuted without. The exact condition under which a reference resolves is proved as an equivalence."
  },
  {
   "property": "C44",
   "status": "partial",
   "theorems": [
    "C44_rust_resolution_exact",
    "C44_rust_uses",
    "C44_rust_resolution_partial",
    "C44_rust_conflict_refuted"
   ],
   "note": "Every reference resolves if nothing else binds its first segment; refuted without. The exact condition under which a reference resolves is proved as an equivalence."
  },
  {
   "property": "C45",
   "status": "proved",
   "theorems": [
    "C45_swift_imports",
    "C45_swift_reference"
   ],
   "note": ""
  },
  {
   "property": "C46",
   "status": "partial",
   "theorems": [
    "C46_js_exact",
    "C46_c",
    "C46_swift",
    "C46_go",
    "C46_dart",
    "C46_java",
    "C46_csharp",
    "C46_csharp_namespace",
    "C46_python",
    "C46_rust",
    "C46_js_partial",
    "C46_nix",
    "C46_js_example",
    "C46_js_refuted"
   ],
   "note": "Proved for all languages; for JavaScript if no module has two default imports (refuted otherwise). C46_js_exact: two streams with the same uses have the same JavaScript header exactly if the first default import of each module is called the same."
  },
  {
   "property": "C47",
   "status": "partial",
   "theorems": [
    "C47_c_exact",
    "C47_swift_exact",
    "C47_go_exact",
    "C47_dart_exact",
    "C47_python_exact",
    "C47_rust_exact",
    "C47_js_exact",
    "C47_nix_exact",
    "C47_java",
    "C47_csharp",
    "C47_c_partial",
    "C47_swift_partial",
    "C47_go_partial",
    "C47_dart_partial",
    "C47_python_partial",
    "C47_rust_partial",
    "C47_js_partial",
    "C47_nix_partial",
    "C47_c_refuted",
    "C47_swift_refuted",
    "C47_go_refuted",
    "C47_dart_refuted",
    "C47_python_refuted",
    "C47_rust_refuted",
    "C47_js_refuted",
    "C47_nix_refuted"
   ],
   "note": "Proved without restriction for Java and C#. For the others if names with the same text are given as the same kind of string; refuted otherwise for each of them (a static and an owned string are compared by kind, so an import is repeated). C47_*_exact: for these languages, an equivalence that says exactly when an import is repeated."
  },
  {
   "property": "C48",
   "status": "partial",
   "theorems": [
    "C48_c",
    "C48_swift",
    "C48_go",
    "C48_dart",
    "C48_java",
    "C48_csharp",
    "C48_python",
    "C48_rust",
    "C48_js",
    "C48_nix",
    "C48_dirty_start_refuted",
    "C48_c_any_body",
    "C48_swift_any_body",
    "C48_go_any_body",
    "C48_dart_any_body",
    "C48_java_any_body",
    "C48_csharp_any_body",
    "C48_python_any_body",
    "C48_rust_any_body",
    "C48_js_any_body",
    "C48_nix_any_body"
   ],
   "note": "Proved exactly for every stream that renders (C48_*_any_body; C# without a namespace, with one for documents that begin with text): below a header the body loses the spaces that a blank line request comes after before its first text and nothing else, so it is unchanged exactly if there are none; such a stream refutes the property as stated."
  },
  {
   "property": "C49",
   "status": "partial",
   "theorems": [
    "C49_dart",
    "C49_csharp",
    "C49_csharp_doc",
    "C49_java",
    "C49_empty",
    "C49_newline_refuted",
    "C49_next_refuted"
   ],
   "note": "Proved for all lines and histories; a supplied line that contains a newline leaves the comment, and text right after the helper joins it (refuted)."
  },
  {
   "property": "C50",
   "status": "proved",
   "theorems": [
    "C50_code",
    "C50_net"
   ],
   "note": ""
  },
  {
   "property": "C51",
   "status": "proved",
   "theorems": [
    "C51_spaces"
   ],
   "note": ""
  },
  {
   "property": "C52",
   "status": "partial",
   "theorems": [
    "C52_source",
    "C52_exact",
    "C52_lines_partial",
    "C52_left_refuted",
    "C52_absent_refuted"
   ],
   "note": "Proved for all lines that may start where they do; for quotes of words, C52_source says exactly which are accepted and what each renders to, and C52_exact that there is a line break between all lines exactly if none is further left than all before it. Refuted otherwise: such a line is glued to the previous one; an element that is empty at run time on an indented line takes the break with it."
  },
  {
   "property": "C53",
   "status": "partial",
   "theorems": [
    "C53_levels",
    "C53_deeper",
    "C53_aligned",
    "C53_first",
    "C53_rejected",
    "C53_left_refuted"
   ],
   "note": "Levels, closing levels and the exact set of rejected quotes are proved; one part of the claim is false: a line further left than the first is accepted and glued to the previous one (refuted)."
  },
  {
   "property": "C54",
   "status": "proved",
   "theorems": [
    "C54_source"
   ],
   "note": ""
  },
  {
   "property": "C55",
   "status": "partial",
   "theorems": [
    "C55_merge",
    "C55_order",
    "C55_interpolation_refuted"
   ],
   "note": "Proved for all quotes outside of interpolations; inside an interpolation joining changes the output (refuted, Dart $foo.bar)."
  },
  {
   "property": "C56",
   "status": "proved",
   "theorems": [
    "C56_join",
    "C56_loop",
    "C56_count"
   ],
   "note": ""
  },
  {
   "property": "C57",
   "status": "proved",
   "theorems": [
    "C57_if",
    "C57_match",
    "C57_single",
    "C57_mean"
   ],
   "note": ""
  },
  {
   "property": "C58",
   "status": "partial",
   "theorems": [
    "C58_accepted",
    "C58_source_partial",
    "C58_constant_partial",
    "C58_tab_refuted",
    "C58_between",
    "C58_constant_exact"
   ],
   "note": "Acceptance is proved exactly. A string of plain tokens is its source exactly if only spaces are between the tokens; whatever is between them counts as that many spaces. Tabs and comments are refuted."
  },
  {
   "property": "C59",
   "status": "proved",
   "theorems": [
    "C59_documents",
    "C59_formats",
    "C59_requires"
   ],
   "note": ""
  },
  {
   "property": "C60",
   "status": "partial",
   "theorems": [
    "C60_append_partial",
    "C60_append_refuted",
    "C60_append"
   ],
   "note": "Holds exactly if the leading whitespace requests of the quote have the same effect on the end of the target as what is left of them, in particular for targets without pending whitespace and for quotes that start with static text or a string; refuted in general."
  },
  {
   "property": "C61",
   "status": "proved",
   "theorems": [
    "C61_grammar",
    "C61_quote_in"
   ],
   "note": ""
  },
  {
   "property": "C62",
   "status": "proved",
   "theorems": [
    "C62_tokens",
    "C62_source",
    "C62_doubled"
   ],
   "note": ""
  },
  {
   "property": "C63",
   "status": "partial",
   "theorems": [
    "C63_variable",
    "C63_names",
    "C63_string_refuted"
   ],
   "note": "Proved in quotes for every bracket depth. Inside $[str](..) it is false: brackets there are a single token of text, see C63_string_refuted."
  },
  {
   "property": "C64",
   "status": "partial",
   "theorems": [
    "C64_go_resolution_exact",
    "C64_go_resolution_partial",
    "C64_go_clash_refuted",
    "C64_go_package_name_refuted"
   ],
   "note": "Every reference resolves if packages are called as the last element of their path and no two used packages share a name; refuted without (a/bar and b/bar are both imported as bar; gopkg.in/yaml.v2 is referred to as yaml.v2). The exact condition under which a reference resolves is proved as an equivalence."
  },
  {
   "property": "C65",
   "status": "partial",
   "theorems": [
    "C65_dart_resolution_exact",
    "C65_dart_resolution_partial",
    "C65_dart_core_alias_refuted",
    "C65_dart_ambiguous_refuted"
   ],
   "note": "Every reference resolves if dart:core is not given an alias and visible libraries do not declare the same name; refuted without (the alias of dart:core is written but never declared). The exact condition under which a reference resolves is proved as an equivalence."
  },
  {
   "property": "C66",
   "status": "partial",
   "theorems": [
    "C66_swift_resolution_exact",
    "C66_swift_resolution_partial",
    "C66_swift_ambiguous_refuted"
   ],
   "note": "Every reference resolves if no other used module declares its name; refuted without. The exact condition under which a reference resolves is proved as an equivalence."
  },
  {
   "property": "C67",
   "status": "partial",
   "theorems": [
    "C67_js_paths",
    "C67_js_relative_partial",
    "C67_js_relative_exact",
    "C67_js_below_refuted",
    "C67_js_directory_refuted",
    "C67_js_above_refuted",
    "C67_js_paths_exact"
   ],
   "note": "The specifier leads from the module path, taken as a directory, to the module exactly if the module path does not start further above than the path (C67_js_paths_exact; otherwise it is empty, C67_js_above_refuted); it is a relative specifier exactly if the module is not below the module path (C67_js_relative_exact). Resolved from the directory of the importing file, as JavaScript does, it never leads to the module (C67_js_directory_refuted). RelativePath::relative is modelled from the published crate; its source is not in /repo."
  },
  {
   "property": "C68",
   "status": "proved",
   "theorems": [
    "C68_offsets",
    "C68_rows",
    "C68_accepted",
    "C68_one_line",
    "C68_configuration",
    "C68_words"
   ],
   "note": "For every prefix of the span text and all offsets below 2^64, all token trees on one line, all values; that the compiler shows spans as it does is assumed."
  },
  {
   "property": "C69",
   "status": "proved",
   "theorems": [
    "C69_string",
    "C69_reference",
    "C69_stream",
    "C69_values",
    "C69_inline",
    "C69_blocks",
    "C69_steady",
    "C69_nested",
    "C69_alone",
    "C69_built",
    "C69_file"
   ],
   "note": ""
  },
  {
   "property": "C70",
   "status": "partial",
   "theorems": [
    "C70_source",
    "C70_inconsistent",
    "C70_values",
    "C70_inline",
    "C70_nested",
    "C70_file",
    "C70_left_refuted",
    "C70_deeper_refuted",
    "C70_comment_refuted"
   ],
   "note": "Holds for quotes without lines further left than the first one and with values that end at the level they start at; refuted for a line further left, for a line directly after a value that ends deeper, and where a comment is further left than the code."
  },
  {
   "property": "C71",
   "status": "proved",
   "theorems": [
    "C71_equal",
    "C71_interchangeable",
    "C71_vectors",
    "C71_agrees",
    "C71_order",
    "C71_lexicographic",
    "C71_origin"
   ],
   "note": ""
  },
  {
   "property": "C72",
   "status": "partial",
   "theorems": [
    "C72_empty_value",
    "C72_false",
    "C72_no_elements",
    "C72_bindings",
    "C72_absent",
    "C72_blocks",
    "C72_nested",
    "C72_file",
    "C72_leading_refuted",
    "C72_level_refuted"
   ],
   "note": "Holds where other words stand on the line; refuted for an absent value that starts a line and for one that is alone on a line before a deeper one."
  },
  {
   "property": "C73",
   "status": "partial",
   "theorems": [
    "C73_js",
    "C73_js_string",
    "C73_python",
    "C73_python_module",
    "C73_python_alias_refuted",
    "C73_rust",
    "C73_rust_module_partial",
    "C73_rust_last_refuted",
    "C73_c",
    "C73_dart",
    "C73_csharp",
    "C73_go",
    "C73_swift",
    "C73_java"
   ],
   "note": "Holds for all chains of calls but two: with_alias on a qualified Python import does not undo the qualification as documented, and after with_module_alias later calls on a Rust import have no effect (refuted); C73_rust_module_partial says what such a chain does."
  },
  {
   "property": "C74",
   "status": "proved",
   "theorems": [
    "C74_body",
    "C74_if",
    "C74_match",
    "C74_loop",
    "C74_plain",
    "C74_apart",
    "C74_separated",
    "C74_separator_text",
    "C74_separator_control",
    "C74_separator_both"
   ],
   "note": ""
  },
  {
   "property": "C75",
   "status": "partial",
   "theorems": [
    "C75_code",
    "C75_words",
    "C75_js_code_partial",
    "C75_dart_code_partial",
    "C75_js_partial",
    "C75_dart_partial",
    "C75_js_quoted_partial",
    "C75_dart_quoted_partial",
    "C75_dart_refuted",
    "C75_js_refuted"
   ],
   "note": "Holds for constant text that round-trips (C26, C27) and for code that the language reads to its end; refuted in general (Dart: a name is continued by the text after it and only a name is read; JavaScript: a backtick ends the template)."
  },
  {
   "property": "C76",
   "status": "proved",
   "theorems": [
    "C76_source",
    "C76_words",
    "C76_reads",
    "C76_rust",
    "C76_swift"
   ],
   "note": ""
  },
  {
   "property": "C77",
   "status": "partial",
   "theorems": [
    "C77_stays",
    "C77_kept",
    "C77_element",
    "C77_expression",
    "C77_level",
    "C77_loop",
    "C77_join",
    "C77_if",
    "C77_match",
    "C77_indentation_refuted",
    "C77_text_refuted"
   ],
   "note": "All but two parts hold for every exit point: the indentation of the line that is left stays in the stream (C77_level says how much, C77_indentation_refuted that later text is indented), and static text directly in front of a block $(ref _ => ..) is lost if the block leaves (C77_text_refuted). For break and continue see C79. Panics inside of FormatInto are not modelled."
  },
  {
   "property": "C78",
   "status": "proved",
   "theorems": [
    "C78_advice",
    "C78_reported"
   ],
   "note": ""
  },
  {
   "property": "C79",
   "status": "partial",
   "theorems": [
    "C79_leaves",
    "C79_stays",
    "C79_element",
    "C79_loop",
    "C79_join",
    "C79_if",
    "C79_skip",
    "C79_join_skip_partial",
    "C79_join_skip_last",
    "C79_join_skip_refuted",
    "C79_pattern_refuted",
    "C79_indentation_refuted"
   ],
   "note": "Jumps act as in Rust for all quotes. Skipping elements at the start of a round is the loop over the others, with separators if the last element is not skipped; otherwise the separator is written after each kept element, also the last (C79_join_skip_last is that behaviour exactly, C79_join_skip_refuted the finding). The pattern of a joined loop silently ends the loop at the first element it does not match (C79_pattern_refuted), and continue from an indented line leaves its indentation in the stream (C79_indentation_refuted)."
  },
  {
   "property": "C80",
   "status": "proved",
   "theorems": [
    "C80_words",
    "C80_source",
    "C80_code",
    "C80_reads",
    "C80_rust"
   ],
   "note": ""
  },
  {
   "property": "C81",
   "status": "partial",
   "theorems": [
    "C81_scopes",
    "C81_quote",
    "C81_restored",
    "C81_unshadowed",
    "C81_iterator_refuted"
   ],
   "note": "For all quotes and environments, but for one name: the code of a loop with a separator has a variable of its own, so that a variable __it of the user is not in scope in it (C81_iterator_refuted). C81_unshadowed links the models without scopes (C52-C80) to the one with scopes."
  },
  {
   "property": "C82",
   "status": "proved",
   "theorems": [
    "C82_effects",
    "C82_stream",
    "C82_log"
   ],
   "note": ""
  },
  {
   "property": "C83",
   "status": "partial",
   "theorems": [
    "C83_string_session",
    "C83_sink_session",
    "C83_bytes_session",
    "C83_vec_lines",
    "C83_formatter_jobs",
    "C83_formatter_files_partial",
    "C83_vec_files_refuted",
    "C83_formatter_imports_refuted",
    "C83_formatter_level_refuted"
   ],
   "note": "Proved for strings, bytes and any sink. Two parts are refuted: one vector of lines joins the last line of a file with the first of the next (C83_vec_lines is the exact behaviour); one formatter adds an empty line before a file with imports and keeps the level an unbalanced file leaves (C83_formatter_jobs is the exact behaviour, C83_formatter_files_partial when files are unaffected)."
  },
  {
   "property": "C84",
   "status": "proved",
   "theorems": [
    "C84_code",
    "C84_rust_file",
    "C84_parsed"
   ],
   "note": "Proved for Rust files whose interpolations are imports (C84_rust_file) and, without the file, for any language whose literals read as Rust's and interpolations on one line (C84_code). Reading covers what SpecReread covers: no comments, raw strings or byte strings."
  },
  {
   "property": "C85",
   "status": "proved",
   "theorems": [
    "C85_settings",
    "C85_library",
    "C85_nested_needed",
    "C85_languages"
   ],
   "note": "C85_nested_needed shows that the condition on nested quotes cannot be dropped: a quoted value inside of a string has the newline of the configuration in it, escaped (see C14)."
  },
  {
   "property": "C86",
   "status": "proved",
   "theorems": [
    "C86_c_file",
    "C86_swift_file",
    "C86_go_file",
    "C86_dart_file",
    "C86_java_file",
    "C86_csharp_file",
    "C86_js_file",
    "C86_python_file",
    "C86_nix_file"
   ],
   "note": "One theorem for each language. Rust is C84. C# with a namespace around the program, and interpolations that show several lines, are not covered. The conditions for resolution are equivalences."
  },
  {
   "property": "C87",
   "status": "proved",
   "theorems": [
    "C87_c_file",
    "C87_swift_file",
    "C87_go_file",
    "C87_dart_file",
    "C87_java_file",
    "C87_csharp_file",
    "C87_csharp_namespace_file",
    "C87_js_file",
    "C87_python_file",
    "C87_nix_file",
    "C87_rust_file"
   ],
   "note": "One theorem for each language, Rust included. Parts that show nothing are covered where C72 says that they are as if not in the source, but not as the first or last word. Parts may end indented if they are last on their lines and the next line is not further right. Not covered: match arms in parentheses, rounds that end indented with a separator that shows a word or a space, interpolated strings. The conditions for resolution are equivalences."
  },
  {
   "property": "C88",
   "status": "proved",
   "theorems": [
    "C88_rust_file"
   ],
   "note": ""
  },
  {
   "property": "C89",
   "status": "proved",
   "theorems": [
    "C89_dart",
    "C89_csharp",
    "C89_csharp_doc",
    "C89_java"
   ],
   "note": "Proved in exact form: which lines leave the comment. Such lines exist and are not escaped (finding 39)."
  },
  {
   "property": "C90",
   "status": "proved",
   "theorems": [
    "C90_c_tokens",
    "C90_swift_tokens",
    "C90_go_tokens",
    "C90_dart_tokens",
    "C90_js_tokens",
    "C90_csharp_tokens",
    "C90_csharp_namespace_tokens",
    "C90_java_tokens"
   ],
   "note": "One theorem for each language. Nix and Python are not covered (dollar signs in strings, tokens that depend on the layout). Java: after the translation of Unicode escapes, for texts without backslashes and with code points below U+10000. The reader knows no comments, regular expressions, other kinds of quotes or automatic semicolons."
  },
  {
   "property": "C91",
   "status": "proved",
   "theorems": [
    "C91_file"
   ],
   "note": "Parts that end deeper than they start must be last on their lines, and the next line not further right: what happens otherwise is finding 25. Brackets and literals over several lines are not modelled."
  }
 ]
}