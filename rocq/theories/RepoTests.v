(** * The tests of /repo and the examples of its macro documentation, run on the model.

    These are tests of the model against outputs stated in /repo, not properties.
    Each quote is given as its source text; what its Rust expressions mean is given
    by a table.  Emoji are left out: the reader of source text knows ASCII only. *)
From Coq Require Import String.
From Verif Require Import Str Tokens SpecTokens TokensRun Values Fmt LangBase LangRust LangPython LangDart LangJs
  LangGo LangJava Macro Parse Source.
Local Open Scope list_scope.

(** The text of code in a table. *)
Definition key (s : string) : str := match trees (lit s) with Some ts => source_key ts | None => [] end.
Arguments key s%string.
Definition scope (name code : string) : str := lit name ++ $" => " ++ key code.
Arguments scope (name code)%string.
Definition set {LI} (k : str) (v : value LI) (e : environment LI) : environment LI := (k, v) :: e.
Definition txt {LI} (s : string) : item LI := Literal (Static (lit s)).
Definition box {LI} (s : string) : item LI := Literal (Box (lit s)).
Arguments txt {LI} s%string. Arguments box {LI} s%string.
(** Tables with entries of one kind. *)
Definition T_value {LI} (l : list (str * value LI)) : table LI :=
  mk_table (map (fun p => (fst p, fun _ => snd p)) l) [] [] [] [] [].
Definition T_bool {LI} (l : list (str * bool)) : table LI :=
  mk_table [] (map (fun p => (fst p, fun e => (snd p, e))) l) [] [] [] [].
Definition T_if_let {LI} (l : list (str * (environment LI -> environment LI))) (lets : list (str * (environment LI -> environment LI))) : table LI :=
  mk_table [] (map (fun p => (fst p, fun e => (true, snd p e))) l) [] [] lets [].
Definition T_each {LI} (k : str) (l : list (environment LI -> environment LI)) : table LI :=
  mk_table [] [] [(k, fun _ => l)] [] [] [].
Definition T_select {LI} (k : str) (n : nat) : table LI := mk_table [] [] [] [(k, fun e => (n, e))] [] [].
Definition T_let {LI} (k : str) (f : environment LI -> environment LI) : table LI := mk_table [] [] [] [] [(k, f)] [].
Definition T_code {LI} (k : str) (cs : list (call LI)) : table LI := mk_table [] [] [] [] [] [(k, fun _ => cs)].
Definition qt {LI} (T : table LI) (s : string) e := quote_text T (lit s) e.
Definition qt_in {LI} (T : table LI) (s : string) e t := quote_in_text T (lit s) e t.
Arguments qt {LI} T s%string e. Arguments qt_in {LI} T s%string e t.
Definition items_of {LI} (t : option (tokens LI)) : option (list (item LI)) := option_map items t.
Ltac test := vm_compute; reflexivity.
Notation rs := (option (tokens rust_import)).

(** ** tests/test_token_gen.rs *)

(** lines 7-31 *)
Example test_token_gen : items_of (qt
  (T_code (scope "tokens" "quote_in! { *tokens => hello }") [CItem (txt "hello")]) "
        foo
        bar
        baz
            $(ref tokens => quote_in! { *tokens => hello })
        out?
    " [] : rs) =
  Some [txt "foo"; Push; txt "bar"; Push; txt "baz"; Indentation 1; txt "hello"; Indentation (-1); txt "out?"].
Proof. test. Qed.
(** lines 33-74 *)
Definition three_numbers {LI} : list (call LI) :=
  [CPush; CItem (box "0"); CPush; CItem (box "1"); CPush; CItem (box "2")].
Example test_iterator_gen :
  items_of (qt (T_code (scope "t" "for n in 0..3 { t.push(); t.append(n); }") three_numbers) "
        $(ref t => for n in 0..3 {
            t.push();
            t.append(n);
        })
    " [] : rs) = Some [Push; box "0"; Push; box "1"; Push; box "2"] /\
  items_of (qt (T_code (scope "t" "for n in 0..3 { t.push(); t.append(n); }") three_numbers) "
        $(ref t {
            for n in 0..3 {
                t.push();
                t.append(n);
            }
        })
    " [] : rs) = Some [Push; box "0"; Push; box "1"; Push; box "2"].
Proof. split; test. Qed.
(** lines 76-105 *)
Example test_tricky_continuation : items_of (qt_in
  (T_code (scope "output" "output.append(&bar); output.append(Static("","")); output.space();")
     [CItem (txt "bar"); CItem (txt ","); CSpace]) "
        output =>
        foo, $(ref output {
            output.append(&bar);
            output.append(Static("",""));
            output.space();
        })baz
        biz
    " [] new : rs) =
  Some [txt "foo,"; Space; txt "bar"; txt ","; Space; txt "baz"; Push; txt "biz"].
Proof. test. Qed.
(** lines 107-151 *)
Example test_indentation :
  items_of (qt_in no_table " a =>
        a
            b
        c
    " [] new : rs) = Some [txt "a"; Indentation 1; txt "b"; Indentation (-1); txt "c"] /\
  items_of (qt_in no_table "
        b =>
        a
            b
        c
    " [] new : rs) = Some [txt "a"; Indentation 1; txt "b"; Indentation (-1); txt "c"].
Proof. split; test. Qed.
(** lines 153-196 *)
Definition zip3 : table rust_import := T_each (key "(a, b) in (0..3).zip(3..6)")
  [fun e => set $"a" (VInt 0) (set $"b" (VInt 3) e); fun e => set $"a" (VInt 1) (set $"b" (VInt 4) e);
   fun e => set $"a" (VInt 2) (set $"b" (VInt 5) e)].
Example test_repeat :
  items_of (qt zip3 "
        foo $(for (a, b) in (0..3).zip(3..6) => $a $b)
    " []) = Some [txt "foo"; Space; box "0"; Space; box "3"; box "1"; Space; box "4"; box "2"; Space; box "5"] /\
  items_of (qt zip3 "
        foo $(for (a, b) in (0..3).zip(3..6) { $a $b })
    " []) = Some [txt "foo"; Space; box "0"; Space; box "3"; box "1"; Space; box "4"; box "2"; Space; box "5"].
Proof. split; test. Qed.
(** lines 198-212 *)
Example test_tight_quote : items_of (qt no_table "
        You are:$(""fine"")
    " [] : rs) = Some [txt "You"; Space; txt "are:fine"].
Proof. test. Qed.
(** lines 214-236 *)
Example test_tight_repitition : items_of (qt
  (T_each (key "v in 0..3") [set $"v" (VInt 0); set $"v" (VInt 1); set $"v" (VInt 2)]) "
        You are: $(for v in 0..3 join (, ) => $v)
    " [] : rs) =
  Some [txt "You"; Space; txt "are:"; Space; box "0"; txt ","; Space; box "1"; txt ","; Space; box "2"].
Proof. test. Qed.
(** lines 238-267 *)
Example test_if : items_of (qt (T_bool [($"a", true); ($"b", false)]) "
        $(if a => foo)
        $(if a { foo2 })
        $(if b { bar })
        $(if b => bar2)
        $(if a => baz)
        $(if a { baz2 })
        $(if b { not_biz } else { biz })
    " [] : rs) =
  Some [txt "foo"; Push; txt "foo2"; Push; txt "baz"; Push; txt "baz2"; Push; txt "biz"].
Proof. test. Qed.
(** lines 269-323 *)
Example test_match :
  let t n := items_of (qt (T_select $"alt" n) "
            $(match alt { Alt::A => a, Alt::B => b })
        " [] : rs) in
  let t2 n := items_of (qt (T_select $"alt" n) "
            $(match alt { Alt::A => { a }, Alt::B => { b } })
        " [] : rs) in
  let t2_cond n := items_of (qt (T_select $"alt" n) "
            $(match alt { Alt::A if cond => { a }, _ => { b } })
        " [] : rs) in
  t 0 = Some [txt "a"] /\ t 1 = Some [txt "b"] /\ t2 0 = Some [txt "a"] /\ t2 1 = Some [txt "b"] /\
  t2_cond 0 = Some [txt "a"] /\ t2_cond 1 = Some [txt "b"].
Proof. repeat split; test. Qed.
(** lines 325-375 *)
Example test_let :
  items_of (qt (T_let (key "x = 1") (set $"x" (VInt 1))) "
        $(let x = 1) $x
    " [] : rs) = Some [Space; box "1"] /\
  items_of (qt (T_let (key "(a, b) = (""c"", ""d"")") (fun e => set $"a" (VStr $"c") (set $"b" (VStr $"d") e))) "
        $(let (a, b) = (""c"", ""d"")) $a, $b
    " [] : rs) = Some [Space; box "c"; txt ","; Space; box "d"] /\
  items_of (qt (T_let (key "a = baz(x)") (set $"a" (VStr $"barbaz"))) "
        $(let a = baz(x)) $a
    " [] : rs) = Some [Space; box "barbaz"] /\
  items_of (qt (T_let (key "even = if x % 2 == 0 { ""even"" } else { ""odd"" }") (set $"even" (VStr $"even"))) "
        $(let even = if x % 2 == 0 { ""even"" } else { ""odd"" }) $even
    " [] : rs) = Some [Space; box "even"].
Proof. repeat split; test. Qed.
(** lines 377-408; src/lib.rs:664-680 *)
Definition split_table : table unit := T_if_let
  [(key "let Some(first) = items.next()", set $"first" (VStr $"A"));
   (key "let Some(second) = items.next()", set $"second" (VStr $"B"))]
  [(key "mut items = path.split('.')", fun e => e)].
Definition mutable_let : option (tokens unit) := qt split_table "
        $(let mut items = path.split('.'))
        $(if let Some(first) = items.next() =>
            First is $first
        )
        $(if let Some(second) = items.next() =>
            Second is $second
        )
    " [].
Example test_mutable_let : items_of mutable_let =
  Some [Push; txt "First"; Space; txt "is"; Space; box "A"; Push; txt "Second"; Space; txt "is"; Space; box "B"].
Proof. test. Qed.
(** lines 410-449 *)
Definition nothing3 : table rust_import := T_each (key "_ in 0..3") [fun e => e; fun e => e; fun e => e].
Example test_empty_loop_whitespace :
  items_of (qt nothing3 "
        $(for _ in 0..3 join(,) =>)
    " []) = Some [txt ","; txt ","] /\
  items_of (qt nothing3 "
        $(for _ in 0..3 join( ,) =>)
    " []) = Some [Space; txt ","; Space; txt ","] /\
  items_of (qt nothing3 "
          $(for _ in 0..3 join(, ) =>)
    " []) = Some [txt ","; Space; txt ","; Space] /\
  items_of (qt nothing3 "
          $(for _ in 0..3 join( , ) =>)
    " []) = Some [Space; txt ","; Space; txt ","; Space].
Proof. repeat split; test. Qed.
(** lines 451-494 *)
Example test_indentation_empty :
  items_of (qt nothing3 "
        a
            $(for _ in 0..3 =>)
        b
    " []) = Some [txt "a"; txt "b"] /\
  items_of (qt (T_bool [($"false", false)]) "
        a
            $(if false {})
        b
    " [] : rs) = Some [txt "a"; txt "b"] /\
  items_of (qt (T_code $"_tokens => " []) "
        a
            $(ref _tokens =>)
        b
    " [] : rs) = Some [txt "a"; txt "b"].
Proof. repeat split; test. Qed.
(** lines 496-553 *)
Example test_indentation_management :
  items_of (qt no_table "
        if a:
            if b:
                foo
        else:
            c
    " [] : rs) =
  Some [txt "if"; Space; txt "a:"; Indentation 1; txt "if"; Space; txt "b:"; Indentation 1; txt "foo";
        Indentation (-2); txt "else:"; Indentation 1; txt "c"; Indentation (-1)] /\
  items_of (qt (T_bool [($"false", false); ($"true", true)]) "
        if a:
            if b:
                foo

        $(if false => bar)

        $(if true => baz)
    " [] : rs) =
  Some [txt "if"; Space; txt "a:"; Indentation 1; txt "if"; Space; txt "b:"; Indentation 1; txt "foo";
        Indentation (-2); Line; txt "baz"].
Proof. split; test. Qed.
(** lines 555-590 *)
Definition foo_bar_py : option (tokens py_import) := qt no_table "
        def foo():
            pass

        def bar():
            pass
    " [].
Example test_indentation_management2 :
  items_of foo_bar_py =
    Some [txt "def"; Space; txt "foo():"; Indentation 1; txt "pass"; Indentation (-1); Line;
          txt "def"; Space; txt "bar():"; Indentation 1; txt "pass"; Indentation (-1)] /\
  bind foo_bar_py (to_file_vec python_lang) =
    Some [$"def foo():"; $"    pass"; []; $"def bar():"; $"    pass"].
Proof. split; test. Qed.
(** lines 592-634 *)
Definition two_fns : rs := bind (qt no_table "
        fn foo() {
        }
    " []) (fun t => qt_in (T_bool [($"false", false)]) " tokens =>
        $(if false =>)
        fn bar() {
        }
    " [] (line t)).
Example test_lines :
  items_of two_fns =
    Some [txt "fn"; Space; txt "foo()"; Space; txt "{"; Push; txt "}"; Line;
          txt "fn"; Space; txt "bar()"; Space; txt "{"; Push; txt "}"] /\
  bind two_fns (to_file_vec rust_lang) = Some [$"fn foo() {"; $"}"; []; $"fn bar() {"; $"}"].
Proof. split; test. Qed.

(** ** The other tests *)
(** Quote, then render. *)
Definition show {LI C F} (L : lang_def LI C F) (t : option (tokens LI)) : option str := bind t (to_string L).
Definition show_file {LI C F} (L : lang_def LI C F) (t : option (tokens LI)) : option (list str) := bind t (to_file_vec L).
Definition lines (l : list string) : option str := Some (join [10%N] (map lit l)).
Definition file (l : list string) : option (list str) := Some (map lit l).

(** tests/test_quote.rs:4-47 *)
Example test_quote :
  show rust_lang (qt (T_value [($"test", VQuoted (VStr $"one"))]) "
        fn test() -> u32 {
            println!(""{}"", $(test));

            42
        }
    " []) = lines ["fn test() -> u32 {"; "    println!(""{}"", ""one"");"; ""; "    42"; "}"]%string /\
  show rust_lang (qt (T_value [(key "quoted(""two"")", VQuoted (VStr $"two"))]) "
        fn test() -> u32 {
            println!(""{}"", $(quoted(""two"")));

            42
        }
    " []) = lines ["fn test() -> u32 {"; "    println!(""{}"", ""two"");"; ""; "    42"; "}"]%string /\
  show rust_lang (qt no_table "
        fn test() -> u32 {
            println!(""{}"", $$(quoted(""two"")));

            42
        }
    " []) = lines ["fn test() -> u32 {"; "    println!(""{}"", $(quoted(""two"")));"; ""; "    42"; "}"]%string.
Proof. repeat split; test. Qed.
(** tests/test_quote.rs:49-79 *)
Example test_quote_tight :
  show rust_lang (qt (T_value [($"a", VStr $"foo"); ($"b", VStr $"bar"); ($"c", VStr $"baz")]) "$(a)$(b)$(c)" []) =
  lines ["foobarbaz"%string].
Proof. test. Qed.
Example test_escape :
  show rust_lang (qt no_table "$$$$ $$ $$$$ $$$$ $$ $$ $$[test]" []) = lines ["$$ $ $$ $$ $ $ $[test]"%string].
Proof. test. Qed.
Example test_scope :
  let inner := match qt_in no_table "*tokens => fn test() -> u32 { 42 }" [] new : rs with Some t => items t | None => [] end in
  show rust_lang (qt (T_code (scope "tokens" "quote_in!(*tokens => fn test() -> u32 { 42 });") [CExtend inner]) "
        // Nested factory.
        $(ref tokens {
            quote_in!(*tokens => fn test() -> u32 { 42 });
        })
    " []) = lines ["fn test() -> u32 { 42 }"%string].
Proof. test. Qed.
(** tests/test_quote_in.rs *)
Example test_quote_in : show rust_lang (qt_in no_table "tokens => fn hello() -> u32 { 42 }" [] new) = lines ["fn hello() -> u32 { 42 }"%string].
Proof. test. Qed.
Example test_quote_into_unit : show go_lang (qt_in no_table "*tokens => uint32" [] new) = lines ["uint32"%string].
Proof. test. Qed.
(** tests/test_quote_simple_expression.rs *)
Example test_quote_simple_expression :
  let expr := match qt no_table "test" [] : rs with Some t => VTokens t | None => VStr [] end in
  let T := T_value [($"expr", expr); (key "quote!(test)", expr)] in
  show rust_lang (qt T "fn $(""test"")()" []) = lines ["fn test()"%string] /\
  show rust_lang (qt T "fn $expr()" [($"expr", expr)]) = lines ["fn test()"%string] /\
  show rust_lang (qt T "fn $(expr)()" []) = lines ["fn test()"%string] /\
  show rust_lang (qt T "fn $(quote!(test))()" []) = lines ["fn test()"%string].
Proof. repeat split; test. Qed.
(** tests/test_string.rs *)
Example test_quoted :
  show dart_lang (qt (T_value [(key "quoted(""World"")", VQuoted (VStr $"World"))]) "$[str](Hello $($(quoted(""World""))))" []) =
    lines ["""Hello ${""World""}"""%string] /\
  show dart_lang (qt no_table "$[str](Hello ""World"")" []) = lines ["""Hello \""World\"""""%string] /\
  show dart_lang (qt no_table "$[str](Hello $(World))" []) = lines ["""Hello $World"""%string] /\
  show (js_lang (fun _ p => p)) (qt no_table "$[str](Hello $(World))" []) = lines ["`Hello ${World}`"%string].
Proof. repeat split; test. Qed.
Example test_string_in_string_in :
  show dart_lang (qt no_table "$[str](Hello $($[str]($($[str](World)))))" []) = lines ["""Hello ${""${""World""}""}"""%string] /\
  show (js_lang (fun _ p => p)) (qt no_table "$[str](Hello $($[str]($($[str](World)))))" []) = lines ["`Hello ${`${""World""}`}`"%string].
Proof. repeat split; test. Qed.
(** tests/test_option.rs *)
Example test_option :
  let one := match qt (T_value [(key "quoted(""one"")", VQuoted (VStr $"one"))]) "println!(""{}"", $(quoted(""one"")))" [] : rs with
             | Some t => VTokens t | None => VStr [] end in
  show_file rust_lang (qt no_table "
        fn test_option() -> u32 {
            $test1
            $test2

            42
        }
    " [($"test1", VOption (Some one)); ($"test2", VOption None)]) =
  file ["fn test_option() -> u32 {"; "    println!(""{}"", ""one"")"; ""; "    42"; "}"]%string.
Proof. test. Qed.
(** tests/test_register.rs *)
Example test_register :
  let import := rust_with_alias (Static $"_") (rust_new (Static $"std::iter") (Static $"FromIterator")) in
  show_file rust_lang (qt (T_value [(key "register(import)", VRegister (RItem import))]) "
        $(register(import))
        // additional lines are ignored!

        fn test() -> u32 {
            42
        }
    " []) = file ["use std::iter::FromIterator as _;"; ""; "fn test() -> u32 {"; "    42"; "}"]%string.
Proof. test. Qed.
(** tests/test_indentation_rules.rs *)
Example test_indentation_rules :
  show rust_lang (qt no_table "fn     test()" []) = lines ["fn test()"%string] /\
  show rust_lang (qt no_table "
        fn test() {
            println!(""Hello..."");


            println!(""... World!"");
        }
    " []) = lines ["fn test() {"; "    println!(""Hello..."");"; ""; "    println!(""... World!"");"; "}"]%string /\
  show rust_lang (qt no_table "
        fn test() {
            println!(""Hello..."");
            println!(""... World!"");
        }
    " []) = lines ["fn test() {"; "    println!(""Hello..."");"; "    println!(""... World!"");"; "}"]%string.
Proof. repeat split; test. Qed.

(** ** Documentation of the macros: src/lib.rs *)

(** lines 99-124, 211-233 and src/tokens/quoted.rs:15-35 *)
Definition hash_map : rust_import := rust_new (Static $"std::collections") (Static $"HashMap").
Example doc_imports :
  show_file rust_lang (qt no_table "
     fn main() {
         let mut m = $hash_map::new();
         m.insert(1u32, 2u32);
     }
 " [($"hash_map", VLang hash_map)]) =
    file ["use std::collections::HashMap;"; ""; "fn main() {"; "    let mut m = HashMap::new();";
          "    m.insert(1u32, 2u32);"; "}"]%string /\
  show_file rust_lang (qt no_table "
     struct Quoted {
         field: $hash_map<u32, u32>,
     }
 " [($"hash_map", VLang hash_map)]) =
    file ["use std::collections::HashMap;"; ""; "struct Quoted {"; "    field: HashMap<u32, u32>,"; "}"]%string /\
  show_file rust_lang (qt (T_value [(key "quoted(""hello\"" world"")", VQuoted (VStr $"hello"" world"))]) "
     let mut m = $map::<u32, &str>::new();
     m.insert(0, $(quoted(""hello\"" world"")));
 " [($"map", VLang hash_map)]) =
    file ["use std::collections::HashMap;"; ""; "let mut m = HashMap::<u32, &str>::new();";
          "m.insert(0, ""hello\"" world"");"]%string.
Proof. repeat split; test. Qed.
(** lines 183-200, in Dart *)
Example doc_dart_quote :
  show_file dart_lang (qt no_table "
     print_greeting(String name) {
         print($[str](Hello $(name)));
     }

     $hash_map<int, String> map() {
         return new $hash_map<int, String>();
     }
 " [($"hash_map", VLang (mk_dart (Static $"dart:collection") (Static $"HashMap") None))]) =
  file ["import ""dart:collection"";"; ""; "print_greeting(String name) {"; "    print(""Hello $name"");"; "}"; "";
        "HashMap<int, String> map() {"; "    return new HashMap<int, String>();"; "}"]%string.
Proof. test. Qed.
(** lines 239-248 *)
Example doc_expression :
  show unit_lang (qt (T_value [(key """world"".to_uppercase()", VStr $"WORLD")]) "
     hello $(""world"".to_uppercase())
 " []) = lines ["hello WORLD"%string].
Proof. test. Qed.
(** lines 298-307 *)
Example doc_escapes : show unit_lang (qt no_table "foo$['\r']bar$['\n']baz$[' ']biz" []) = lines ["foo"; "bar"; ""; "baz biz"]%string.
Proof. test. Qed.
(** lines 318-338 and 358-387, without emoji *)
Definition world : table java_import := T_value
  [(key "quoted(""hello world"")", VQuoted (VStr $"hello world"))].
Definition four_strings : option (tokens java_import) := qt world "
     ""hello world""
     $(quoted(""hello world""))
     $(""\""hello world\"""")
     $[str](hello $[const](""world""))
 " [].
Example doc_strings :
  items_of four_strings =
    Some [OpenQuote false; txt "hello world"; CloseQuote; Push; OpenQuote false; box "hello world"; CloseQuote; Push;
          txt """hello world"""; Push; OpenQuote false; txt "hello world"; CloseQuote] /\
  show_file java_lang four_strings = file ["""hello world"""; """hello world"""; """hello world"""; """hello world"""]%string.
Proof. split; test. Qed.
(** lines 410-440 *)
Definition smile : table dart_import := T_value [($"smile", VStr $":-)")].
Example doc_interpolation :
  show (js_lang (fun _ p => p)) (qt (T_value [($"smile", VStr $":-)")]) "$[str](Hello $[const](smile) $world)" []) =
    lines ["`Hello :-) ${world}`"%string] /\
  show dart_lang (qt smile "$[str](Hello $[const](smile) $(world))" []) = lines ["""Hello :-) $world"""%string] /\
  show dart_lang (qt smile "$[str](Hello $[const](smile) $(a + b))" []) = lines ["""Hello :-) ${a + b}"""%string] /\
  show (js_lang (fun _ p => p)) (qt (T_value [($"smile", VStr $":-)")]) "$[str](Hello $[const](smile) $(world))" []) =
    lines ["`Hello :-) ${world}`"%string].
Proof. repeat split; test. Qed.
(** lines 470-481 and 496-507 *)
Definition numbers : table unit := T_each (key "n in numbers") [set $"n" (VInt 3); set $"n" (VInt 4); set $"n" (VInt 5)].
Example doc_loops :
  show unit_lang (qt numbers "
     Your numbers are: $(for n in numbers => $n$[' '])
 " []) = lines ["Your numbers are: 3 4 5"%string] /\
  show unit_lang (qt numbers "
     Your numbers are: $(for n in numbers join (, ) => $n).
 " []) = lines ["Your numbers are: 3, 4, 5."%string].
Proof. split; test. Qed.
(** lines 521-560 *)
Example doc_conditionals :
  let name := [($"name", VStr $"John")] in
  let t b := show unit_lang (qt (T_bool [($"hello", b)]) "Custom Greeting: $(if hello {
         Hello $name
     } else {
         Goodbye $name
     })" name) in
  let t2 b := show unit_lang (qt (T_bool [($"hello", b)]) "Custom Greeting:$(if hello {
         $[' ']Hello $name
     })" name) in
  t true = lines ["Custom Greeting: Hello John"%string] /\ t false = lines ["Custom Greeting: Goodbye John"%string] /\
  t2 true = lines ["Custom Greeting: Hello John"%string] /\ t2 false = lines ["Custom Greeting:"%string].
Proof. repeat split; test. Qed.
(** lines 571-638 *)
Example doc_matches :
  let t n := show unit_lang (qt (T_select $"name" n) "Hello $(match name {
         ""John"" | ""Jane"" => $(""Random Stranger""),
         other => $other,
     })" [($"other", VStr $"Mio")]) in
  let t2 n := show unit_lang (qt (T_select $"name" n) "Hello$(match name {
         ""John"" | ""Jane"" => ( $(""Random Stranger"")),
         other => ( $other),
     })" [($"other", VStr $"Mio")]) in
  let t3 n := show unit_lang (qt (T_select $"name" n) "Hello $(match name {
         Greeting::Named(""John"") | Greeting::Named(""Jane"") => $(""Random Stranger""),
         Greeting::Named(other) => $other,
         Greeting::Unknown => $(""Unknown Person""),
     })" [($"other", VStr $"Mio")]) in
  t 0 = lines ["Hello Random Stranger"%string] /\ t 1 = lines ["Hello Mio"%string] /\
  t2 0 = lines ["Hello Random Stranger"%string] /\ t2 1 = lines ["Hello Mio"%string] /\
  t3 0 = lines ["Hello Random Stranger"%string] /\ t3 1 = lines ["Hello Mio"%string] /\
  t3 2 = lines ["Hello Unknown Person"%string].
Proof. repeat split; test. Qed.
(** lines 647-680 *)
Example doc_let :
  let T := mk_table [] [] [(key "name in names", fun _ => [set $"name" (VStr $"A.B"); set $"name" (VStr $"C.D")])] []
    [(key "(first, second) = name.split_once('.').unwrap()", fun e : environment unit =>
       match lookup (VStr []) $"name" e with
       | VStr (a :: _ :: b :: _) => set $"first" (VStr [a]) (set $"second" (VStr [b]) e)
       | _ => e
       end)] [] in
  show unit_lang (qt T "
     $(for name in names =>
         $(let (first, second) = name.split_once('.').unwrap())
         $first and $second.
     )
 " []) = lines ["A and B."; "C and D."]%string /\
  show unit_lang mutable_let = lines ["First is A"; "Second is B"]%string.
Proof. split; test. Qed.
(** lines 694-711 *)
Example doc_scopes :
  let t cs := show rust_lang (qt (T_code (scope "toks" "if let Some(lastname) = lastname { toks.space(); toks.append(lastname); }") cs) "
         Hello $surname$(ref toks {
             if let Some(lastname) = lastname {
                 toks.space();
                 toks.append(lastname);
             }
         })
     " [($"surname", VStr $"John")]) in
  t [] = lines ["Hello John"%string] /\ t [CSpace; CItem (box "Doe")] = lines ["Hello John Doe"%string].
Proof. split; test. Qed.
(** lines 724-815 *)
Definition hello_world : option (list str) :=
  file ["fn test() {"; "    println!(""Hello... "");"; ""; "    println!(""World!"");"; "}"]%string.
Example doc_whitespace :
  show_file rust_lang (qt no_table "
     fn     test()     {
         println!(""Hello... "");

         println!(""World!"");
     }
 " []) = hello_world /\
  show_file rust_lang (qt no_table "
     fn test() {
         println!(""Hello... "");



         println!(""World!"");
     }
 " []) = hello_world /\
  show_file rust_lang (qt no_table "
     fn test() {
             println!(""Hello... "");

             println!(""World!"");
     }
 " []) = hello_world.
Proof. repeat split; test. Qed.
(** lines 819-829: rejected *)
Example doc_mismatch : (qt no_table "
     fn test() {
             println!(""Hello... "");

         println!(""World!"");
     }
 " [] : rs) = None.
Proof. test. Qed.
(** lines 856-883: [quote_fn!] *)
Example doc_quote_fn :
  let f := match qt no_table "
     println!(""Hello World"");
 " [] : rs with Some t => VFn [CExtend (items t)] | None => VStr [] end in
  show_file rust_lang (qt no_table "
     $f1
     $f2
 " [($"f1", f); ($"f2", f)]) = file ["println!(""Hello World"");"; "println!(""Hello World"");"]%string.
Proof. test. Qed.

(** ** Documentation of streams and values: src/tokens *)

(** tokens.rs:39-67 *)
Example doc_guarantees :
  items (build [CSpace; CSpace] : tokens unit) = [Space] /\ items (build [CSpace; CPush; CPush] : tokens unit) = [Push] /\
  items (build [CSpace; CPush; CLine] : tokens unit) = [Line].
Proof. repeat split; test. Qed.
(** tokens.rs:164-173, 186-196, 557-571 *)
Example doc_append : Some (append (VInt 4) new : tokens unit) = qt (T_value [($"4u32", VInt 4)]) "$(4u32)" [].
Proof. test. Qed.
Example doc_extend : bind (qt no_table "foo bar" []) (fun t : tokens unit =>
    bind (qt no_table "$[' ']baz" []) (fun u => items_of (Some (extend (items u) t)))) =
  items_of (qt no_table "foo bar baz" []).
Proof. test. Qed.
Example doc_item : Some (build [CItem (txt "foo"); CSpace; CSpace; CItem (txt "bar")] : tokens unit) = qt no_table "foo bar" [].
Proof. test. Qed.
(** tokens.rs:245-256 *)
Example doc_register :
  let ext := rust_with_alias (Static $"_") (rust_new (Static $"byteorder") (Static $"WriteBytesExt")) in
  bind (qt (T_value [(key "register(write_bytes_ext)", VRegister (RItem ext))]) "$(register(write_bytes_ext))" [])
    (to_file_string rust_lang) = Some ($"use byteorder::WriteBytesExt as _;" ++ [10%N]).
Proof. test. Qed.
(** tokens.rs:287-308, 325-346, 372-394, 418-441, 462-491, with other texts for emoji *)
Example doc_requests :
  let t cs := to_file_vec unit_lang (build cs) in
  t [CSpace; CItem (box "hello"); CSpace; CSpace; CItem (box "world"); CSpace] = file [" hello world"%string] /\
  t [CPush; CItem (box "hello"); CPush; CItem (box "world"); CPush] = file ["hello"; "world"]%string /\
  t [CLine; CItem (box "hello"); CLine; CItem (box "world"); CLine] = file ["hello"; ""; "world"]%string /\
  t [CIndent; CItem (box "hello"); CIndent; CItem (box "world"); CIndent; CItem (box ":-)")] =
    file ["    hello"; "        world"; "            :-)"]%string /\
  t [CIndent; CItem (box "hello"); CUnindent; CItem (box "world"); CUnindent; CItem (box ":-)"); CIndent;
     CItem (box ":-D"); CIndent; CItem (box ";-)")] = file ["    hello"; "world"; ":-)"; ":-D"; "    ;-)"]%string.
Proof. repeat split; test. Qed.
(** tokens.rs:697-750 *)
Definition map_tokens : rs := qt no_table "
     let mut m = $map::new();
     m.insert(1u32, 2u32);
 " [($"map", VLang hash_map)].
Example doc_to_string :
  bind map_tokens (to_file_string rust_lang) =
    Some (join [10%N] [$"use std::collections::HashMap;"; []; $"let mut m = HashMap::new();"; $"m.insert(1u32, 2u32);"; []]) /\
  show rust_lang map_tokens = lines ["let mut m = HashMap::new();"; "m.insert(1u32, 2u32);"]%string.
Proof. split; test. Qed.
(** tokens.rs:1061-1108: imports are walked from the last one *)
Example test_walk_custom :
  let inner := match qt no_table "3:1 3:2" [] : option (tokens N) with Some t => VTokens t | None => VStr [] end in
  option_map walk_imports (qt (T_value [(key "Import(1)", VLang 1%N); (key "Import(2)", VLang 2%N);
    (key "quote!(3:1 3:2)", inner); (key "String::from(""nope"")", VStr $"nope")]) "
            1:1 $(Import(1)) 1:2
            bar
            2:1 2:2 $(quote!(3:1 3:2)) $(Import(2))
            $(String::from(""nope""))
        " []) = Some [2; 1]%N.
Proof. test. Qed.
(** format_into.rs:66-455 *)
Definition unit_value (s : string) : value unit := match qt no_table s [] with Some t => VTokens t | None => VStr [] end.
Example doc_values :
  let t s e := show unit_lang (qt no_table s e) in
  let foo_bar := lines ["foo bar baz"%string] in
  t "$a baz"%string [($"a", unit_value "foo bar")] = foo_bar /\
  t "$vec baz"%string [($"vec", VVec [unit_value "foo"; unit_value "$[' ']bar"])] = foo_bar /\
  t "$slice baz"%string [($"slice", VVec [VStr $"foo"; VStr $" "; VStr $"bar"])] = foo_bar /\
  t "$foo $bar baz"%string [($"foo", VStr $"foo"); ($"bar", VStr $"bar")] = foo_bar /\
  t "$foo $bar baz $biz"%string [($"foo", VOption (Some (VStr $"foo"))); ($"bar", VOption (Some (VStr $"bar"))); ($"biz", VOption None)] = foo_bar /\
  t "$foo $bar baz"%string [($"foo", VCow true $"foo"); ($"bar", VCow false $"bar")] = foo_bar /\
  t "$foo $bar biz"%string [($"foo", VCowSlice true [VStr $"foo"; VStr $"bar"]); ($"bar", VCowSlice false [VStr $"baz"])] =
    lines ["foobar baz biz"%string].
Proof. repeat split; test. Qed.
(** quoted.rs:37-51, without emoji *)
Example doc_quoted_in_quoted :
  show python_lang (qt (T_value [(key "quoted(""World"")", VQuoted (VStr $"World"))]) "$[str](Hello $[const](quoted(""World"")))" []) =
  lines ["""Hello \""World\"""""%string].
Proof. test. Qed.
(** register.rs:7-47, 86-105 *)
Definition byteorder (s : string) : rust_import := rust_new (Static $"byteorder") (Static (lit s)).
Example doc_register_tuple :
  let alias s := RItem (rust_with_alias (Static $"_") (byteorder s)) in
  show_file rust_lang (qt (T_value [(key "register((write_bytes_ext, read_bytes_ext))",
      VRegister (RTuple [alias "WriteBytesExt"%string; alias "ReadBytesExt"%string]))]) "
     $(register((write_bytes_ext, read_bytes_ext)))

     let mut wtr = vec![];
     wtr.write_u16::<$big_endian>(517).unwrap();
     wtr.write_u16::<$big_endian>(768).unwrap();
     assert_eq!(wtr, vec![2, 5, 3, 0]);

     let mut rdr = $cursor::new(vec![2, 5, 3, 0]);
     assert_eq!(517, rdr.read_u16::<$big_endian>().unwrap());
     assert_eq!(768, rdr.read_u16::<$big_endian>().unwrap());
 " [($"cursor", VLang (rust_new (Static $"std::io") (Static $"Cursor"))); ($"big_endian", VLang (byteorder "BigEndian"))]) =
  file ["use byteorder::{BigEndian, ReadBytesExt as _, WriteBytesExt as _};"; "use std::io::Cursor;"; "";
        "let mut wtr = vec![];"; "wtr.write_u16::<BigEndian>(517).unwrap();"; "wtr.write_u16::<BigEndian>(768).unwrap();";
        "assert_eq!(wtr, vec![2, 5, 3, 0]);"; ""; "let mut rdr = Cursor::new(vec![2, 5, 3, 0]);";
        "assert_eq!(517, rdr.read_u16::<BigEndian>().unwrap());"; "assert_eq!(768, rdr.read_u16::<BigEndian>().unwrap());"]%string /\
  to_file_vec rust_lang (register (RTuple [RItem hash_map; RItem (rust_new (Static $"std::collections") (Static $"BTreeMap"))]) new) =
  file ["use std::collections::{BTreeMap, HashMap};"%string].
Proof. split; test. Qed.
(** mod.rs:6-57 *)
Example doc_block_comment :
  let T := mk_table [(key "static_literal(""/**"")", fun _ => VStatic $"/**"); (key "static_literal(""*/"")", fun _ => VStatic $"*/");
      (key "line.into()", fun e : environment java_import => lookup (VStr []) $"line" e)] []
    [(key "line in it", fun _ => [set $"line" (VStr $"This class is used for awesome stuff"); set $"line" (VStr $"ok?")])] [] [] [] in
  let comment := match qt_in T " *t =>
                 $(static_literal(""/**""))
                 $(for line in it join ($['\r']) {
                     $[' ']* $(line.into())
                 })
                 $[' ']$(static_literal(""*/""))
             " [] new with Some t => VFn [CExtend (items t)] | None => VStr [] end in
  bind (qt (T_value [(key "block_comment(&[""This class is used for awesome stuff"", ""ok?""])", comment)]) "
     $(block_comment(&[""This class is used for awesome stuff"", ""ok?""]))
     public static class Foo {
     }
 " []) (to_vec java_lang) =
  file ["/**"; " * This class is used for awesome stuff"; " * ok?"; " */"; "public static class Foo {"; "}"]%string.
Proof. test. Qed.

(** ** Custom languages: src/macros.rs:7-109 *)
Inductive any : Type := Import (s : str) | ImportDefault (s : str).
Definition my_header (t : tokens any) : tokens any :=
  let each out import :=
    match import with
    | Import s => qt_in (T_value [($"import . 0", VStr s)]) "header => import $(import.0)" []
    | ImportDefault s => qt_in (T_value [($"import . 0", VStr s)]) "header => import default $(import.0)" []
    end (push out) in
  match fold_left (fun out i => bind out (fun out => each out i)) (walk_imports t) (Some new) with
  | Some out => match walk_imports t with [] => out | _ => line out end
  | None => new
  end.
Definition my_lang : lang_def any unit unit := {|
  ld_indentation := ISpace 4;
  ld_ops := fun _ _ => default_ops (fun i => match i with Import s => [s] | ImportDefault s => [$"default:"; s] end);
  ld_default_config := tt;
  ld_default_format := tt;
  ld_format_file := fun t _ => [(my_header t, tt); (t, tt)]
|}.
Example doc_impl_lang :
  show_file my_lang (qt no_table "
     $a
     $b
 " [($"a", VLang (Import $"first")); ($"b", VLang (ImportDefault $"second"))]) =
  file ["import default second"; "import first"; ""; "first"; "default:second"]%string.
Proof. test. Qed.
