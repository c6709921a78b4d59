(** * The documentation examples of the languages, run on the model.

    These are tests of the model against outputs stated in /repo, not
    properties. *)
From Verif Require Import LangBase LangC LangSwift LangGo LangDart LangJava LangCsharp
  LangJs LangNix LangPython LangRust.

Definition s_ (s : str) : item_str := Static s.
Definition q : str := [34%N].

(** One item per line, as in [quote! { $a \n $b }]. *)
Fixpoint per_line {LI} (xs : list LI) (t : tokens LI) : tokens LI :=
  match xs with
  | [] => t
  | [x] => append (VLang x) t
  | x :: xs' => per_line xs' (push (append (VLang x) t))
  end.

(** src/lang/c.rs:100-118, 135-153 *)
Example doc_c : to_file_vec c_lang
  (per_line [mk_c (s_ $"foo/bar.h") (s_ $"fizzbuzz") false;
             mk_c (s_ $"stdio.h") (s_ $"printf") true] new) =
  Some [$"#include " ++ q ++ $"foo/bar.h" ++ q; $"#include <stdio.h>"; []; $"fizzbuzz"; $"printf"].
Proof. vm_compute. reflexivity. Qed.

(** src/lang/swift.rs:121-135 *)
Example doc_swift : to_file_vec swift_lang (per_line [mk_swift (s_ $"Foo") (s_ $"Debug")] new) =
  Some [$"import Foo"; []; $"Debug"].
Proof. vm_compute. reflexivity. Qed.

(** src/lang/go.rs:160-178 *)
Example doc_go : to_file_vec go_lang (per_line [mk_go (s_ $"foo/bar") (s_ $"Debug")] new) =
  Some [$"import " ++ q ++ $"foo/bar" ++ q; []; $"bar.Debug"].
Proof. vm_compute. reflexivity. Qed.

(** src/lang/dart/mod.rs:225-253 *)
Example doc_dart :
  let http := s_ $"package:http/http.dart" in
  to_file_vec dart_lang
    (per_line [mk_dart http (s_ $"A") None; mk_dart http (s_ $"B") None;
               dart_with_alias (s_ $"h2") (mk_dart http (s_ $"C") None);
               mk_dart (s_ $"../http.dart") (s_ $"D") None] new) =
  Some [$"import " ++ q ++ $"../http.dart" ++ q ++ $";";
        $"import " ++ q ++ $"package:http/http.dart" ++ q ++ $";";
        $"import " ++ q ++ $"package:http/http.dart" ++ q ++ $" as h2;";
        []; $"A"; $"B"; $"h2.C"; $"D"].
Proof. vm_compute. reflexivity. Qed.

(** src/lang/java/mod.rs:218-239 *)
Example doc_java : to_file_vec java_lang
  (per_line [mk_java (s_ $"java.lang") (s_ $"Integer"); mk_java (s_ $"java.io") (s_ $"A")] new) =
  Some [$"import java.io.A;"; []; $"Integer"; $"A"].
Proof. vm_compute. reflexivity. Qed.
(** src/lang/java/mod.rs:1-22 (module documentation) *)
Example doc_java2 :
  to_file_vec java_lang
    (per_line [mk_java (s_ $"java.util") (s_ $"List"); mk_java (s_ $"some.other") (s_ $"List")] new) =
  Some [$"import java.util.List;"; []; $"List"; $"some.other.List"].
Proof. vm_compute. reflexivity. Qed.

(** src/lang/csharp/mod.rs:220-244 *)
Example doc_csharp : to_file_vec csharp_lang
  (per_line [mk_cs (s_ $"Foo.Bar") (s_ $"A") false; mk_cs (s_ $"Foo.Bar") (s_ $"B") false;
             mk_cs (s_ $"Foo.Baz") (s_ $"B") false] new) =
  Some [$"using Foo.Bar;"; []; $"A"; $"B"; $"Foo.Baz.B"].
Proof. vm_compute. reflexivity. Qed.

(** src/lang/js.rs:524-552 *)
Example doc_js :
  let m := MGlobal (s_ $"collections") in
  to_file_vec (js_lang (fun _ p => p))
    (per_line [js_into_default (js_new m (s_ $"defaultVec"));
               js_into_wildcard (js_new m (s_ $"all"));
               js_new m (s_ $"vec");
               js_with_alias (s_ $"list") (js_new m (s_ $"vec"))] new) =
  Some [$"import * as all from " ++ q ++ $"collections" ++ q ++ $";";
        $"import defaultVec, {vec, vec as list} from " ++ q ++ $"collections" ++ q ++ $";";
        []; $"defaultVec"; $"all"; $"vec"; $"list"].
Proof. vm_compute. reflexivity. Qed.

(** src/lang/nix.rs:315-351 *)
Example doc_nix :
  let nixpkgs := NInherit (s_ $"inputs") (s_ $"nixpkgs") in
  let value := new |> st $"import" |> space |> append (VLang nixpkgs) |> space |> st $"{"
     |> indent |> st $"inherit" |> space |> st $"(" |> append (VLang nixpkgs) |> st $")"
     |> space |> st $"system;" |> push |> st $"config.allowUnfree" |> space |> st $"="
     |> space |> st $"true;" |> unindent |> st $"}" in
  to_file_vec nix_lang (per_line [nix_variable (s_ $"pkgs") value] new) =
  Some [$"{"; $"    inputs,"; $"    ..."; $"}:"; []; $"let";
        $"    inherit (inputs) nixpkgs;"; $"    pkgs = import nixpkgs {";
        $"        inherit (nixpkgs) system;"; $"        config.allowUnfree = true;";
        $"    };"; $"in"; []; $"pkgs"].
Proof. vm_compute. reflexivity. Qed.
(** src/lang/nix.rs:363-387 *)
Example doc_nix_with :
  to_file_vec nix_lang (new |> append (VLang (NWith (s_ $"inputs.nixpkgs.lib") (s_ $"listToAttrs")))
     |> space |> append (VLang (NWith (s_ $"inputs.nixpkgs.lib") (s_ $"concatMap")))) =
  Some [$"{"; $"    inputs,"; $"    ..."; $"}:"; []; $"with inputs.nixpkgs.lib;"; [];
        $"listToAttrs concatMap"].
Proof. vm_compute. reflexivity. Qed.

(** src/lang/python.rs:357-381 *)
Example doc_python :
  let nt := py_new (s_ $"collections") (s_ $"namedtuple") in
  to_file_vec python_lang
    (per_line [py_with_alias (s_ $"nt") nt; nt; py_qualified nt; py_with_module_alias (s_ $"c") nt] new) =
  Some [$"from collections import namedtuple, namedtuple as nt"; $"import collections";
        $"import collections as c"; []; $"nt"; $"namedtuple"; $"collections.namedtuple";
        $"c.namedtuple"].
Proof. vm_compute. reflexivity. Qed.

(** src/lang/rust.rs:604-631 *)
Example doc_rust :
  let d := rust_new (s_ $"std::fmt") (s_ $"Debug") in
  to_file_vec rust_lang
    (per_line [rust_qualified d; rust_with_module_alias (s_ $"fmt2") d; d;
               rust_with_alias (s_ $"FmtDebug") d] new) =
  Some [$"use std::fmt::{self, self as fmt2, Debug, Debug as FmtDebug};"; [];
        $"fmt::Debug"; $"fmt2::Debug"; $"Debug"; $"FmtDebug"].
Proof. vm_compute. reflexivity. Qed.

(** src/lang/java/mod.rs:255-278 and src/lang/csharp/mod.rs:261-308 *)
Example doc_comments :
  to_file_vec java_lang
    (java_block_comment [s_ $"first line"; s_ $"second line"] new |> push |> java_block_comment []
      |> push |> java_block_comment [s_ $"third line"]) =
  Some [$"/**"; $" * first line"; $" * second line"; $" */"; $"/**"; $" * third line"; $" */"] /\
  to_file_vec csharp_lang
    (cs_block_comment [s_ $"Foo"] new |> push |> cs_block_comment [] |> push
      |> cs_block_comment [s_ $"Bar"]) = Some [$"/// Foo"; $"/// Bar"].
Proof. split; vm_compute; reflexivity. Qed.
