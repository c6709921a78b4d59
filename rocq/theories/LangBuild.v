(** * Functions that make imports and change them.

    Those of JavaScript, Python and Rust are in the models of these languages, as
    are the methods of Dart and C#. *)
From Verif Require Import LangBase LangC LangCsharp LangDart LangGo LangJava LangJs LangPython LangRust LangSwift.

(** src/lang/c.rs:119-129 *)
Definition c_include (path item : item_str) : c_import := mk_c path item false.
(** src/lang/c.rs:154-164 *)
Definition c_include_system (path item : item_str) : c_import := mk_c path item true.
(** src/lang/csharp/mod.rs:245-255 *)
Definition cs_new (namespace name : item_str) : cs_import := mk_cs namespace name false.
(** src/lang/dart/mod.rs:254-264 *)
Definition dart_new (path name : item_str) : dart_import := mk_dart path name None.
(** src/lang/go.rs:179-188 *)
Definition go_new (module name : item_str) : go_import := mk_go module name.
(** src/lang/java/mod.rs:240-249 *)
Definition java_new (package name : item_str) : java_import := mk_java package name.
(** src/lang/swift.rs:136-145 *)
Definition swift_new (module name : item_str) : swift_import := mk_swift module name.
(** src/lang/js.rs:396-412: [From] strings for [Module]. *)
Definition js_module_from (s : item_str) : js_module := MGlobal s.
(** src/lang/python.rs:420-428 ([import_module]) *)
Definition py_module_new (module : item_str) : py_import := PyModule module None.
(** src/lang/python.rs:279-287 ([ImportModule::with_alias]) *)
Definition py_module_alias (a : item_str) (i : py_import) : py_import :=
  match i with PyModule m _ => PyModule m (Some a) | other => other end.

(** Methods of imports, as calls: src/lang/js.rs:314-381. *)
Inductive js_call : Type := JAlias (a : item_str) | JDefault | JWildcard.
(** src/lang/js.rs:314-381 *)
Definition js_apply (i : js_import) (c : js_call) : js_import :=
  match c with JAlias a => js_with_alias a i | JDefault => js_into_default i | JWildcard => js_into_wildcard i end.
(** src/lang/python.rs:173-242 *)
Inductive py_call : Type := PAlias (a : item_str) | PQualified | PModuleAlias (a : item_str).
(** src/lang/python.rs:173-242 *)
Definition py_apply (i : py_import) (c : py_call) : py_import :=
  match c with PAlias a => py_with_alias a i | PQualified => py_qualified i | PModuleAlias a => py_with_module_alias a i end.
(** src/lang/rust.rs:285-388 *)
Inductive rust_call : Type := RAlias (a : item_str) | RModuleAlias (a : item_str) | RQualified | RDirect.
(** src/lang/rust.rs:285-388 *)
Definition rust_apply (i : rust_import) (c : rust_call) : rust_import :=
  match c with
  | RAlias a => rust_with_alias a i
  | RModuleAlias a => rust_with_module_alias a i
  | RQualified => rust_qualified i
  | RDirect => rust_direct i
  end.
