(** * Java.  Models src/lang/java/mod.rs and block_comment.rs. *)
From Verif Require Import LangBase.

(** src/lang/java/mod.rs:161-170 *)
Record java_import : Type := mk_java {
  ja_package : item_str;
  ja_name : item_str
}.

(** src/lang/java/mod.rs:104-105 *)
Definition java_lang_package : str := $"java.lang".
(** src/lang/java/mod.rs:105 *)
Definition java_sep : str := $".".

(** [Format::imported] (src/lang/java/mod.rs:107-112): simple name to package. *)
Definition java_imported := list (str * str).

(** src/lang/java/mod.rs:87-102 *)
Definition java_format_item (package : option item_str) (imported : java_imported)
    (i : java_import) : list str :=
  let file_package := opt_text package in
  let imp := map_get str_cmp (content (ja_name i)) imported in
  let pkg := Some (content (ja_package i)) in
  (if negb (str_eqb (content (ja_package i)) java_lang_package)
      && negb (opt_str_eqb imp pkg) && negb (opt_str_eqb file_package pkg)
   then [content (ja_package i); java_sep] else [])
  ++ [content (ja_name i)].

(** src/lang/java/mod.rs:172-212.  The loop body over the sorted modules;
    [quote!] builds a separate stream which is then appended. *)
Definition java_import_stmt (package name : item_str) : tokens java_import :=
  new |> st $"import" |> space |> istr package |> txt java_sep |> istr name
      |> st $";".
(** src/lang/java/mod.rs:191-208: the loop body. *)
Definition java_step (file_package : option str)
    (acc : tokens java_import * java_imported) (m : item_str * item_str)
  : tokens java_import * java_imported :=
  let '(out, imported) := acc in
  let '(package, name) := m in
  match map_get str_cmp (content name) imported with
  | Some _ => acc
  | None =>
      if str_eqb (content package) java_lang_package then acc
      else if opt_str_eqb (Some (content package)) file_package then acc
      else
        (out |> append (VTokens (java_import_stmt package name)) |> push,
         map_insert str_cmp (content name) (content package) imported)
  end.
(** The key at src/lang/java/mod.rs:184. *)
Definition java_key_cmp : item_str * item_str -> item_str * item_str -> comparison :=
  cmp_pair cmp_item_str cmp_item_str.
(** src/lang/java/mod.rs:172-212 *)
Definition java_imports (tokens : tokens java_import) (package : option item_str)
    (out : Tokens.tokens java_import) (imported : java_imported)
  : Tokens.tokens java_import * java_imported :=
  let modules :=
    fold_left (fun s i => set_insert java_key_cmp (ja_package i, ja_name i) s)
      (walk_imports tokens) [] in
  match modules with
  | [] => (out, imported)
  | _ =>
      let '(out, imported) :=
        fold_left (java_step (opt_text package)) modules (out, imported) in
      (line out, imported)
  end.

(** src/lang/java/mod.rs:67-84; the configuration (114-159) is the package. *)
Definition java_header (package : option item_str) (tokens : tokens java_import)
  : Tokens.tokens java_import * java_imported :=
  let header :=
    match package with
    | Some p => new |> st $"package" |> space |> istr p |> st $";" |> line
    | None => new
    end in
  java_imports tokens package header [].

(** src/lang/java/mod.rs:34-102 *)
Definition java_lang : lang_def java_import (option item_str) java_imported := {|
  ld_indentation := ISpace 4;
  ld_ops := fun c f => lang_ops_of java_write_quoted (java_format_item c f);
  ld_default_config := None;
  ld_default_format := [];
  ld_format_file := fun t c =>
    let '(header, imported) := java_header c t in
    [(header, imported); (t, imported)]
|}.

(** src/lang/java/block_comment.rs:10-37 ([block_comment]) *)
Definition java_block_comment (lines : list item_str) (t : tokens java_import)
  : tokens java_import :=
  match lines with
  | [] => t
  | _ =>
      for_each (fun ln t =>
          t |> space |> st $"*" |> space |> istr ln |> push)
        lines (t |> push |> st $"/**" |> push)
      |> space |> txt $"*/"
  end.
