(** * C#.  Models src/lang/csharp/. *)
From Verif Require Import LangBase.

(** src/lang/csharp/mod.rs:147-158 *)
Record cs_import : Type := mk_cs {
  cs_namespace : item_str;
  cs_name : item_str;
  cs_qualified : bool
}.

(** src/lang/csharp/mod.rs:161-168 *)
Definition cs_set_qualified (i : cs_import) : cs_import :=
  mk_cs (cs_namespace i) (cs_name i) true.

(** src/lang/csharp/mod.rs:116 *)
Definition cs_sep : str := $".".

(** [Format::imported_names] (src/lang/csharp/mod.rs:118-126): simple name to
    namespace. *)
Definition cs_imported := list (str * str).

(** src/lang/csharp/mod.rs:94-110 ([is_qualified]) *)
Definition cs_is_qualified (config : option item_str) (imported : cs_imported)
    (namespace name : str) : bool :=
  if opt_str_eqb (opt_text config) (Some namespace) then false
  else match map_get str_cmp name imported with
       | Some ns => negb (str_eqb ns namespace)
       | None => false
       end.

(** src/lang/csharp/mod.rs:79-92 *)
Definition cs_format_item (config : option item_str) (imported : cs_imported)
    (i : cs_import) : list str :=
  let ns := content (cs_namespace i) in
  let name := content (cs_name i) in
  (if cs_qualified i || cs_is_qualified config imported ns name
   then [ns; cs_sep] else [])
  ++ [name].

(** src/lang/csharp/mod.rs:190-210: the loop body. *)
Definition cs_step (file_namespace : option str)
    (acc : tokens cs_import * cs_imported * list str) (m : str * str)
  : tokens cs_import * cs_imported * list str :=
  let '(out, names, imported) := acc in
  let '(namespace, name) := m in
  if opt_str_eqb (Some namespace) file_namespace then acc
  else match map_get str_cmp name names with
       | Some _ => acc
       | None =>
           let '(out, imported) :=
             if negb (set_mem str_cmp namespace imported) then
               (out |> st $"using" |> space |> txt namespace |> st $";" |> push,
                set_insert str_cmp namespace imported)
             else (out, imported) in
           (out, map_insert str_cmp name namespace names, imported)
       end.

(** src/lang/csharp/mod.rs:171-214 *)
Definition cs_key_cmp : str * str -> str * str -> comparison :=
  cmp_pair str_cmp str_cmp.
(** src/lang/csharp/mod.rs:171-214 *)
Definition cs_imports (tokens : tokens cs_import) (config : option item_str)
    (out : Tokens.tokens cs_import) (names : cs_imported)
  : Tokens.tokens cs_import * cs_imported :=
  let modules :=
    fold_left (fun s i =>
        set_insert cs_key_cmp (content (cs_namespace i), content (cs_name i)) s)
      (walk_imports tokens) [] in
  match modules with
  | [] => (out, names)
  | _ =>
      let '(out, names, _) :=
        fold_left (cs_step (opt_text config)) modules (out, names, []) in
      (line out, names)
  end.

(** src/lang/csharp/mod.rs:63-69: the [namespace] block. *)
Definition cs_namespace_block (namespace : item_str) (body : tokens cs_import)
    (file : tokens cs_import) : tokens cs_import :=
  file |> st $"namespace" |> space |> istr namespace |> space |> st $"{"
       |> indent |> append (VTokens body) |> unindent |> st $"}".

(** src/lang/csharp/mod.rs:51-77; the configuration (128-145) is the
    namespace. *)
Definition cs_format_file (tokens : tokens cs_import) (config : option item_str)
  : list (Tokens.tokens cs_import * cs_imported) :=
  let '(file, names) := cs_imports tokens config new [] in
  match config with
  | Some namespace => [(cs_namespace_block namespace tokens file, names)]
  | None => [(file, names); (tokens, names)]
  end.

(** src/lang/csharp/mod.rs:39-113 *)
Definition csharp_lang : lang_def cs_import (option item_str) cs_imported := {|
  ld_indentation := ISpace 4;
  ld_ops := fun c f => lang_ops_of c_family_write_quoted (cs_format_item c f);
  ld_default_config := None;
  ld_default_format := [];
  ld_format_file := cs_format_file
|}.

(** src/lang/csharp/block_comment.rs:10-23 ([block_comment]) *)
Definition cs_block_comment (lines : list item_str) (t : tokens cs_import)
  : tokens cs_import :=
  for_each (fun ln t => t |> push |> st $"///" |> space |> istr ln) lines t.
(** src/lang/csharp/comment.rs:10-23 ([comment]) *)
Definition cs_comment (lines : list item_str) (t : tokens cs_import)
  : tokens cs_import :=
  for_each (fun ln t => t |> push |> st $"//" |> space |> istr ln) lines t.
