(** * Dart.  Models src/lang/dart/mod.rs. *)
From Verif Require Import LangBase.

(** src/lang/dart/mod.rs:171-178 *)
Record dart_import : Type := mk_dart {
  da_path : item_str;
  da_name : item_str;
  da_alias : option item_str
}.

(** src/lang/dart/mod.rs:180-188 *)
Definition dart_with_alias (a : item_str) (i : dart_import) : dart_import :=
  mk_dart (da_path i) (da_name i) (Some a).

(** src/lang/dart/mod.rs:48-50 *)
Definition dart_sep : str := $".".
(** src/lang/dart/mod.rs:50 *)
Definition dart_core : str := $"dart:core".

(** src/lang/dart/mod.rs:147-157 *)
Definition dart_format_item (i : dart_import) : list str :=
  match da_alias i with
  | Some alias => [content alias; dart_sep]
  | None => []
  end ++ [content (da_name i)].

(** src/lang/dart/mod.rs:190-219 *)
Definition dart_key_cmp
  : item_str * option item_str -> item_str * option item_str -> comparison :=
  cmp_pair cmp_item_str (cmp_option cmp_item_str).
(** src/lang/dart/mod.rs:190-219 *)
Definition dart_imports (tokens : tokens dart_import) (out : Tokens.tokens dart_import)
  : Tokens.tokens dart_import :=
  let modules :=
    fold_left (fun s i =>
        if str_eqb (content (da_path i)) dart_core then s
        else set_insert dart_key_cmp (da_path i, da_alias i) s)
      (walk_imports tokens) [] in
  match modules with
  | [] => out
  | _ =>
      line (for_each (fun '(name, alias) out =>
        (match alias with
         | Some alias =>
             out |> st $"import" |> space |> quoted_istr name |> space
                 |> st $"as" |> space |> istr alias |> st $";"
         | None => out |> st $"import" |> space |> quoted_istr name |> st $";"
         end) |> push) modules out)
  end.

(** src/lang/dart/mod.rs:57-92 and 146-156 *)
Definition dart_ops : lang_ops dart_import := {|
  l_open_quote := fun _ => default_quote;
  l_close_quote := fun _ => default_quote;
  l_string_eval_literal := fun s => [$"$" ++ s];
  l_start_string_eval := [$"${"];
  l_end_string_eval := [$"}"];
  l_write_quoted := dart_write_quoted;
  l_format_item := dart_format_item
|}.

(** src/lang/dart/mod.rs:57-157 *)
Definition dart_lang : lang_def dart_import unit unit := {|
  ld_indentation := ISpace 4;
  ld_ops := fun _ _ => dart_ops;
  ld_default_config := tt;
  ld_default_format := tt;
  ld_format_file := fun t _ => [(dart_imports t new, tt); (t, tt)]
|}.

(** src/lang/dart/doc_comment.rs:10-23 ([doc_comment]) *)
Definition dart_doc_comment (lines : list item_str) (t : tokens dart_import)
  : tokens dart_import :=
  for_each (fun ln t => t |> push |> st $"///" |> space |> istr ln) lines t.
