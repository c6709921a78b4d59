(** * Go.  Models src/lang/go.rs. *)
From Verif Require Import LangBase.

(** src/lang/go.rs:108-114 *)
Record go_import : Type := mk_go {
  go_module : item_str;
  go_name : item_str
}.

(** src/lang/go.rs:54-55 *)
Definition go_module_sep : str := $"/".
(** src/lang/go.rs:55 *)
Definition go_sep : str := $".".

(** src/lang/go.rs:93-103; [rsplit(..).next()] is never [None]. *)
Definition go_format_item (i : go_import) : list str :=
  [after_last_sep go_module_sep (content (go_module i)); go_sep;
   content (go_name i)].

(** src/lang/go.rs:135-154 *)
Definition go_imports (tokens : tokens go_import) (out : Tokens.tokens go_import)
  : Tokens.tokens go_import :=
  let modules :=
    fold_left (fun s i => set_insert cmp_item_str (go_module i) s)
      (walk_imports tokens) [] in
  match modules with
  | [] => out
  | _ =>
      line (for_each (fun module out =>
        out |> st $"import" |> space |> quoted_istr module |> push) modules out)
  end.

(** src/lang/go.rs:72-90, the header. *)
Definition go_header (package : option item_str) (tokens : tokens go_import)
  : Tokens.tokens go_import :=
  go_imports tokens
    (match package with
     | Some p => new |> st $"package" |> space |> istr p |> line
     | None => new
     end).

(** src/lang/go.rs:60-103; the configuration (121-124) is the package. *)
Definition go_lang : lang_def go_import (option item_str) unit := {|
  ld_indentation := ISpace 4;
  ld_ops := fun _ _ => lang_ops_of c_family_write_quoted go_format_item;
  ld_default_config := None;
  ld_default_format := tt;
  ld_format_file := fun t c => [(go_header c t, tt); (t, tt)]
|}.
