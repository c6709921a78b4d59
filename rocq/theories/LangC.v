(** * C.  Models src/lang/c.rs. *)
From Verif Require Import LangBase.

(** src/lang/c.rs:54-61.  Created by [include] (false) and [include_system]
    (true), src/lang/c.rs:119-129 and 154-164. *)
Record c_import : Type := mk_c {
  c_path : item_str;
  c_item : item_str;
  c_system : bool
}.

(** src/lang/c.rs:41-46 *)
Definition c_format_item (i : c_import) : list str := [content (c_item i)].

(** src/lang/c.rs:71-94; the ordering is that of [(&ItemStr, bool)]. *)
Definition c_key_cmp : item_str * bool -> item_str * bool -> comparison :=
  cmp_pair cmp_item_str cmp_bool.
(** src/lang/c.rs:71-94 *)
Definition c_imports (tokens : tokens c_import) (out : Tokens.tokens c_import)
  : Tokens.tokens c_import :=
  let includes :=
    fold_left (fun s i => set_insert c_key_cmp (c_path i, c_system i) s)
      (walk_imports tokens) [] in
  match includes with
  | [] => out
  | _ =>
      line (for_each (fun '(file, system_header) out =>
        (if system_header : bool then
           out |> st $"#include" |> space |> st $"<" |> istr file |> st $">"
         else
           out |> st $"#include" |> space |> quoted_istr file)
        |> push) includes out)
  end.

(** src/lang/c.rs:17-46 *)
Definition c_lang : lang_def c_import unit unit := {|
  ld_indentation := ISpace 4;
  ld_ops := fun _ _ => lang_ops_of c_family_write_quoted c_format_item;
  ld_default_config := tt;
  ld_default_format := tt;
  ld_format_file := fun t _ => [(c_imports t new, tt); (t, tt)]
|}.
