(** * Rust.  Models src/lang/rust.rs. *)
From Verif Require Import LangBase.

(** src/lang/rust.rs:169-182 *)
Inductive rust_mode : Type := Direct | QualifiedMode.

(** src/lang/rust.rs:184-193 *)
Inductive rust_module : Type :=
| RModule (import : option rust_mode) (module : item_str)
| RAliased (module alias : item_str).

(** src/lang/rust.rs:250-261 *)
Record rust_import : Type := mk_rust {
  ru_module : rust_module;
  ru_name : item_str;
  ru_alias : option item_str
}.

(** src/lang/rust.rs:701-714 ([import]) *)
Definition rust_new (module name : item_str) : rust_import :=
  mk_rust (RModule None module) name None.

(** src/lang/rust.rs:195-248 *)
Definition rm_into_module_aliased (a : item_str) (m : rust_module) : rust_module :=
  match m with RModule _ module => RAliased module a | other => other end.
(** src/lang/rust.rs:195-248 ([qualified], [direct]) *)
Definition rm_set_mode (mode : rust_mode) (m : rust_module) : rust_module :=
  match m with RModule _ module => RModule (Some mode) module | other => other end.

(** src/lang/rust.rs:285-291 *)
Definition rust_with_alias (a : item_str) (i : rust_import) : rust_import :=
  mk_rust (rm_set_mode Direct (ru_module i)) (ru_name i) (Some a).
(** src/lang/rust.rs:318-323 *)
Definition rust_with_module_alias (a : item_str) (i : rust_import) : rust_import :=
  mk_rust (rm_into_module_aliased a (ru_module i)) (ru_name i) (ru_alias i).
(** src/lang/rust.rs:353-358 *)
Definition rust_qualified (i : rust_import) : rust_import :=
  mk_rust (rm_set_mode QualifiedMode (ru_module i)) (ru_name i) (ru_alias i).
(** src/lang/rust.rs:383-388 *)
Definition rust_direct (i : rust_import) : rust_import :=
  mk_rust (rm_set_mode Direct (ru_module i)) (ru_name i) (ru_alias i).

(** src/lang/rust.rs:48 *)
Definition rust_sep : str := $"::".

(** src/lang/rust.rs:391-397 *)
Definition rust_write_direct (i : rust_import) : list str :=
  [match ru_alias i with Some a => content a | None => content (ru_name i) end].
(** src/lang/rust.rs:400-408 *)
Definition rust_write_prefixed (i : rust_import) (module : item_str) : list str :=
  [after_last_sep rust_sep (content module); rust_sep; content (ru_name i)].

(** src/lang/rust.rs:106-139; the configuration (146-167) is the default import
    mode. *)
Definition rust_format_item (default_import : rust_mode) (i : rust_import) : list str :=
  match ru_module i with
  | RModule (Some Direct) _ => rust_write_direct i
  | RModule (Some QualifiedMode) module => rust_write_prefixed i module
  | RModule None module =>
      match default_import with
      | Direct => rust_write_direct i
      | QualifiedMode => rust_write_prefixed i module
      end
  | RAliased _ alias => [content alias; rust_sep; content (ru_name i)]
  end.

(** src/lang/rust.rs:513-521 (the local struct [Import]) *)
Record rust_used : Type := mk_used {
  u_self : bool;
  u_aliases : list item_str;
  u_names : list (item_str * option item_str)
}.
(** src/lang/rust.rs:513-521, [Default]. *)
Definition unused : rust_used := mk_used false [] [].
(** src/lang/rust.rs:513-521, the order of [names]. *)
Definition rust_name_cmp
  : item_str * option item_str -> item_str * option item_str -> comparison :=
  cmp_pair cmp_item_str (cmp_option cmp_item_str).
(** src/lang/rust.rs:432-433 *)
Definition use_name (i : rust_import) (u : rust_used) : rust_used :=
  mk_used (u_self u) (u_aliases u)
    (set_insert rust_name_cmp (ru_name i, ru_alias i) (u_names u)).
(** src/lang/rust.rs:439-440 *)
Definition use_self (u : rust_used) : rust_used :=
  mk_used true (u_aliases u) (u_names u).
(** src/lang/rust.rs:456-457 *)
Definition use_alias (a : item_str) (u : rust_used) : rust_used :=
  mk_used (u_self u) (set_insert cmp_item_str a (u_aliases u)) (u_names u).

(** src/lang/rust.rs:418-460.  The queue is filled with all imports and then
    drained in the same order. *)
Definition rust_collect_one (default_import : rust_mode)
    (modules : list (item_str * rust_used)) (i : rust_import)
  : list (item_str * rust_used) :=
  match ru_module i with
  | RModule (Some Direct) m => map_update cmp_item_str m unused (use_name i) modules
  | RModule (Some QualifiedMode) m => map_update cmp_item_str m unused use_self modules
  | RModule None m =>
      match default_import with
      | Direct => map_update cmp_item_str m unused (use_name i) modules
      | QualifiedMode => map_update cmp_item_str m unused use_self modules
      end
  | RAliased m alias => map_update cmp_item_str m unused (use_alias alias) modules
  end.
(** src/lang/rust.rs:418-460 *)
Definition rust_collect (default_import : rust_mode) (is : list rust_import)
  : list (item_str * rust_used) :=
  fold_left (rust_collect_one default_import) is [].

(** src/lang/rust.rs:564-574 ([RenderItem]) *)
Inductive rust_render : Type :=
| SelfImport
| SelfAlias (alias : item_str)
| RName (name : item_str) (alias : option item_str).

(** src/lang/rust.rs:523-562: everything the iterator yields. *)
Definition rust_iter (module : item_str) (u : rust_used) : list rust_render :=
  (if u_self u && contains rust_sep (content module) then [SelfImport] else [])
  ++ map SelfAlias (u_aliases u)
  ++ map (fun '(name, alias) => RName name alias) (u_names u).

(** src/lang/rust.rs:576-596 *)
Definition rust_render_item (r : rust_render) (t : tokens rust_import)
  : tokens rust_import :=
  match r with
  | SelfImport => t |> st $"self"
  | SelfAlias alias => t |> st $"self" |> space |> st $"as" |> space |> istr alias
  | RName name (Some alias) =>
      t |> istr name |> space |> st $"as" |> space |> istr alias
  | RName name None => t |> istr name
  end.

(** src/lang/rust.rs:464-504: the loop body. *)
Definition rust_use_stmt (acc : tokens rust_import * bool) (m : item_str * rust_used)
  : tokens rust_import * bool :=
  let '(out, has_any) := acc in
  let '(name, u) := m in
  match rust_iter name u with
  | [] => acc
  | first :: rest =>
      let out := push out in
      (match rest with
       | second :: more =>
           let out := out |> st $"use" |> space |> istr name |> st $"::{"
                          |> rust_render_item first in
           let out := out |> st $"," |> space |> rust_render_item second in
           let out := for_each (fun r o => o |> st $"," |> space |> rust_render_item r)
                        more out in
           out |> st $"};"
       | [] =>
           match first with
           | SelfImport => out |> st $"use" |> space |> istr name |> st $";"
           | SelfAlias alias =>
               out |> st $"use" |> space |> istr name |> space |> st $"as" |> space
                   |> istr alias |> st $";"
           | RName n (Some alias) =>
               out |> st $"use" |> space |> istr name |> st $"::" |> istr n |> space
                   |> st $"as" |> space |> istr alias |> st $";"
           | RName n None =>
               out |> st $"use" |> space |> istr name |> st $"::" |> istr n |> st $";"
           end
       end, true)
  end.

(** src/lang/rust.rs:412-508 *)
Definition rust_imports (tokens : tokens rust_import) (default_import : rust_mode)
    (out : Tokens.tokens rust_import) : Tokens.tokens rust_import :=
  let '(out, has_any) :=
    fold_left rust_use_stmt (rust_collect default_import (walk_imports tokens))
      (out, false) in
  if has_any then line out else out.

(** src/lang/rust.rs:53-140 *)
Definition rust_lang : lang_def rust_import rust_mode unit := {|
  ld_indentation := ISpace 4;
  ld_ops := fun c _ => lang_ops_of rust_write_quoted (rust_format_item c);
  ld_default_config := Direct;
  ld_default_format := tt;
  ld_format_file := fun t c => [(rust_imports t c new, tt); (t, tt)]
|}.
