(** * JavaScript.  Models src/lang/js.rs. *)
From Verif Require Import LangBase.

(** Relative paths ([relative_path::RelativePathBuf], a dependency whose source
    is not in /repo): the list of components, which is what that crate compares
    paths by.  Paths whose text is not in the normal form produced by
    [path_text] (doubled or trailing slashes) are not represented. *)
Inductive component : Type :=
| CurDir
| ParentDir
| Normal (s : str).
(** [RelativePathBuf]: src/lang/js.rs:388 *)
Definition path := list component.

(** Derived [Ord] of the components, in the dependency. *)
Definition cmp_component (a b : component) : comparison :=
  match a, b with
  | CurDir, CurDir => Eq
  | CurDir, _ => Lt
  | ParentDir, CurDir => Gt
  | ParentDir, ParentDir => Eq
  | ParentDir, Normal _ => Lt
  | Normal a, Normal b => str_cmp a b
  | Normal _, _ => Gt
  end.
(** Text of a component, in the dependency. *)
Definition component_text (c : component) : str :=
  match c with CurDir => $"." | ParentDir => $".." | Normal s => s end.
(** [RelativePath::as_str] *)
Definition path_text (p : path) : str := join $"/" (map component_text p).

(** src/lang/js.rs:251-256 *)
Inductive js_kind : Type := KNamed | KDefault | KWildcard.

(** src/lang/js.rs:385-394 *)
Inductive js_module : Type :=
| MPath (p : path)
| MGlobal (s : item_str).

(** src/lang/js.rs:258-277 *)
Record js_import : Type := mk_js {
  js_import_kind : js_kind;
  js_import_module : js_module;
  js_name : item_str;
  js_alias : option item_str
}.

(** src/lang/js.rs:553-564 ([import]) *)
Definition js_new (m : js_module) (name : item_str) : js_import :=
  mk_js KNamed m name None.
(** src/lang/js.rs:314-323 *)
Definition js_with_alias (a : item_str) (i : js_import) : js_import :=
  mk_js KNamed (js_import_module i) (js_name i) (Some a).
(** src/lang/js.rs:346-352 *)
Definition js_into_default (i : js_import) : js_import :=
  mk_js KDefault (js_import_module i) (js_name i) None.
(** src/lang/js.rs:375-381 *)
Definition js_into_wildcard (i : js_import) : js_import :=
  mk_js KWildcard (js_import_module i) (js_name i) None.

(** src/lang/js.rs:176-183 *)
Definition js_format_item (i : js_import) : list str :=
  [match js_import_kind i with
   | KNamed => match js_alias i with
               | Some a => content a
               | None => content (js_name i)
               end
   | _ => content (js_name i)
   end].

(** Derived [Ord] of [Module]. *)
Definition cmp_js_module (a b : js_module) : comparison :=
  match a, b with
  | MPath p, MPath q => cmp_list cmp_component p q
  | MPath _, MGlobal _ => Lt
  | MGlobal _, MPath _ => Gt
  | MGlobal s, MGlobal t => cmp_item_str s t
  end.

(** src/lang/js.rs:502-506 ([ImportedElement]), derived order. *)
Inductive js_element : Type :=
| EPlain (name : item_str)
| EAliased (name alias : item_str).
(** src/lang/js.rs:502-506, derived [Ord]. *)
Definition cmp_js_element (a b : js_element) : comparison :=
  match a, b with
  | EPlain x, EPlain y => cmp_item_str x y
  | EPlain _, EAliased _ _ => Lt
  | EAliased _ _, EPlain _ => Gt
  | EAliased x p, EAliased y q => then_cmp (cmp_item_str x y) (cmp_item_str p q)
  end.

(** src/lang/js.rs:496-500 ([ResolvedModule]) *)
Record js_resolved : Type := mk_resolved {
  r_default : option item_str;
  r_set : list js_element
}.

(** src/lang/js.rs:420-446: collecting the imports. *)
Definition js_collect_one
    (acc : list (js_module * js_resolved) * list (js_module * item_str))
    (i : js_import) : list (js_module * js_resolved) * list (js_module * item_str) :=
  let '(modules, wildcards) := acc in
  match js_import_kind i with
  | KNamed =>
      let el := match js_alias i with
                | None => EPlain (js_name i)
                | Some alias => EAliased (js_name i) alias
                end in
      (map_update cmp_js_module (js_import_module i) (mk_resolved None [])
         (fun r => mk_resolved (r_default r) (set_insert cmp_js_element el (r_set r)))
         modules, wildcards)
  | KDefault =>
      (map_update cmp_js_module (js_import_module i) (mk_resolved None [])
         (fun r => mk_resolved (Some (js_name i)) (r_set r)) modules, wildcards)
  | KWildcard =>
      (modules,
       set_insert (cmp_pair cmp_js_module cmp_item_str)
         (js_import_module i, js_name i) wildcards)
  end.
(** src/lang/js.rs:420-446 *)
Definition js_collect (imports : list js_import)
  : list (js_module * js_resolved) * list (js_module * item_str) :=
  fold_left js_collect_one imports ([], []).

Section Js.
(** [RelativePath::relative], from the same dependency. *)
Context (relative : path -> path -> path).

(** src/lang/js.rs:508-516 ([render_from]) *)
Definition js_from_text (module_path : option path) (m : js_module) : value js_import :=
  match module_path, m with
  | _, MGlobal from => VQuoted (VItemStr from)
  | None, MPath p => VQuoted (VStr (path_text p))
  | Some mp, MPath p => VQuoted (VStr (path_text (relative mp p)))
  end.
(** src/lang/js.rs:508-516 *)
Definition js_render_from (module_path : option path) (m : js_module)
    (t : tokens js_import) : tokens js_import :=
  append (js_from_text module_path m) t.

(** src/lang/js.rs:473-480 *)
Definition js_element_tokens (el : js_element) (t : tokens js_import)
  : tokens js_import :=
  match el with
  | EPlain name => t |> istr name
  | EAliased name alias =>
      t |> istr name |> space |> st $"as" |> space |> istr alias
  end.

(** src/lang/js.rs:470-486: the peekable loop. *)
Fixpoint js_elements (els : list js_element) (t : tokens js_import)
  : tokens js_import :=
  match els with
  | [] => t
  | [el] => js_element_tokens el t
  | el :: els' =>
      js_elements els' (t |> js_element_tokens el |> txt $"," |> space)
  end.

(** src/lang/js.rs:457-490 *)
Definition js_bindings (r : js_resolved) (t : tokens js_import)
  : tokens js_import :=
  let t := match r_default r with
           | Some default =>
               let t := istr default t in
               match r_set r with [] => t | _ => t |> txt $"," |> space end
           | None => t
           end in
  match r_set r with
  | [] => t
  | els => t |> txt $"{" |> js_elements els |> txt $"}"
  end.

(** src/lang/js.rs:416-494 *)
Definition js_imports (tokens : tokens js_import) (module_path : option path)
    (out : Tokens.tokens js_import) : Tokens.tokens js_import :=
  let '(modules, wildcards) := js_collect (walk_imports tokens) in
  match modules, wildcards with
  | [], [] => out
  | _, _ =>
      let out := for_each (fun '(module, name) out =>
        out |> push |> st $"import" |> space |> st $"*" |> space |> st $"as"
            |> space |> istr name |> space |> st $"from" |> space
            |> js_render_from module_path module |> st $";") wildcards out in
      let out := for_each (fun '(name, module) out =>
        out |> push |> st $"import" |> space |> js_bindings module |> space
            |> st $"from" |> space |> js_render_from module_path name |> st $";")
        modules out in
      line out
  end.

(** src/lang/js.rs:74-122 and 174-184 *)
Definition js_quote (has_eval : bool) : list str :=
  if has_eval then [$"`"] else [[34%N]].
(** src/lang/js.rs:74-158 and 174-184 *)
Definition js_ops : lang_ops js_import := {|
  l_open_quote := js_quote;
  l_close_quote := js_quote;
  l_string_eval_literal := fun s => [$"${"; s; $"}"];
  l_start_string_eval := [$"${"];
  l_end_string_eval := [$"}"];
  l_write_quoted := js_write_quoted;
  l_format_item := js_format_item
|}.

(** src/lang/js.rs:67-184; the configuration (190-193) is the module path. *)
Definition js_lang : lang_def js_import (option path) unit := {|
  ld_indentation := ISpace 4;
  ld_ops := fun _ _ => js_ops;
  ld_default_config := None;
  ld_default_format := tt;
  ld_format_file := fun t c => [(js_imports t c new, tt); (t, tt)]
|}.
End Js.
