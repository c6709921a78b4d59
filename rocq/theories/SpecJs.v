(** * Specification: JavaScript import declarations and names. *)
From Verif Require Import Str Tokens SpecFile LangJs.

(** ** Lines *)

Section Lines.
(** The literal for a text; the text of a module specifier. *)
Context (lit : str -> str) (from : js_module -> str).

(** [import * as name from "module";] *)
Definition js_wildcard_line (k : js_module * item_str) : str :=
  $"import * as " ++ content (snd k) ++ $" from " ++ lit (from (fst k)) ++ $";".
(** [name] or [name as alias]. *)
Definition js_element_text (e : js_element) : str :=
  match e with
  | EPlain n => content n
  | EAliased n a => content n ++ $" as " ++ content a
  end.
(** [import default from "module";], [import {a, b as c} from "module";] or
    [import default, {a, b as c} from "module";]. *)
Definition js_module_line (k : js_module * (option item_str * list js_element)) : str :=
  let '(m, (default, elements)) := k in
  $"import " ++
  match default with Some d => content d | None => [] end ++
  match default, elements with Some _, _ :: _ => $", " | _, _ => [] end ++
  match elements with [] => [] | _ => $"{" ++ join $", " (map js_element_text elements) ++ $"}" end ++
  $" from " ++ lit (from m) ++ $";".
End Lines.

(** The text of a module specifier: the name of a global module; a path as it
    is, or relative to the module being generated. *)
Definition js_specifier (relative : path -> path -> path) (module_path : option path)
    (m : js_module) : str :=
  match m with
  | MGlobal s => content s
  | MPath p => join $"/" (map component_text
                            (match module_path with Some mp => relative mp p | None => p end))
  end.

(** ** Sorting *)

(** Paths before global modules; paths component by component: [.], [..], then
    names by text. *)
Definition component_before (a b : component) : Prop :=
  match a, b with
  | CurDir, ParentDir | CurDir, Normal _ | ParentDir, Normal _ => True
  | Normal x, Normal y => text_before x y
  | _, _ => False
  end.
Fixpoint path_before (a b : path) : Prop :=
  match a, b with
  | [], _ :: _ => True
  | x :: a', y :: b' => component_before x y \/ x = y /\ path_before a' b'
  | _, [] => False
  end.
Definition module_before (a b : js_module) : Prop :=
  match a, b with
  | MPath p, MPath q => path_before p q
  | MPath _, MGlobal _ => True
  | MGlobal s, MGlobal t => name_before s t
  | MGlobal _, MPath _ => False
  end.
(** Plain names first. *)
Definition element_before (a b : js_element) : Prop :=
  match a, b with
  | EPlain x, EPlain y => name_before x y
  | EPlain _, EAliased _ _ => True
  | EAliased x p, EAliased y q => pair_before name_before name_before (x, p) (y, q)
  | EAliased _ _, EPlain _ => False
  end.

(** ** Names *)

(** What an import binds a name to. *)
Inductive js_object : Type :=
| OExport (m : js_module) (name : str)
| ODefault (m : js_module)
| ONamespace (m : js_module).

(** The bindings of a header, in order. *)
Definition js_element_binds (m : js_module) (e : js_element) : str * js_object :=
  match e with
  | EPlain n => (content n, OExport m (content n))
  | EAliased n a => (content a, OExport m (content n))
  end.
Definition js_module_binds (k : js_module * (option item_str * list js_element)) : list (str * js_object) :=
  let '(m, (default, elements)) := k in
  match default with Some d => [(content d, ODefault m)] | None => [] end ++
  map (js_element_binds m) elements.
Definition js_header_binds (wildcards : list (js_module * item_str))
    (modules : list (js_module * (option item_str * list js_element))) : list (str * js_object) :=
  map (fun k => (content (snd k), ONamespace (fst k))) wildcards ++
  flat_map js_module_binds modules.

(** A name denotes an object if exactly one import binds it (binding a name
    twice is an error) and to that object. *)
Definition js_denotes (binds : list (str * js_object)) (name : str) (o : js_object) : Prop :=
  exists before after, binds = before ++ (name, o) :: after /\
    forall o', ~ In (name, o') (before ++ after).

(** The element a named import asks for. *)
Definition js_asks (i : js_import) : js_element :=
  match js_alias i with None => EPlain (js_name i) | Some a => EAliased (js_name i) a end.
(** The binding a use asks for. *)
Definition js_needs (i : js_import) : str * js_object :=
  match js_import_kind i with
  | KNamed => js_element_binds (js_import_module i) (js_asks i)
  | KDefault => (content (js_name i), ODefault (js_import_module i))
  | KWildcard => (content (js_name i), ONamespace (js_import_module i))
  end.
(** The first default import of a module in a list of uses. *)
Definition first_default (us : list js_import) (m : js_module) (d : item_str) : Prop :=
  exists before i after, us = before ++ i :: after /\
    js_import_kind i = KDefault /\ js_import_module i = m /\ js_name i = d /\
    forall j, In j before -> js_import_kind j = KDefault -> js_import_module j <> m.
(** Only named imports carry an alias ([with_alias] is a method of those). *)
Definition js_made (i : js_import) : Prop := js_import_kind i = KNamed \/ js_alias i = None.
