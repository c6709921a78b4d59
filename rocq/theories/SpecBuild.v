(** * Specification: what an import is after calls of its methods. *)
From Verif Require Import Str Tokens LangJs LangPython LangRust LangBuild.

(** The last of the results. *)
Fixpoint latest {A B} (f : A -> option B) (cs : list A) : option B :=
  match cs with
  | [] => None
  | c :: cs' => match latest f cs' with Some b => Some b | None => f c end
  end.

(** ** JavaScript: the last call decides. *)
Definition js_built (name : item_str) (cs : list js_call) : js_kind * option item_str :=
  match latest Some cs with
  | None => (KNamed, None)
  | Some (JAlias a) => (KNamed, Some a)
  | Some JDefault => (KDefault, None)
  | Some JWildcard => (KWildcard, None)
  end.
(** The declaration and the name it binds. *)
Definition js_declaration (from : str) (name : item_str) (b : js_kind * option item_str) : str :=
  $"import " ++
  match b with
  | (KNamed, None) => $"{" ++ content name ++ $"}"
  | (KNamed, Some a) => $"{" ++ content name ++ $" as " ++ content a ++ $"}"
  | (KDefault, _) => content name
  | (KWildcard, _) => $"* as " ++ content name
  end ++ $" from " ++ from ++ $";".
Definition js_bound (name : item_str) (b : js_kind * option item_str) : str :=
  match b with (KNamed, Some a) => content a | _ => content name end.

(** ** Python *)
Definition py_alias_of (c : py_call) : option item_str := match c with PAlias a => Some a | _ => None end.
Definition py_module_alias_of (c : py_call) : option item_str := match c with PModuleAlias a => Some a | _ => None end.
Definition py_qualifies (c : py_call) : bool := match c with PAlias _ => false | _ => true end.
Definition py_renamed (name : item_str) (alias : option item_str) : str :=
  content name ++ match alias with Some a => $" as " ++ content a | None => [] end.
Definition or_name (name : item_str) (alias : option item_str) : str :=
  match alias with Some a => content a | None => content name end.

(** ** Rust *)
Definition rust_alias_of (c : rust_call) : option item_str := match c with RAlias a => Some a | _ => None end.
Definition rust_module_alias_of (c : rust_call) : option item_str := match c with RModuleAlias a => Some a | _ => None end.
(** How the last call says an item is to be used. *)
Definition rust_mode_of (c : rust_call) : option rust_mode :=
  match c with RAlias _ | RDirect => Some Direct | RQualified => Some QualifiedMode | RModuleAlias _ => None end.
