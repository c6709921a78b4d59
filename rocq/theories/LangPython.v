(** * Python.  Models src/lang/python.rs. *)
From Verif Require Import LangBase.

(** src/lang/python.rs:98-110 *)
Inductive py_module : Type :=
| Unqualified (module : item_str)
| Qualified (module : item_str) (alias : option item_str).

(** src/lang/python.rs:139-147 ([Import]) and 248-255 ([ImportModule]); the
    language item is either ([Any], src/macros.rs:131-138). *)
Inductive py_import : Type :=
| PyImport (module : py_module) (name : item_str) (alias : option item_str)
| PyModule (module : item_str) (alias : option item_str).

(** src/lang/python.rs:113-121 *)
Definition py_module_qualified (m : py_module) : py_module :=
  match m with Unqualified m => Qualified m None | other => other end.
(** src/lang/python.rs:123-133 *)
Definition py_module_with_alias (a : item_str) (m : py_module) : py_module :=
  match m with Qualified m _ | Unqualified m => Qualified m (Some a) end.

(** src/lang/python.rs:382-394 ([import]) *)
Definition py_new (module name : item_str) : py_import :=
  PyImport (Unqualified module) name None.
(** src/lang/python.rs:173-181 *)
Definition py_with_alias (a : item_str) (i : py_import) : py_import :=
  match i with PyImport m n _ => PyImport m n (Some a) | other => other end.
(** src/lang/python.rs:204-209 *)
Definition py_qualified (i : py_import) : py_import :=
  match i with
  | PyImport m n a => PyImport (py_module_qualified m) n a
  | other => other
  end.
(** src/lang/python.rs:234-242 *)
Definition py_with_module_alias (a : item_str) (i : py_import) : py_import :=
  match i with
  | PyImport m n al => PyImport (py_module_with_alias a m) n al
  | other => other
  end.

(** src/lang/python.rs:96 *)
Definition py_sep : str := $".".

(** src/lang/python.rs:59-86 *)
Definition py_format_item (i : py_import) : list str :=
  match i with
  | PyImport m name alias =>
      match m with
      | Qualified module malias =>
          [match malias with Some a => content a | None => content module end;
           py_sep]
      | Unqualified _ => []
      end ++
      [match alias with Some a => content a | None => content name end]
  | PyModule module alias =>
      [match alias with Some a => content a | None => content module end]
  end.

(** src/lang/python.rs:292-316: collecting.  [py_key_cmp] orders both
    [(name, alias)] and [(module, alias)]. *)
Definition py_key := (item_str * option item_str)%type.
(** src/lang/python.rs:292-316, the order of the keys. *)
Definition py_key_cmp : py_key -> py_key -> comparison :=
  cmp_pair cmp_item_str (cmp_option cmp_item_str).
(** src/lang/python.rs:295-316: the loop body. *)
Definition py_collect_one (acc : list (item_str * list py_key) * list py_key)
    (i : py_import) : list (item_str * list py_key) * list py_key :=
  let '(imported_from, imports) := acc in
  match i with
  | PyImport (Qualified module malias) _ _ =>
      (imported_from, set_insert py_key_cmp (module, malias) imports)
  | PyImport (Unqualified module) name alias =>
      (map_update cmp_item_str module [] (set_insert py_key_cmp (name, alias))
         imported_from, imports)
  | PyModule module alias =>
      (imported_from, set_insert py_key_cmp (module, alias) imports)
  end.
(** src/lang/python.rs:292-316 *)
Definition py_collect (is : list py_import)
  : list (item_str * list py_key) * list py_key :=
  fold_left py_collect_one is ([], []).

(** src/lang/python.rs:325-328: [quote!($name$(if let Some(a) = alias => $[' ']as $a))].
    Also the tail of 345. *)
Definition py_as (alias : option item_str) (t : tokens py_import) : tokens py_import :=
  match alias with
  | Some a => t |> space |> st $"as" |> space |> istr a
  | None => t
  end.
(** src/lang/python.rs:327 *)
Definition py_element (k : py_key) : tokens py_import :=
  new |> istr (fst k) |> py_as (snd k).

(** src/lang/python.rs:336: [$(for i in imports join (, ) => $i)]. *)
Fixpoint py_joined (els : list (tokens py_import)) (t : tokens py_import)
  : tokens py_import :=
  match els with
  | [] => t
  | [e] => append (VTokens e) t
  | e :: els' => py_joined els' (t |> append (VTokens e) |> st $"," |> space)
  end.

(** src/lang/python.rs:322-339 *)
Definition py_from_stmt (m : item_str * list py_key) (out : tokens py_import)
  : tokens py_import :=
  let '(module, names) := m in
  let els := map py_element names in
  out |> push |> st $"from" |> space |> istr module |> space |> st $"import" |> space
      |> (if Nat.eqb (length els) 1
          then append (VOption (match els with e :: _ => Some (VTokens e) | [] => None end))
          else py_joined els).

(** src/lang/python.rs:341-347 *)
Definition py_import_stmt (k : py_key) (out : tokens py_import) : tokens py_import :=
  let '(module, alias) := k in
  out |> push |> st $"import" |> space |> istr module |> py_as alias.

(** src/lang/python.rs:291-350 *)
Definition py_imports (tokens : tokens py_import) (out : Tokens.tokens py_import)
  : Tokens.tokens py_import :=
  let '(imported_from, imports) := py_collect (walk_imports tokens) in
  match imported_from, imports with
  | [], [] => out
  | _, _ => line (for_each py_import_stmt imports (for_each py_from_stmt imported_from out))
  end.

(** src/lang/python.rs:33-87 *)
Definition python_lang : lang_def py_import unit unit := {|
  ld_indentation := ISpace 4;
  ld_ops := fun _ _ => lang_ops_of c_family_write_quoted py_format_item;
  ld_default_config := tt;
  ld_default_format := tt;
  ld_format_file := fun t _ => [(py_imports t new, tt); (t, tt)]
|}.
