(** * Specification: Python import statements and names. *)
From Verif Require Import Str Tokens LangPython.

(** ** Lines *)

(** [name] or [name as alias]. *)
Definition py_as_text (k : item_str * option item_str) : str :=
  content (fst k) ++ match snd k with Some a => $" as " ++ content a | None => [] end.
(** [from module import a, b as c]. *)
Definition py_from_line (m : item_str * list (item_str * option item_str)) : str :=
  $"from " ++ content (fst m) ++ $" import " ++ join $", " (map py_as_text (snd m)).
(** [import module] or [import module as alias]. *)
Definition py_import_line (k : item_str * option item_str) : str := $"import " ++ py_as_text k.

(** ** Names

    An object is identified by its dotted path, [module.name] for a member of a
    module. *)

(** The part of a dotted path before its first dot, and the rest with the dot. *)
Fixpoint py_root (s : str) : str :=
  match s with
  | [] => []
  | c :: s' => if N.eqb c 46 then [] else c :: py_root s'
  end.
Fixpoint py_rest (s : str) : str :=
  match s with
  | [] => []
  | c :: s' => if N.eqb c 46 then s else py_rest s'
  end.
Definition no_dot (s : str) : Prop := ~ In 46%N s.

(** What an import statement binds: a name and the object it stands for.
    [import a.b] binds [a] to the package [a]. *)
Definition py_from_binds (module : str) (k : item_str * option item_str) : str * str :=
  (match snd k with Some a => content a | None => content (fst k) end,
   module ++ $"." ++ content (fst k)).
Definition py_import_binds (k : item_str * option item_str) : str * str :=
  match snd k with
  | Some a => (content a, content (fst k))
  | None => (py_root (content (fst k)), py_root (content (fst k)))
  end.
(** The bindings made by a header, in the order of execution. *)
Definition py_header_binds (froms : list (item_str * list (item_str * option item_str)))
    (imports : list (item_str * option item_str)) : list (str * str) :=
  flat_map (fun m => map (py_from_binds (content (fst m))) (snd m)) froms ++
  map py_import_binds imports.

(** After these bindings an expression denotes an object: its first name is
    bound, by the last binding for it, and the rest are attributes. *)
Definition py_denotes (binds : list (str * str)) (expr path : str) : Prop :=
  exists before object after,
    binds = before ++ (py_root expr, object) :: after /\
    (forall o, ~ In (py_root expr, o) after) /\
    path = object ++ py_rest expr.

(** The binding a use asks for, and the object it is meant to denote. *)
Definition py_needs (i : py_import) : str * str :=
  match i with
  | PyImport (Unqualified m) n a => py_from_binds (content m) (n, a)
  | PyImport (Qualified m a) _ _ => py_import_binds (m, a)
  | PyModule m a => py_import_binds (m, a)
  end.
Definition py_object (i : py_import) : str :=
  match i with
  | PyImport (Unqualified m) n _ | PyImport (Qualified m _) n _ => content m ++ $"." ++ content n
  | PyModule m _ => content m
  end.
(** Names and aliases are single identifiers. *)
Definition py_simple_names (i : py_import) : Prop :=
  let opt o := match o with Some a => no_dot (content a) | None => True end in
  match i with
  | PyImport (Unqualified _) n a => no_dot (content n) /\ opt a
  | PyImport (Qualified _ ma) n a => opt ma
  | PyModule _ a => opt a
  end.
