(** * Specification: Rust use declarations and paths. *)
From Verif Require Import Str Tokens SpecLang LangRust.

(** ** Lines *)

(** An item of a use declaration of a module: the module itself or a member,
    possibly renamed. *)
Inductive rust_leaf : Type :=
| LSelf (alias : option item_str)
| LName (name : item_str) (alias : option item_str).

Definition rust_as (alias : option item_str) : str :=
  match alias with Some a => $" as " ++ content a | None => [] end.
Definition rust_leaf_text (l : rust_leaf) : str :=
  match l with
  | LSelf a => $"self" ++ rust_as a
  | LName n a => content n ++ rust_as a
  end.
(** [use m;], [use m as a;], [use m::n;], [use m::n as a;], or, for several
    items, [use m::{self, self as a, n, o as b};]. *)
Definition rust_use_line (u : item_str * list rust_leaf) : str :=
  let '(m, leaves) := u in
  $"use " ++ content m ++
  match leaves with
  | [LSelf a] => rust_as a
  | [LName n a] => $"::" ++ content n ++ rust_as a
  | _ => $"::{" ++ join $", " (map rust_leaf_text leaves) ++ $"}"
  end ++ $";".

(** The module itself, then the module under other names, then members. *)
Definition rust_leaf_before (name_before : item_str -> item_str -> Prop) (a b : rust_leaf) : Prop :=
  match a, b with
  | LSelf None, LSelf (Some _) => True
  | LSelf (Some x), LSelf (Some y) => name_before x y
  | LSelf _, LName _ _ => True
  | LName n x, LName m y =>
      name_before n m \/
      n = m /\ match x, y with
               | None, Some _ => True
               | Some x, Some y => name_before x y
               | _, None => False
               end
  | _, _ => False
  end.

(** ** What a use asks for *)

(** How an import is to be used: by its own mode, or the configured one. *)
Definition rust_effective (default : rust_mode) (mode : option rust_mode) : rust_mode :=
  match mode with Some m => m | None => default end.
(** The item of the use declaration of [m] that a use needs.  A qualified use of
    a module without [::] needs none: it is a crate, or in scope already. *)
Definition rust_asks (default : rust_mode) (i : rust_import) (m : item_str) (l : rust_leaf) : Prop :=
  match ru_module i with
  | RModule mode m' => m' = m /\
      match rust_effective default mode with
      | Direct => l = LName (ru_name i) (ru_alias i)
      | QualifiedMode => l = LSelf None /\ exists p r, content m = p ++ $"::" ++ r
      end
  | RAliased m' a => m' = m /\ l = LSelf (Some a)
  end.

(** ** Names *)

(** The part of a path before its first colon, and the rest. *)
Fixpoint rust_root (s : str) : str :=
  match s with
  | [] => []
  | c :: s' => if N.eqb c 58 then [] else c :: rust_root s'
  end.
Fixpoint rust_rest (s : str) : str :=
  match s with
  | [] => []
  | c :: s' => if N.eqb c 58 then s else rust_rest s'
  end.
Definition no_colon (s : str) : Prop := ~ In 58%N s.

(** The name an item of a use declaration binds, and to which path. *)
Definition rust_binds (e : item_str * rust_leaf) (name path : str) : Prop :=
  let '(m, l) := e in
  match l with
  | LSelf None => last_segment $"::" (content m) name /\ path = content m
  | LSelf (Some a) => name = content a /\ path = content m
  | LName n a => name = content (match a with Some a => a | None => n end) /\
                 path = content m ++ $"::" ++ content n
  end.
(** All items of all declarations. *)
Definition rust_entries (mods : list (item_str * list rust_leaf)) : list (item_str * rust_leaf) :=
  flat_map (fun u => map (pair (fst u)) (snd u)) mods.

(** The path an expression denotes: its first segment is bound by exactly one
    item (binding a name twice is an error), or by none and stands for itself. *)
Definition rust_denotes (entries : list (item_str * rust_leaf)) (expr path : str) : Prop :=
  (exists before e after p,
     entries = before ++ e :: after /\ rust_binds e (rust_root expr) p /\
     (forall e' p', In e' (before ++ after) -> ~ rust_binds e' (rust_root expr) p') /\
     path = p ++ rust_rest expr) \/
  ((forall e p, In e entries -> ~ rust_binds e (rust_root expr) p) /\ path = expr).

(** What a use is meant to denote. *)
Definition rust_object (i : rust_import) : str :=
  match ru_module i with
  | RModule _ m | RAliased m _ => content m ++ $"::" ++ content (ru_name i)
  end.
(** Names and aliases are identifiers. *)
Definition rust_simple_names (i : rust_import) : Prop :=
  no_colon (content (ru_name i)) /\
  match ru_alias i with Some a => no_colon (content a) | None => True end /\
  match ru_module i with
  | RModule _ m => forall e, last_segment $"::" (content m) e -> no_colon e
  | RAliased _ a => no_colon (content a)
  end.
