(** * Specification: Nix file headers and names. *)
From Verif Require Import Str Tokens SpecTokens TokensRun Values Fmt SpecFmt SpecFile SpecLang LangNix.

(** ** Lines *)

(** Put a text before the first line and one after the last. *)
Fixpoint after_last_line (post : str) (lines : list str) : list str :=
  match lines with
  | [] => [post]
  | [l] => [l ++ post]
  | l :: ls => l :: after_last_line post ls
  end.
Definition surround (pre : str) (lines : list str) (post : str) : list str :=
  match after_last_line post lines with
  | [] => []
  | l :: ls => (pre ++ l) :: ls
  end.

(** [inherit (path) name;] *)
Definition nix_inherit_line (k : item_str * item_str) : str :=
  $"inherit (" ++ content (fst k) ++ $") " ++ content (snd k) ++ $";".
(** [name = value;], over as many lines as the value has. *)
Definition nix_variable_lines (k : item_str * list str) : list str :=
  surround (content (fst k) ++ $" = ") (snd k) $";".

(** The sections of a header. *)
Definition nix_arguments_section (p : str) (arguments : list str) : list str :=
  $"{" :: map (fun a => p ++ a ++ $",") arguments ++ [p ++ $"..."; $"}:"].
Definition nix_withs_section (withs : list item_str) : list str :=
  map (fun a => $"with " ++ content a ++ $";") withs.
Definition nix_let_section (p : str) (inherits : list (item_str * item_str))
    (variables : list (item_str * list str)) : list str :=
  match inherits, variables with
  | [], [] => []
  | _, _ =>
      $"let" ::
      map (indent_line p) (map nix_inherit_line inherits ++ flat_map nix_variable_lines variables) ++
      [$"in"]
  end.
(** One section after the other, with blank lines between those that are there. *)
Fixpoint sections (ss : list (list str)) : list str :=
  match ss with
  | [] => []
  | s :: ss' =>
      match s, sections ss' with
      | [], r => r
      | _, [] => s
      | _, r => s ++ [] :: r
      end
  end.

(** ** Names *)

(** The part of a path before the first dot. *)
Definition nix_path_root (path : str) (r : str) : Prop :=
  ~ In 46%N r /\ (path = r \/ exists rest, path = r ++ 46%N :: rest).

(** Variables hold streams built by the API. *)
Definition nix_made (i : nix_import) : Prop :=
  match i with
  | NVariable _ v l => exists cs, nix_value v l = build cs
  | _ => True
  end.

(** Variables are made by [variable] from such streams. *)
Definition nix_from_streams (i : nix_import) : Prop :=
  match i with
  | NVariable n _ _ => exists cs, i = nix_variable n (build cs)
  | _ => True
  end.

(** Imports used by a stream, or directly in the value of a variable it uses. *)
Inductive nix_used (t : tokens nix_import) : nix_import -> Prop :=
| used_here i : In i (uses t) -> nix_used t i
| used_in_value n v l i : In (NVariable n v l) (uses t) -> In i (uses (nix_value v l)) ->
    match i with NArgument _ | NInherit _ _ => True | _ => False end -> nix_used t i.
(** Imports used by a stream, or anywhere in the values of variables it uses. *)
Inductive nix_reachable (t : tokens nix_import) : nix_import -> Prop :=
| reach_here i : In i (uses t) -> nix_reachable t i
| reach_in_value n v l i : nix_reachable t (NVariable n v l) -> In i (uses (nix_value v l)) ->
    nix_reachable t i.

(** Names and paths are not empty. *)
Definition nix_named (i : nix_import) : Prop :=
  match i with
  | NArgument n | NVariable n _ _ => named n
  | NInherit p n | NWith p n => named p /\ named n /\ ~ nix_path_root (content p) []
  end.
(** The value of a variable: quotes are closed, it starts and ends with text,
    and its indentation is balanced. *)
Definition nix_value_ok cfg scoped (v : tokens nix_import) (doc : list (node nix_import)) : Prop :=
  let l := doc_atoms (ld_ops nix_lang scoped tt) cfg doc in
  items v = doc_items doc /\ doc_ok doc = true /\ visible_ends l /\ level_body l.
Definition nix_values_ok cfg scoped (t : tokens nix_import) : Prop :=
  forall n v l, In (NVariable n v l) (uses t) -> exists doc, nix_value_ok cfg scoped (nix_value v l) doc.

(** The argument an import needs. *)
Definition nix_needs_argument (i : nix_import) (a : str) : Prop :=
  match i with
  | NArgument n => a = content n
  | NInherit p _ | NWith p _ => nix_path_root (content p) a
  | NVariable _ _ _ => False
  end.

(** The header lists what the file uses, sorted. *)
Definition nix_listed (t : tokens nix_import) (arguments : list str) (withs : list item_str)
    (inherits : list (item_str * item_str)) (variables : list (item_str * (list (item nix_import) * nat))) : Prop :=
  sorted text_before arguments /\
  (forall a, In a arguments <-> exists i, nix_used t i /\ nix_needs_argument i a) /\
  sorted name_before withs /\
  (forall w, In w withs <-> exists n, In (NWith w n) (uses t)) /\
  sorted (pair_before name_before name_before) inherits /\
  (forall p n, In (p, n) inherits <-> nix_used t (NInherit p n)) /\
  sorted (pair_before name_before (fun a b => a <> b)) variables /\
  (forall n v l, In (n, (v, l)) variables <-> In (NVariable n v l) (uses t)).

(** What a name stands for. *)
Inductive nix_object : Type :=
| OArgument (name : str)
| OInherit (path name : str)
| OVariable (value : list str)   (* the lines of its value *)
| OWith (path name : str).

Definition nix_name (i : nix_import) : str :=
  match i with
  | NArgument n | NInherit _ n | NVariable n _ _ | NWith _ n => content n
  end.
(** Names bound by [let]. *)
Definition nix_lets (inherits : list (item_str * item_str)) (variables : list (item_str * list str))
  : list (str * nix_object) :=
  map (fun k => (content (snd k), OInherit (content (fst k)) (content (snd k)))) inherits ++
  map (fun k => (content (fst k), OVariable (snd k))) variables.

(** What an import's name is meant to stand for. *)
Definition nix_means cfg scoped (i : nix_import) (o : nix_object) : Prop :=
  match i with
  | NArgument n => o = OArgument (content n)
  | NInherit p n => o = OInherit (content p) (content n)
  | NVariable _ v l => exists ls, o = OVariable ls /\
      renders nix_lang cfg scoped tt (nix_value v l) (stack (c_newline cfg) ls)
  | NWith p n => o = OWith (content p) (content n)
  end.
Definition nix_binder (i : nix_import) : Prop :=
  match i with NInherit _ _ | NVariable _ _ _ => True | _ => False end.

(** A file's names: [let] hides arguments, both hide [with], a [with] hides the
    ones before it; binding a name twice in one [let] is an error.  The arguments
    of a scoped file are those of its surroundings.  [has path n]: the set at
    [path] has a member [n]. *)
Section Scope.
Context (has : str -> str -> Prop) (scoped : bool) (arguments : list str) (withs : list item_str)
  (lets : list (str * nix_object)).
Definition is_argument (name : str) : Prop :=
  (forall o, ~ In (name, o) lets) /\ (scoped = false -> In name arguments).
Definition bound_once (name : str) (o : nix_object) : Prop :=
  exists a b, lets = a ++ (name, o) :: b /\ forall o', ~ In (name, o') (a ++ b).
Definition nix_denotes (name : str) (o : nix_object) : Prop :=
  match o with
  | OArgument n => name = n /\ is_argument name
  | OInherit path _ => bound_once name o /\ (exists r, nix_path_root path r /\ is_argument r)
  | OVariable _ => bound_once name o
  | OWith path n =>
      name = n /\ (forall o', ~ In (name, o') lets) /\ (scoped = false -> ~ In name arguments) /\
      (exists a w b, withs = a ++ w :: b /\ content w = path /\
         forall w', In w' b -> content w' <> path -> ~ has (content w') name) /\
      (exists r, nix_path_root path r /\ is_argument r)
  end.
End Scope.
