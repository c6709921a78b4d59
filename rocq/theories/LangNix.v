(** * Nix.  Models src/lang/nix.rs. *)
From Verif Require Import LangBase.

(** src/lang/nix.rs:59-101.  The token stream held by a variable is given by
    its items in order and the position of its last language item. *)
Inductive nix_import : Type :=
| NArgument (name : item_str)
| NInherit (path name : item_str)
| NVariable (name : item_str) (value : list (item nix_import)) (last : nat)
| NWith (argument name : item_str).

(** src/lang/nix.rs:352-361 ([variable]) *)
Definition nix_variable (name : item_str) (value : tokens nix_import) : nix_import :=
  NVariable name (items value) (last_lang_item value).
(** The stream of a variable. *)
Definition nix_value (value : list (item nix_import)) (last : nat) : tokens nix_import :=
  mk_tokens (rev value) last.

(** src/lang/nix.rs:46-56 *)
Definition nix_format_item (i : nix_import) : list str :=
  match i with
  | NArgument name => [content name]
  | NInherit _ name => [content name]
  | NVariable name _ _ => [content name]
  | NWith _ name => [content name]
  end.

(** Derived [Ord] of [Item] (src/tokens/item.rs:9-49), variants in declaration
    order, for an item order [c]. *)
Definition item_rank {LI} (x : item LI) : nat :=
  match x with
  | Literal _ => 0 | Lang _ _ => 1 | Register _ _ => 2 | Push => 3 | Line => 4
  | Space => 5 | Indentation _ => 6 | OpenQuote _ => 7 | CloseQuote => 8
  | OpenEval => 9 | CloseEval => 10
  end.
Section ItemCmp.
Context {LI : Type} (c : LI -> LI -> comparison).
(** src/tokens/item.rs:9-49, derived [Ord]. *)
Definition cmp_item (x y : item LI) : comparison :=
  match x, y with
  | Literal a, Literal b => cmp_item_str a b
  | Lang p a, Lang q b => then_cmp (cmp_nat p q) (c a b)
  | Register p a, Register q b => then_cmp (cmp_nat p q) (c a b)
  | Indentation n, Indentation m => Z.compare n m
  | OpenQuote a, OpenQuote b => cmp_bool a b
  | _, _ => Nat.compare (item_rank x) (item_rank y)
  end.
End ItemCmp.

(** Derived [Ord] of [Import]; only variables are compared by the code, but
    their streams contain imports. *)
Fixpoint cmp_nix (a b : nix_import) : comparison :=
  match a, b with
  | NArgument x, NArgument y => cmp_item_str x y
  | NArgument _, _ => Lt
  | NInherit _ _, NArgument _ => Gt
  | NInherit p x, NInherit q y => then_cmp (cmp_item_str p q) (cmp_item_str x y)
  | NInherit _ _, _ => Lt
  | NVariable x v l, NVariable y w m =>
      then_cmp (cmp_item_str x y)
        (then_cmp (cmp_list (cmp_item cmp_nix) v w) (cmp_nat l m))
  | NVariable _ _ _, NWith _ _ => Lt
  | NVariable _ _ _, _ => Gt
  | NWith p x, NWith q y => then_cmp (cmp_item_str p q) (cmp_item_str x y)
  | NWith _ _, _ => Gt
  end.

(** The order of [(&ItemStr, &Tokens)]. *)
Definition nix_var := (item_str * (list (item nix_import) * nat))%type.
(** The key at src/lang/nix.rs:217. *)
Definition cmp_nix_var : nix_var -> nix_var -> comparison :=
  cmp_pair cmp_item_str (cmp_pair (cmp_list (cmp_item cmp_nix)) cmp_nat).

(** [x.split('.').next()] *)
Definition nix_root (s : item_str) : str := before_char 46 (content s).

(** src/lang/nix.rs:124-159: the arguments an import needs. *)
Definition nix_argument_inner (s : list str) (i : nix_import) : list str :=
  match i with
  | NInherit path _ => set_insert str_cmp (nix_root path) s
  | NArgument name => set_insert str_cmp (content name) s
  | _ => s
  end.
(** src/lang/nix.rs:124-159 *)
Definition nix_argument_one (s : list str) (i : nix_import) : list str :=
  match i with
  | NArgument name => set_insert str_cmp (content name) s
  | NInherit path _ => set_insert str_cmp (nix_root path) s
  | NVariable _ value last =>
      fold_left nix_argument_inner (walk_imports (nix_value value last)) s
  | NWith argument _ => set_insert str_cmp (nix_root argument) s
  end.

(** src/lang/nix.rs:121-178 *)
Definition nix_arguments (tokens : tokens nix_import) (out : Tokens.tokens nix_import)
  : Tokens.tokens nix_import :=
  let arguments := fold_left nix_argument_one (walk_imports tokens) [] in
  for_each (fun a out => out |> txt a |> st $"," |> push) arguments
    (out |> txt $"{" |> push |> indent)
  |> txt $"..." |> push |> unindent |> txt $"}:" |> push |> line.

(** src/lang/nix.rs:180-199 *)
Definition nix_with_one (s : list item_str) (i : nix_import) : list item_str :=
  match i with
  | NWith argument _ => set_insert cmp_item_str argument s
  | _ => s
  end.
(** src/lang/nix.rs:180-199 *)
Definition nix_withs (tokens : tokens nix_import) (out : Tokens.tokens nix_import)
  : Tokens.tokens nix_import :=
  match fold_left nix_with_one (walk_imports tokens) [] with
  | [] => out
  | withs =>
      line (for_each (fun name out =>
        out |> st $"with" |> space |> istr name |> st $";" |> push) withs out)
  end.

(** src/lang/nix.rs:205-221 *)
Definition nix_inherit_cmp : item_str * item_str -> item_str * item_str -> comparison :=
  cmp_pair cmp_item_str cmp_item_str.
(** src/lang/nix.rs:212-216: the inner loop. *)
Definition nix_inherit_inner (s : list (item_str * item_str)) (i : nix_import)
  : list (item_str * item_str) :=
  match i with
  | NInherit path name => set_insert nix_inherit_cmp (path, name) s
  | _ => s
  end.
(** src/lang/nix.rs:205-221: the loop body. *)
Definition nix_collect_one (acc : list (item_str * item_str) * list nix_var)
    (i : nix_import) : list (item_str * item_str) * list nix_var :=
  let '(inherits, variables) := acc in
  match i with
  | NInherit path name => (set_insert nix_inherit_cmp (path, name) inherits, variables)
  | NVariable name value last =>
      (fold_left nix_inherit_inner (walk_imports (nix_value value last)) inherits,
       set_insert cmp_nix_var (name, (value, last)) variables)
  | _ => acc
  end.

(** src/lang/nix.rs:201-246 *)
Definition nix_imports (tokens : tokens nix_import) (out : Tokens.tokens nix_import)
  : Tokens.tokens nix_import :=
  let '(inherits, variables) :=
    fold_left nix_collect_one (walk_imports tokens) ([], []) in
  match inherits, variables with
  | [], [] => out
  | _, _ =>
      let out := out |> txt $"let" |> push |> indent in
      let out := for_each (fun '(path, name) out =>
        out |> st $"inherit" |> space |> st $"(" |> istr path |> st $")" |> space
            |> istr name |> st $";" |> push) inherits out in
      let out := for_each (fun '(name, (value, last)) out =>
        out |> istr name |> space |> st $"=" |> space
            |> append (VTokens (nix_value value last)) |> st $";" |> push)
        variables out in
      out |> unindent |> txt $"in" |> push |> line
  end.

(** src/lang/nix.rs:27-43, the header; the configuration (108-118) is the
    [scoped] flag. *)
Definition nix_header (scoped : bool) (tokens : tokens nix_import)
  : Tokens.tokens nix_import :=
  let header := if scoped then new else nix_arguments tokens new in
  nix_imports tokens (nix_withs tokens header).

(** src/lang/nix.rs:16-57 *)
Definition nix_lang : lang_def nix_import bool unit := {|
  ld_indentation := ISpace 4;
  ld_ops := fun _ _ => lang_ops_of c_family_write_quoted nix_format_item;
  ld_default_config := false;
  ld_default_format := tt;
  ld_format_file := fun t c => [(nix_header c t, tt); (t, tt)]
|}.
