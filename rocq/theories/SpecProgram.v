(** * Specification: programs with interpolated code.

    Source text with interpolations, the program that is meant by it, and the
    tokens of Rust's use declarations. *)
From Verif Require Import Str SpecStr Tokens Values Fmt SpecFmt Macro SpecMacro SpecWords Parse SpecParse SpecLex SpecReread LangRust SpecRust.

(** ** Source text and the program it stands for *)

(** What is at a place of the source: a token of the program itself, or an
    interpolation that stands for some text. *)
Inductive slot : Type :=
| Code (k : token)
| Value (v : str).

Section Filled.
Context (g : grammar).
(** The text [v], in front of [r], is read as these tokens. *)
Inductive reads_over : str -> str -> list token -> Prop :=
| over_end r : reads_over [] r []
| over_white c v r K : is_white c = true -> reads_over v r K -> reads_over (c :: v) r K
| over_token w v r k K : w <> [] -> read_token g (w ++ v ++ r) = Some (k, v ++ r) ->
    reads_over v r K -> reads_over (w ++ v) r (k :: K).

(** The source [s], which starts at [p], has these words at these places.  With
    each interpolation replaced by what it stands for it is the program [s'], whose
    tokens are [K]: words of code are tokens of it. *)
Inductive filled : pos -> str -> list (cursor * (str * slot)) -> str -> list token -> Prop :=
| filled_end p : filled p [] [] [] []
| filled_white p c s l s' K : is_white c = true ->
    filled (advance p [c]) s l s' K -> filled p (c :: s) l (c :: s') K
| filled_code p w k s l s' K : w <> [] -> read_token g (w ++ s') = Some (k, s') ->
    filled (advance p w) s l s' K ->
    filled p (w ++ s) ((mk_cursor p (advance p w), (w, Code k)) :: l) (w ++ s') (k :: K)
| filled_value p w v s l s' Kv K : reads_over v s' Kv ->
    filled (advance p (36%N :: w)) s l s' K ->
    filled p ((36%N :: w) ++ s) ((mk_cursor p (advance p (36%N :: w)), (36%N :: w, Value v)) :: l) (v ++ s') (Kv ++ K).
End Filled.

(** ** The tokens of a quote *)
Section Fills.
Context {LI E : Type} (ops : lang_ops LI) (cfg : config).
(** Text for a token; a string literal for a string. *)
Definition code_leaf (c : cursor) (k : token) : leaf LI E :=
  match k with
  | WName s | WNumber s | WChar s => LText s
  | WPunct ch _ => LText [ch]
  | WString v => LOther (QQuoted c v)
  | WOpen d => LText (opener d)
  | WClose d => LText (closer d)
  end.
(** The tokens of a quote are code, and interpolations that, one after the other,
    show the texts they are said to stand for, on one line. *)
Fixpoint fills (ts : list (cursor * leaf LI E)) (e : E) (l : list (cursor * (str * slot))) (e' : E) : Prop :=
  match ts, l with
  | [], [] => e' = e
  | (c, x) :: ts', (c', (_, Code k)) :: l' => c = c' /\ x = code_leaf c k /\ fills ts' e l' e'
  | (c, x) :: ts', (c', (_, Value v)) :: l' => c = c' /\ exists ns e1,
      shows ops cfg x e ns e1 /\ inline ops cfg ns /\ string_of ops cfg ns = v /\ fills ts' e1 l' e'
  | _, _ => False
  end.
End Fills.

(** ** Rust *)

(** Names and paths of names. *)
Definition rust_ident (s : str) : Prop :=
  match s with c :: r => name_first c = true /\ forallb name_char r = true | [] => False end.
Definition rust_path (s : str) (segments : list str) : Prop :=
  segments <> [] /\ Forall rust_ident segments /\ s = join $"::" segments.
Definition colons : list token := [WPunct 58 true; WPunct 58 false].
Definition path_tokens (segments : list str) : list token :=
  match segments with
  | [] => []
  | a :: r => WName a :: flat_map (fun b => colons ++ [WName b]) r
  end.

(** [use path;], [use path as a;], [use path::n;], [use path::{n, o as b};]. *)
Definition as_tokens (alias : option item_str) : list token :=
  match alias with Some a => [WName $"as"; WName (content a)] | None => [] end.
Definition leaf_tokens (l : rust_leaf) : list token :=
  match l with
  | LSelf a => WName $"self" :: as_tokens a
  | LName n a => WName (content n) :: as_tokens a
  end.
Definition use_tokens (u : item_str * list rust_leaf) (ks : list token) : Prop :=
  exists segments, rust_path (content (fst u)) segments /\
  ks = WName $"use" :: path_tokens segments ++
    match snd u with
    | [LSelf a] => as_tokens a
    | [l] => colons ++ leaf_tokens l
    | [] => colons ++ [WOpen Brace; WClose Brace]
    | l :: ls =>
        colons ++ WOpen Brace :: leaf_tokens l ++
        flat_map (fun l => WPunct 44 false :: leaf_tokens l) ls ++ [WClose Brace]
    end ++ [WPunct 59 false].

(** What a reference to an import is: its name, or the module and its name. *)
Definition rust_reference (default : rust_mode) (i : rust_import) (expr : str) : Prop :=
  match ru_module i with
  | RAliased _ a => expr = content a ++ $"::" ++ content (ru_name i)
  | RModule mode m =>
      match rust_effective default mode with
      | Direct => expr = content (match ru_alias i with Some a => a | None => ru_name i end)
      | QualifiedMode => exists before x, rust_path (content m) (before ++ [x]) /\
          expr = x ++ $"::" ++ content (ru_name i)
      end
  end.
(** Modules are paths, names and aliases are names. *)
Definition rust_names_ok (i : rust_import) : Prop :=
  rust_ident (content (ru_name i)) /\
  match ru_alias i with Some a => rust_ident (content a) | None => True end /\
  match ru_module i with
  | RModule _ m => exists segments, rust_path (content m) segments
  | RAliased m a => (exists segments, rust_path (content m) segments) /\ rust_ident (content a)
  end.

(** A program in which imports are interpolated. *)
Inductive part : Type :=
| Written (k : token)
| Import (i : rust_import) (expr : str).
Definition slot_of (x : part) : slot :=
  match x with Written k => Code k | Import _ expr => Value expr end.
Definition slots (l : list (cursor * (str * part))) : list (cursor * (str * slot)) :=
  map (fun '(c, (w, x)) => (c, (w, slot_of x))) l.
Definition imported (l : list (cursor * (str * part))) : list rust_import :=
  flat_map (fun '(_, (_, x)) => match x with Import i _ => [i] | Written _ => [] end) l.
(** The tokens of a quote are this program; its interpolations are expressions
    that yield the imports. *)
Fixpoint is_program {E} (default : rust_mode) (ts : list (cursor * leaf rust_import E)) (e : E)
    (l : list (cursor * (str * part))) (e' : E) : Prop :=
  match ts, l with
  | [], [] => e' = e
  | (c, x) :: ts', (c', (_, Written k)) :: l' => c = c' /\ x = code_leaf c k /\ is_program default ts' e l' e'
  | (c, x) :: ts', (c', (_, Import i expr)) :: l' => c = c' /\ rust_reference default i expr /\ exists code e1,
      x = LOther (QEval c code) /\ code e = (VLang i, e1) /\ is_program default ts' e1 l' e'
  | _, _ => False
  end.

(** ** Bare trees *)

(** What token trees consist of: tokens, [$name] and [$(..)] with an expression. *)
Inductive piece (X : Type) : Type :=
| Bare (k : token)
| Named (name : str)
| Computed (x : X).
Arguments Bare {X}. Arguments Named {X}. Arguments Computed {X}.
Section Pieces.
Context {LI E P X : Type} (R : rust LI E P X).
Inductive pieces : list tree -> list (cursor * piece X) -> Prop :=
| pieces_end : pieces [] []
| pieces_token t c k ts l : match t with TGroup _ _ _ => False | _ => True end -> ~ dollar t ->
    tree_tokens t = [(c, k)] -> pieces ts l -> pieces (t :: ts) ((c, Bare k) :: l)
| pieces_group c d inner i ts l : pieces inner i -> pieces ts l ->
    pieces (TGroup c d inner :: ts)
      ((opener_at c, Bare (WOpen d)) :: i ++ (closer_at c, Bare (WClose d)) :: l)
| pieces_variable a j b name ts l : ~ In name keywords -> pieces ts l ->
    pieces (TPunct a 36 j :: TIdent b name :: ts) ((spanning a b, Named name) :: l)
| pieces_expression a j p code x ts l :
    match code with
    | TIdent _ w :: _ => ~ In w [$"if"; $"for"; $"match"; $"let"; $"ref"]
    | [TStr _ _ _] => False
    | _ => True
    end ->
    r_expr R code = Some (x, []) -> pieces ts l ->
    pieces (TPunct a 36 j :: TGroup p Parenthesis code :: ts) ((spanning a p, Computed x) :: l).
Definition piece_leaf (x : cursor * piece X) : cursor * leaf LI E :=
  (fst x, match snd x with
          | Bare k => code_leaf (fst x) k
          | Named name => LOther (QEval (fst x) (r_variable R name))
          | Computed y => LOther (QEval (fst x) (r_value R y))
          end).
End Pieces.
