(** * Parsing of quotes.

    Models genco-macros/src/quote.rs, the parser of string_parser.rs (lines
    210-318), quote_in.rs and ast.rs: from the token trees the compiler hands to
    the macro to the elements of a quote that [Macro.v] encodes.

    The parsers of [syn] for Rust patterns and expressions, and what those mean,
    are a parameter ([rust]).  Groups without delimiters do not occur, attributes
    of match arms are not modelled (quote.rs:199 reads them from behind the match;
    anything there is rejected), nor are error messages: a rejected input is
    [None]. *)
From Verif Require Import Str Tokens SpecTokens TokensRun Values Macro.

(** ** Token trees *)

(** [proc_macro2::TokenTree] *)
Inductive tree : Type :=
| TIdent (c : cursor) (s : str)
| TPunct (c : cursor) (ch : N) (joint : bool)
| TLit (c : cursor) (s : str)            (* literals other than the next two *)
| TStr (c : cursor) (s value : str)      (* string literal: source and value *)
| TChar (c : cursor) (s : str) (value : N)   (* character literal *)
| TGroup (c : cursor) (d : delimiter) (ts : list tree).

(** The span of a token tree (genco-macros/src/fake.rs:68-90). *)
Definition tree_cursor (t : tree) : cursor :=
  match t with
  | TIdent c _ | TPunct c _ _ | TLit c _ | TStr c _ _ | TChar c _ _ | TGroup c _ _ => c
  end.

(** The keywords [syn::Ident] does not accept (syn, ident.rs). *)
Definition keywords : list str :=
  [$"_"; $"abstract"; $"as"; $"async"; $"await"; $"become"; $"box"; $"break"; $"const";
   $"continue"; $"crate"; $"do"; $"dyn"; $"else"; $"enum"; $"extern"; $"false"; $"final";
   $"fn"; $"for"; $"if"; $"impl"; $"in"; $"let"; $"loop"; $"macro"; $"match"; $"mod";
   $"move"; $"mut"; $"override"; $"priv"; $"pub"; $"ref"; $"return"; $"Self"; $"self";
   $"static"; $"struct"; $"super"; $"trait"; $"true"; $"try"; $"type"; $"typeof";
   $"unsafe"; $"unsized"; $"use"; $"virtual"; $"where"; $"while"; $"yield"].
(** [Ident] of syn does not parse keywords. *)
Definition keyword (s : str) : bool := existsb (str_eqb s) keywords.

(** Number of trees at any depth, as fuel. *)
Fixpoint tree_size (t : tree) : nat :=
  match t with
  | TGroup _ _ ts => S (list_sum (map tree_size ts))
  | _ => 1
  end.
(** Likewise for a sequence. *)
Definition size (ts : list tree) : nat := list_sum (map tree_size ts).

(** genco-macros/src/fake.rs:114-121 ([join]) *)
Definition join_cursor (a b : cursor) : cursor := mk_cursor (c_start a) (c_end b).

(** genco-macros/src/ast.rs:106-124 ([from_char]) *)
Definition control_of (c : N) : option control :=
  if N.eqb c 32 then Some KSpace
  else if N.eqb c 10 then Some KLine
  else if N.eqb c 13 then Some KPush
  else None.

(** ** Rust *)

(** What [syn] parses a prefix of the input to, and what that means.  [P] are
    patterns, [X] are expressions. *)
Record rust (LI E P X : Type) : Type := mk_rust {
  r_pat : list tree -> option (P * list tree);         (* Pat::parse_single *)
  r_pats : list tree -> option (P * list tree);        (* Pat::parse_multi_with_leading_vert *)
  r_expr : list tree -> option (X * list tree);        (* Expr::parse *)
  r_head : list tree -> option (X * list tree);        (* Expr::parse_without_eager_brace *)
  r_variable : str -> @expr E (value LI);
  r_value : X -> @expr E (value LI);
  r_bool : X -> @expr E bool;
  r_each : P -> X -> @expr E (list (E -> E));          (* for .. in .. *)
  r_select : X -> list (P * option X) -> @expr E nat;  (* match .. { .. if .. => } *)
  r_let : P -> X -> E -> E;
  r_code : str -> list tree -> @expr E (list (call LI));  (* code that names the stream *)
  r_effect : list tree -> E -> E;                      (* code that does not *)
  r_show : cursor -> delimiter -> list tree -> str     (* Display of a group *)
}.
Arguments r_pat {_ _ _ _}. Arguments r_pats {_ _ _ _}. Arguments r_expr {_ _ _ _}.
Arguments r_head {_ _ _ _}. Arguments r_variable {_ _ _ _}. Arguments r_value {_ _ _ _}.
Arguments r_bool {_ _ _ _}. Arguments r_each {_ _ _ _}. Arguments r_select {_ _ _ _}.
Arguments r_let {_ _ _ _}. Arguments r_code {_ _ _ _}. Arguments r_effect {_ _ _ _}.
Arguments r_show {_ _ _ _}.

Section Parse.
Context {LI E P X : Type} (R : rust LI E P X).
Local Notation quoted := (quoted_item LI E).
Local Notation strung := (string_item LI E).

(** [Display] of a token tree. *)
Definition tree_text (t : tree) : str :=
  match t with
  | TIdent _ s | TLit _ s | TStr _ s _ | TChar _ s _ => s
  | TPunct _ ch _ => [ch]
  | TGroup c d ts => r_show R c d ts
  end.

(** [=>] *)
Definition arrow (ts : list tree) : option (list tree) :=
  match ts with
  | TPunct _ 61 true :: TPunct _ 62 _ :: ts => Some ts
  | _ => None
  end.
(** A keyword or identifier. *)
Definition word (w : str) (ts : list tree) : option (list tree) :=
  match ts with
  | TIdent _ s :: ts => if str_eqb s w then Some ts else None
  | _ => None
  end.
(** [,] *)
Definition comma (ts : list tree) : option (list tree) :=
  match ts with
  | TPunct _ 44 _ :: ts => Some ts
  | _ => None
  end.

(** ** Quotes, given the parser of their elements

    [items until_comma input] are the elements up to the end or a comma, and the
    rest of the input (quote.rs:79-84). *)
Section Items.
Variable items : bool -> list tree -> option (list quoted * list tree).

(** A quote up to the end. *)
Definition whole (ts : list tree) : option (list quoted) :=
  match items false ts with
  | Some (qs, []) => Some qs
  | _ => None
  end.

(** genco-macros/src/quote.rs:86-135 *)
Definition parse_condition (c : cursor) (ts : list tree) : option quoted :=
  bind (r_head R ts) (fun '(x, ts) =>
    match arrow ts with
    | Some ts => bind (whole ts) (fun a => Some (QIf c (r_bool R x) a None))
    | None =>
        match ts with
        | TGroup _ Brace a :: ts =>
            bind (whole a) (fun a =>
              match word $"else" ts with
              | Some [TGroup _ Brace b] =>
                  bind (whole b) (fun b => Some (QIf c (r_bool R x) a (Some b)))
              | Some _ => None
              | None =>
                  match ts with
                  | [] => Some (QIf c (r_bool R x) a None)
                  | _ => None
                  end
              end)
        | _ => None
        end
    end).

(** genco-macros/src/quote.rs:137-186 *)
Definition parse_loop (c : cursor) (ts : list tree) : option quoted :=
  bind (r_pat R ts) (fun '(p, ts) =>
  bind (word $"in" ts) (fun ts =>
  bind (r_head R ts) (fun '(x, ts) =>
  bind (match word $"join" ts with
        | Some (TGroup paren Parenthesis js :: ts) =>
            bind (whole js) (fun js => Some (Some (paren, js), ts))
        | Some _ => None
        | None => Some (None, ts)
        end) (fun '(join, ts) =>
    match arrow ts with
    | Some ts => bind (whole ts) (fun body => Some (QLoop c (r_each R p x) join body))
    | None =>
        match ts with
        | [TGroup _ Brace body] =>
            bind (whole body) (fun body => Some (QLoop c (r_each R p x) join body))
        | _ => None
        end
    end)))).

(** genco-macros/src/quote.rs:212-228: the block of an arm. *)
Definition parse_arm_block (ts : list tree)
  : option ((option cursor * list quoted) * list tree) :=
  match ts with
  | TGroup _ Brace b :: ts => bind (whole b) (fun b => Some ((None, b), ts))
  | TGroup paren Parenthesis b :: ts => bind (whole b) (fun b => Some ((Some paren, b), ts))
  | _ => bind (items true ts) (fun '(b, ts) => Some ((None, b), ts))
  end.
(** genco-macros/src/quote.rs:199-210: the head of an arm. *)
Definition parse_arm_head (ts : list tree) : option ((P * option X) * list tree) :=
  bind (r_pats R ts) (fun '(p, ts) =>
  bind (match word $"if" ts with
        | Some ts => bind (r_expr R ts) (fun '(x, ts) => Some (Some x, ts))
        | None => Some (None, ts)
        end) (fun '(guard, ts) =>
  bind (arrow ts) (fun ts => Some ((p, guard), ts)))).
(** genco-macros/src/quote.rs:198-242; an arm takes at least two tokens, so [n]
    is the length of the input. *)
Fixpoint parse_arms (n : nat) (ts : list tree)
  : option (list ((P * option X) * (option cursor * list quoted))) :=
  match ts, n with
  | [], _ => Some []
  | _, O => None
  | _, S n =>
      bind (parse_arm_head ts) (fun '(head, ts) =>
      bind (parse_arm_block ts) (fun '(block, ts) =>
      bind (parse_arms n match comma ts with Some ts => ts | None => ts end) (fun arms =>
        Some ((head, block) :: arms))))
  end.
(** genco-macros/src/quote.rs:188-245 *)
Definition parse_match (c : cursor) (ts : list tree) : option quoted :=
  bind (r_head R ts) (fun '(x, ts) =>
    match ts with
    | [TGroup _ Brace body] =>
        bind (parse_arms (length body) body) (fun arms =>
          Some (QMatch c (r_select R x (map fst arms)) (map snd arms)))
    | _ => None
    end).

(** genco-macros/src/quote.rs:247-259 *)
Definition parse_let (c : cursor) (ts : list tree) : option quoted :=
  bind (r_pat R ts) (fun '(p, ts) =>
    match ts with
    | TPunct _ 61 _ :: ts =>
        match r_head R ts with
        | Some (x, []) => Some (QLet c (r_let R p x))
        | _ => None
        end
    | _ => None
    end).

(** genco-macros/src/quote.rs:261-286 *)
Definition parse_scope (c : cursor) (ts : list tree) : option quoted :=
  match ts with
  | TIdent _ name :: ts =>
      bind (match ts with
            | [TGroup _ Brace code] => Some code
            | TGroup _ Brace _ :: _ => None
            | _ => arrow ts
            end) (fun code =>
        if str_eqb name $"_" then Some (QEffect c (r_effect R code))
        else if keyword name then None
        else Some (QScope c (r_code R name code)))
  | _ => None
  end.

(** genco-macros/src/quote.rs:300-334: the parentheses of [$(..)]. *)
Definition parse_paren (c : cursor) (scope : list tree) : option quoted :=
  match word $"if" scope, word $"for" scope, word $"match" scope,
        word $"let" scope, word $"ref" scope with
  | Some ts, _, _, _, _ => parse_condition c ts
  | _, Some ts, _, _, _ => parse_loop c ts
  | _, _, Some ts, _, _ => parse_match c ts
  | _, _, _, Some ts, _ => parse_let c ts
  | _, _, _, _, Some ts => parse_scope c ts
  | _, _, _, _, _ =>
      match scope with
      | [TStr _ _ v] => Some (QLiteral c v)              (* string_parser.rs:312-318 *)
      | _ =>
          match r_expr R scope with
          | Some (x, []) => Some (QEval c (r_value R x))
          | _ => None
          end
      end
  end.

(** ** Strings *)

(** The elements of [$[str](..)] (genco-macros/src/string_parser.rs:218-310).  A
    group is a single token here. *)
Fixpoint parse_string (ts : list tree) : option (list strung) :=
  match ts with
  | [] => Some []
  | TPunct a 36 _ :: ts1 =>
      match ts1 with
      | TPunct b 36 _ :: ts2 =>
          bind (parse_string ts2) (fun ps => Some (PDollar (join_cursor a b) :: ps))
      | TGroup _ Bracket f :: ts2 =>
          match f, ts2 with
          | [TIdent _ name], TGroup paren Parenthesis content :: ts3 =>
              if str_eqb name $"const" then
                bind (match content with
                      | [TStr _ _ v] => Some (PConstLit (join_cursor a paren) v)
                      | _ =>
                          match r_expr R content with
                          | Some (x, []) => Some (PConst (join_cursor a paren) (r_value R x))
                          | _ => None
                          end
                      end) (fun p =>
                bind (parse_string ts3) (fun ps => Some (p :: ps)))
              else None
          | _, _ => None
          end
      | TGroup paren Parenthesis content :: ts2 =>
          bind (whole content) (fun qs =>
          bind (parse_string ts2) (fun ps => Some (PEval (join_cursor a paren) qs :: ps)))
      | TIdent b name :: ts2 =>
          if keyword name then None
          else bind (parse_string ts2) (fun ps => Some (PIdent (join_cursor a b) name :: ps))
      | _ => None
      end
  | t :: ts1 =>
      bind (parse_string ts1) (fun ps => Some (PText (tree_cursor t) (tree_text t) :: ps))
  end.

(** ** Elements of quotes *)

(** genco-macros/src/quote.rs:358-412: [$[..]] with what follows it, and
    [parse_internal_function] (502-538). *)
Definition parse_function (a brackets : cursor) (f ts : list tree)
  : option (quoted * list tree) :=
  match f with
  | [TIdent _ name] =>
      match ts with
      | TGroup paren Parenthesis content :: ts =>
          if str_eqb name $"str" then
            bind (parse_string content) (fun ps =>
              Some (QString (join_cursor a paren) paren ps, ts))
          else None
      | _ => None
      end
  | [TChar _ _ ch] =>
      match ts with
      | TGroup _ Parenthesis _ :: _ => None
      | _ => bind (control_of ch) (fun k => Some (QControl (join_cursor a brackets) k, ts))
      end
  | _ => None
  end.

(** genco-macros/src/quote.rs:342-469 ([parse_inner], one round, with
    [parse_group] and [parse_expression]). *)
Definition parse_item (t : tree) (ts : list tree) : option (quoted * list tree) :=
  match t, ts with
  | TPunct a 36 _, TPunct b 36 _ :: ts => Some (QDollar (join_cursor a b), ts)
  | TPunct a 36 _, TGroup brackets Bracket f :: ts => parse_function a brackets f ts
  | TPunct a 36 _, TGroup paren Parenthesis scope :: ts =>
      bind (parse_paren (join_cursor a paren) scope) (fun q => Some (q, ts))
  | TPunct a 36 _, TIdent b name :: ts' =>
      if keyword name then Some (QText a $"$", ts)
      else Some (QEval (join_cursor a b) (r_variable R name), ts')
  | TStr c _ v, _ => Some (QQuoted c v, ts)
  | TGroup c d content, _ => bind (whole content) (fun qs => Some (QGroup c d qs, ts))
  | _, _ => Some (QText (tree_cursor t) (tree_text t), ts)
  end.
End Items.

(** genco-macros/src/quote.rs:336-472 ([parse_inner]).  [n] bounds the depth of
    the recursion; see [parse]. *)
Fixpoint parse_items (n : nat) (until_comma : bool) (ts : list tree)
  : option (list quoted * list tree) :=
  match n with
  | O => None
  | S n =>
      match ts with
      | [] => Some ([], [])
      | t :: ts' =>
          if until_comma && match comma ts with Some _ => true | None => false end then
            Some ([], ts)
          else
            bind (parse_item (parse_items n) t ts') (fun '(q, ts) =>
            bind (parse_items n until_comma ts) (fun '(qs, ts) => Some (q :: qs, ts)))
      end
  end.

(** The input of [quote!] (lib.rs:48-60) and [quote_fn!] (quote_fn.rs:12-16). *)
Definition parse (ts : list tree) : option (list quoted) :=
  whole (parse_items (S (size ts))) ts.
(** The input of [quote_in!] (quote_in.rs:13-21): the target, [=>] and a quote. *)
Definition parse_in (ts : list tree) : option (X * list quoted) :=
  bind (r_expr R ts) (fun '(x, ts) =>
  bind (arrow ts) (fun ts =>
  bind (parse ts) (fun qs => Some (x, qs)))).

End Parse.
