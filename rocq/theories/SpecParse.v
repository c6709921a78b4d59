(** * The grammar of quotes.

    What is written in a quote and what it stands for, as a relation.  [R] is the
    Rust that may occur inside: how its expressions and patterns read. *)
From Verif Require Import Str Tokens SpecTokens TokensRun Values Macro SpecMacro Parse.

(** From the start of a token to the end of another. *)
Definition spanning (a b : cursor) : cursor := mk_cursor (c_start a) (c_end b).
(** A dollar sign. *)
Definition dollar (t : tree) : Prop := match t with TPunct _ ch _ => ch = 36%N | _ => False end.
(** What makes a dollar sign in front of it special. *)
Definition opens (t : tree) : Prop :=
  match t with
  | TPunct _ ch _ => ch = 36%N
  | TIdent _ name => ~ In name keywords
  | TGroup _ Brace _ => False
  | TGroup _ _ _ => True
  | _ => False
  end.
(** A token that stands for its own text. *)
Definition plain (t : tree) : Prop :=
  match t with TStr _ _ _ | TGroup _ _ _ => False | _ => True end.
Definition a_comma (t : tree) : Prop := match t with TPunct _ ch _ => ch = 44%N | _ => False end.

Section Grammar.
Context {LI E P X : Type} (R : rust LI E P X).
Local Notation quoted := (quoted_item LI E).
Local Notation strung := (string_item LI E).

Local Notation D c j := (TPunct c 36%N j).
Local Notation KW c w := (TIdent c w).
Local Notation Arrow c1 c2 j := [TPunct c1 61%N true; TPunct c2 62%N j].

Inductive reads : list tree -> list quoted -> Prop :=
| reads_end : reads [] []
(** [$$] is a dollar sign *)
| reads_dollar a i b j ts qs : reads ts qs ->
    reads (D a i :: D b j :: ts) (QDollar (spanning a b) :: qs)
(** [$x] is the value of the variable [x] *)
| reads_variable a i b name ts qs : ~ In name keywords -> reads ts qs ->
    reads (D a i :: TIdent b name :: ts) (QEval (spanning a b) (r_variable R name) :: qs)
(** [$(..)] *)
| reads_paren a i p scope q ts qs : reads_form (spanning a p) scope q -> reads ts qs ->
    reads (D a i :: TGroup p Parenthesis scope :: ts) (q :: qs)
(** [$[str](..)] *)
| reads_string a i c b p content ps ts qs : reads_text content ps -> reads ts qs ->
    reads (D a i :: TGroup c Bracket [KW b $"str"] :: TGroup p Parenthesis content :: ts)
      (QString (spanning a p) p ps :: qs)
(** [$[' ']], [$['\n']] and [$['\r']], not in front of parentheses *)
| reads_control a i c b s ch k ts qs :
    In (ch, k) [(32%N, KSpace); (10%N, KLine); (13%N, KPush)] ->
    match ts with TGroup _ Parenthesis _ :: _ => False | _ => True end ->
    reads ts qs ->
    reads (D a i :: TGroup c Bracket [TChar b s ch] :: ts) (QControl (spanning a c) k :: qs)
(** a string literal is a string literal of the target language *)
| reads_quoted c s v ts qs : reads ts qs -> reads (TStr c s v :: ts) (QQuoted c v :: qs)
(** brackets *)
| reads_group c d content inner ts qs : reads content inner -> reads ts qs ->
    reads (TGroup c d content :: ts) (QGroup c d inner :: qs)
(** everything else stands for itself, also a dollar sign in front of anything
    but the above *)
| reads_plain t ts qs :
    plain t ->
    (dollar t -> match ts with t' :: _ => ~ opens t' | [] => True end) ->
    reads ts qs ->
    reads (t :: ts) (QText (tree_cursor t) (tree_text R t) :: qs)

(** Inside of [$(..)]. *)
with reads_form : cursor -> list tree -> quoted -> Prop :=
| form_if c k ts x a1 a2 j rest body :          (* if x => .. *)
    r_head R ts = Some (x, Arrow a1 a2 j ++ rest) -> reads rest body ->
    reads_form c (KW k $"if" :: ts) (QIf c (r_bool R x) body None)
| form_if_block c k ts x b block body :         (* if x { .. } *)
    r_head R ts = Some (x, [TGroup b Brace block]) -> reads block body ->
    reads_form c (KW k $"if" :: ts) (QIf c (r_bool R x) body None)
| form_if_else c k ts x b block e b' block' body body' :   (* if x { .. } else { .. } *)
    r_head R ts = Some (x, [TGroup b Brace block; KW e $"else"; TGroup b' Brace block']) ->
    reads block body -> reads block' body' ->
    reads_form c (KW k $"if" :: ts) (QIf c (r_bool R x) body (Some body'))
| form_for c k ts p i ts' x ts'' join rest body :   (* for p in x .. *)
    r_pat R ts = Some (p, KW i $"in" :: ts') -> r_head R ts' = Some (x, ts'') ->
    reads_join ts'' join rest -> reads_block rest body ->
    reads_form c (KW k $"for" :: ts) (QLoop c (r_each R p x) join body)
| form_match c k ts x b block arms :            (* match x { .. } *)
    r_head R ts = Some (x, [TGroup b Brace block]) -> reads_arms block arms ->
    reads_form c (KW k $"match" :: ts) (QMatch c (r_select R x (map fst arms)) (map snd arms))
| form_let c k ts p i j ts' x :                 (* let p = x *)
    r_pat R ts = Some (p, TPunct i 61%N j :: ts') -> r_head R ts' = Some (x, []) ->
    reads_form c (KW k $"let" :: ts) (QLet c (r_let R p x))
| form_ref c k n name a1 a2 j code :            (* ref name => .. *)
    ~ In name keywords ->
    reads_form c (KW k $"ref" :: TIdent n name :: Arrow a1 a2 j ++ code) (QScope c (r_code R name code))
| form_ref_block c k n name b code :            (* ref name { .. } *)
    ~ In name keywords ->
    reads_form c [KW k $"ref"; TIdent n name; TGroup b Brace code] (QScope c (r_code R name code))
| form_ref_none c k n a1 a2 j code :            (* ref _ => .. *)
    reads_form c (KW k $"ref" :: KW n $"_" :: Arrow a1 a2 j ++ code) (QEffect c (r_effect R code))
| form_ref_none_block c k n b code :            (* ref _ { .. } *)
    reads_form c [KW k $"ref"; KW n $"_"; TGroup b Brace code] (QEffect c (r_effect R code))
| form_literal c b s v :                        (* ".." *)
    reads_form c [TStr b s v] (QLiteral c v)
| form_expression c ts x :                      (* any other expression *)
    match ts with
    | TIdent _ w :: _ => ~ In w [$"if"; $"for"; $"match"; $"let"; $"ref"]
    | [TStr _ _ _] => False
    | _ => True
    end ->
    r_expr R ts = Some (x, []) ->
    reads_form c ts (QEval c (r_value R x))

(** [join (..)] of a loop, and what follows. *)
with reads_join : list tree -> option (cursor * list quoted) -> list tree -> Prop :=
| join_some k p content qs ts : reads content qs ->
    reads_join (KW k $"join" :: TGroup p Parenthesis content :: ts) (Some (p, qs)) ts
| join_none ts :
    match ts with TIdent _ w :: _ => w <> $"join" | _ => True end ->
    reads_join ts None ts
(** The body of a loop. *)
with reads_block : list tree -> list quoted -> Prop :=
| block_arrow a1 a2 j ts qs : reads ts qs -> reads_block (Arrow a1 a2 j ++ ts) qs
| block_braces b ts qs : reads ts qs -> reads_block [TGroup b Brace ts] qs

(** Arms of a match, separated by commas that braces and parentheses make
    optional. *)
with reads_arms : list tree ->
    list ((P * option X) * (option cursor * list quoted)) -> Prop :=
| arms_end : reads_arms [] []
| arms_braces ts head b block body rest arms :
    ts <> [] -> reads_head ts head (TGroup b Brace block :: rest) -> reads block body ->
    reads_more rest arms -> reads_arms ts ((head, (None, body)) :: arms)
| arms_parens ts head b block body rest arms :
    ts <> [] -> reads_head ts head (TGroup b Parenthesis block :: rest) -> reads block body ->
    reads_more rest arms -> reads_arms ts ((head, (Some b, body)) :: arms)
(** otherwise an arm extends to the next comma outside of brackets *)
| arms_bare ts head block rest body arms :
    ts <> [] -> reads_head ts head (block ++ rest) ->
    match block ++ rest with
    | TGroup _ Brace _ :: _ | TGroup _ Parenthesis _ :: _ => False
    | _ => True
    end ->
    Forall (fun t => ~ a_comma t) block ->
    match rest with t :: _ => a_comma t | [] => True end ->
    reads block body -> reads_more rest arms ->
    reads_arms ts ((head, (None, body)) :: arms)
with reads_more : list tree ->
    list ((P * option X) * (option cursor * list quoted)) -> Prop :=
| more_comma c j ts arms : reads_arms ts arms -> reads_more (TPunct c 44%N j :: ts) arms
| more_none ts arms : match ts with t :: _ => ~ a_comma t | [] => True end ->
    reads_arms ts arms -> reads_more ts arms
(** [p =>] or [p if x =>] *)
with reads_head : list tree -> P * option X -> list tree -> Prop :=
| head_bare ts p a1 a2 j rest :
    r_pats R ts = Some (p, Arrow a1 a2 j ++ rest) -> reads_head ts (p, None) rest
| head_guard ts p k ts' x a1 a2 j rest :
    r_pats R ts = Some (p, KW k $"if" :: ts') -> r_expr R ts' = Some (x, Arrow a1 a2 j ++ rest) ->
    reads_head ts (p, Some x) rest

(** Inside of [$[str](..)]. *)
with reads_text : list tree -> list strung -> Prop :=
| text_end : reads_text [] []
| text_dollar a i b j ts ps : reads_text ts ps ->
    reads_text (D a i :: D b j :: ts) (PDollar (spanning a b) :: ps)
| text_variable a i b name ts ps : ~ In name keywords -> reads_text ts ps ->
    reads_text (D a i :: TIdent b name :: ts) (PIdent (spanning a b) name :: ps)
| text_eval a i p content qs ts ps : reads content qs -> reads_text ts ps ->
    reads_text (D a i :: TGroup p Parenthesis content :: ts) (PEval (spanning a p) qs :: ps)
| text_const_literal a i c k p b s v ts ps : reads_text ts ps ->
    reads_text (D a i :: TGroup c Bracket [KW k $"const"] :: TGroup p Parenthesis [TStr b s v] :: ts)
      (PConstLit (spanning a p) v :: ps)
| text_const a i c k p content x ts ps :
    match content with [TStr _ _ _] => False | _ => True end ->
    r_expr R content = Some (x, []) -> reads_text ts ps ->
    reads_text (D a i :: TGroup c Bracket [KW k $"const"] :: TGroup p Parenthesis content :: ts)
      (PConst (spanning a p) (r_value R x) :: ps)
(** everything else stands for itself, brackets with all they contain *)
| text_plain t ts ps : ~ dollar t -> reads_text ts ps ->
    reads_text (t :: ts) (PText (tree_cursor t) (tree_text R t) :: ps).

(** [syn] consumes what it parses: what is left is the end of the input. *)
Definition consumes {A} (f : list tree -> option (A * list tree)) : Prop :=
  forall ts x rest, f ts = Some (x, rest) -> exists used, ts = used ++ rest.
Definition consuming : Prop :=
  consumes (r_pat R) /\ consumes (r_pats R) /\ consumes (r_expr R) /\ consumes (r_head R).

End Grammar.

(** ** Text of token trees *)

(** The tokens in order, with their text; brackets are tokens of one character. *)
Fixpoint flat (t : tree) : list (cursor * str) :=
  match t with
  | TIdent c s | TLit c s | TStr c s _ | TChar c s _ => [(c, s)]
  | TPunct c ch _ => [(c, [ch])]
  | TGroup c d ts =>
      (opener_at c, opener d) :: flat_map flat ts ++ [(closer_at c, closer d)]
  end.
Definition flats (ts : list tree) : list (cursor * str) := flat_map flat ts.
(** No string literals, at any depth. *)
Fixpoint no_strings (t : tree) : bool :=
  match t with
  | TStr _ _ _ => false
  | TGroup _ _ ts => forallb no_strings ts
  | _ => true
  end.
(** No dollar signs, at any depth. *)
Fixpoint no_dollars (t : tree) : bool :=
  match t with
  | TPunct _ ch _ => negb (N.eqb ch 36)
  | TGroup _ _ ts => forallb no_dollars ts
  | _ => true
  end.
(** Every dollar sign doubled, at any depth. *)
Fixpoint double (t : tree) : list tree :=
  match t with
  | TPunct c ch j => if N.eqb ch 36 then [t; t] else [t]
  | TGroup c d ts => [TGroup c d (flat_map double ts)]
  | _ => [t]
  end.

(** Brackets around a place in a quote, innermost first: what precedes it, the
    bracket, and what follows it. *)
Definition surround (ctx : list (list tree * cursor * delimiter * list tree)) (hole : list tree) : list tree :=
  fold_left (fun h '(l, c, d, r) => l ++ [TGroup c d h] ++ r) ctx hole.
(** The tokens to the left and to the right of that place, [h] within the brackets. *)
Definition left_of (ctx : list (list tree * cursor * delimiter * list tree)) (h : list (cursor * str)) : list (cursor * str) :=
  fold_left (fun h '(l, c, d, r) => flats l ++ [(opener_at c, opener d)] ++ h) ctx h.
Definition right_of (ctx : list (list tree * cursor * delimiter * list tree)) (h : list (cursor * str)) : list (cursor * str) :=
  fold_left (fun h '(l, c, d, r) => h ++ [(closer_at c, closer d)] ++ flats r) ctx h.
