(** * Specification vocabulary for the properties of quotes. *)
From Verif Require Import Str Tokens SpecTokens TokensRun Values Fmt SpecFmt Macro SpecMacro.

(** ** Sequences *)

(** [sep] between any two neighbours. *)
Fixpoint intersperse {A : Type} (sep : A) (l : list A) : list A :=
  match l with
  | [] => []
  | x :: l' => x :: match l' with [] => [] | _ => sep :: intersperse sep l' end
  end.
(** One after the other. *)
Definition in_turn {S : Type} (fs : list (S -> S)) (s : S) : S := fold_left (fun s f => f s) fs s.

Section Spec.
Context {LI E : Type}.
Notation quoted := (quoted_item LI E). Notation stmt := (stmt LI E).

(** ** Parentheses *)

(** A place in the source as an empty token. *)
Definition edge (p : pos) : quoted := QText (mk_cursor p p) [].
(** In parentheses, the blanks next to them count: what is in the parentheses
    extends from right after the opening one to right before the closing one. *)
Definition in_parens (paren : option cursor) (qs : list quoted) : list quoted :=
  match paren with
  | None => qs
  | Some (mk_cursor (mk_pos r1 c1) (mk_pos r2 c2)) =>
      edge (mk_pos r1 (c1 + 1)) :: qs ++ [edge (mk_pos r2 (c2 - 1))]
  end.

(** ** Running quotes *)

(** Quote into the stream. *)
Definition runs (qs : list quoted) (st : E * tokens LI) : E * tokens LI :=
  match quote_in qs (fst st) (snd st) with Some st' => st' | None => st end.
Definition accepted (qs : list quoted) : Prop := quote_code qs <> None.

(** ** Separations *)

(** Tokens [a] and [b] follow each other in the quote, [pre] are the tokens before
    them. *)
Definition neighbours (qs : list quoted) (pre : list cursor) (a b : cursor) : Prop :=
  exists post, map fst (all_tokens qs) = pre ++ a :: b :: post.
(** Between [a] and [b] is the separation [sep], given the separation before each
    token. *)
Definition separated (seps : list (option (list act))) (pre : list cursor)
    (sep : option (list act)) : Prop := nth_error seps (S (length pre)) = Some sep.

(** Tokens on the same line: a space if any column is between them, otherwise
    nothing. *)
Definition space_rule (qs : list quoted) (seps : list (option (list act))) : Prop :=
  forall pre a b, neighbours qs pre a b -> p_line (c_end a) = p_line (c_start b) ->
  separated seps pre (if p_col (c_end a) <? p_col (c_start b) then Some [TSpace] else None).
(** Tokens on different lines: a line break, and an empty line if there is one in
    the source.  The second token is in a column where lines may start. *)
Definition line_rule (qs : list quoted) (seps : list (option (list act))) : Prop :=
  forall pre a b, neighbours qs pre a b -> p_line (c_end a) <> p_line (c_start b) ->
  may_start (line_starts (pre ++ [a])) (p_col (c_start b)) ->
  p_line (c_end a) < p_line (c_start b) /\
  exists h, separated seps pre (Some h) /\
  p_breaks (requested h) = (if 1 <? p_line (c_start b) - p_line (c_end a) then 2 else 1) /\
  p_space (requested h) = false.
(** The indentation follows the levels of the lines. *)
Definition level_rule (qs : list quoted) (seps : list (option (list act))) (closing : nat)
  : Prop :=
  (forall pre a b, neighbours qs pre a b -> p_line (c_end a) <> p_line (c_start b) ->
   may_start (line_starts (pre ++ [a])) (p_col (c_start b)) ->
   exists h, separated seps pre (Some h) /\
   p_indent (requested h) =
     (Z.of_nat (level (line_starts (pre ++ [a; b]))) - Z.of_nat (level (line_starts (pre ++ [a]))))%Z) /\
  closing = level (line_starts (map fst (all_tokens qs))).
(** Nothing before the first token. *)
Definition first_rule (seps : list (option (list act))) : Prop :=
  forall sep, nth_error seps 0 = Some sep -> sep = None.

(** Each token by itself. *)
Definition one_by_one (ks : list (cchunk LI E)) : list stmt :=
  flat_map (fun k => match k with
    | CText s => text_code s
    | CCode c => c
    | CEffect f => [SEffect f]
    end) ks.

(** ** Levels *)

Definition stmt_level (c : stmt) : Z :=
  match c with SIndent => 1 | SUnindent => -1 | _ => 0 end%Z.
Fixpoint levels (code : list stmt) : Z :=
  match code with [] => 0%Z | c :: code' => (stmt_level c + levels code')%Z end.
(** As many unindents as indents in every block of the code.  [PV] and [PC] hold of
    the values appended and of the code of scopes. *)
Section Balance.
Context (PV : @expr E (value LI) -> Prop) (PC : @expr E (list (call LI)) -> Prop).
Fixpoint inside_balanced (c : stmt) : Prop :=
  let all := fix all (l : list stmt) : Prop :=
    match l with [] => True | x :: l' => inside_balanced x /\ all l' end in
  let block (l : list stmt) : Prop := levels l = 0%Z /\ all l in
  match c with
  | SAppend v => PV v
  | SCode code => PC code
  | SItem x => indentation_of x = 0%Z
  | SFor _ body => block body
  | SForJoin _ body join => block body /\ block join
  | SIf _ a b => block a /\ match b with Some b => block b | None => True end
  | SMatch _ arms =>
      (fix every (l : list (list stmt)) : Prop :=
         match l with [] => True | a :: l' => block a /\ every l' end) arms
  | _ => True
  end.
Definition balanced (code : list stmt) : Prop :=
  levels code = 0%Z /\ Forall inside_balanced code.

(** [PV], [PC] and [PK] hold of every value, every scope and every constant of a
    string in a quote, at any depth. *)
Context (PK : @expr E (value LI) -> Prop).
Fixpoint every_value (x : quoted) : Prop :=
  let all := fix all (l : list quoted) : Prop :=
    match l with [] => True | x :: l' => every_value x /\ all l' end in
  match x with
  | QGroup _ _ qs => all qs
  | QString _ _ ps =>
      (fix alls (l : list (string_item LI E)) : Prop :=
         match l with [] => True | x :: l' => every_value_in x /\ alls l' end) ps
  | QEval _ v => PV v
  | QScope _ code => PC code
  | QLoop _ _ join body =>
      match join with Some (_, js) => all js | None => True end /\ all body
  | QIf _ _ a b => all a /\ match b with Some b => all b | None => True end
  | QMatch _ _ arms =>
      (fix every (l : list (option cursor * list quoted)) : Prop :=
         match l with [] => True | (_, qs) :: l' => all qs /\ every l' end) arms
  | _ => True
  end
with every_value_in (x : string_item LI E) : Prop :=
  match x with
  | PConst _ v => PK v
  | PEval _ qs =>
      (fix all (l : list quoted) : Prop :=
         match l with [] => True | x :: l' => every_value x /\ all l' end) qs
  | _ => True
  end.
End Balance.

(** Appending the value, or running the code of the scope, leaves the indentation
    of any stream as it is. *)
Definition neutral_value (v : @expr E (value LI)) : Prop :=
  forall e (t : tokens LI),
  net_indentation (items (append (fst (v e)) t)) = net_indentation (items t).
Definition neutral_scope (code : @expr E (list (call LI))) : Prop :=
  forall e (t : tokens LI),
  net_indentation (items (run (fst (code e)) t)) = net_indentation (items t).

(** ** Interpolation *)

(** A string with an interpolation occurs, at any depth. *)
Fixpoint interpolates (x : quoted) : bool :=
  match x with
  | QGroup _ _ qs => existsb interpolates qs
  | QString _ _ ps => existsb is_eval ps
  | QLoop _ _ join body =>
      match join with Some (_, js) => existsb interpolates js | None => false end ||
      existsb interpolates body
  | QIf _ _ a b =>
      existsb interpolates a || match b with Some b => existsb interpolates b | None => false end
  | QMatch _ _ arms => existsb (fun arm => existsb interpolates (snd arm)) arms
  | _ => false
  end.

(** ** Strings *)

Definition string_cursor (x : string_item LI E) : cursor :=
  match x with
  | PText c _ | PDollar c | PConstLit c _ | PConst c _ | PIdent c _ | PEval c _ => c
  end.
(** No line break between the elements, from [at_] to [stop]. *)
Fixpoint one_line (at_ : pos) (ps : list (string_item LI E)) (stop : pos) : Prop :=
  match ps with
  | [] => p_line at_ = p_line stop
  | x :: ps' =>
      p_line at_ = p_line (c_start (string_cursor x)) /\
      one_line (c_end (string_cursor x)) ps' stop
  end.
(** The quote in an interpolation. *)
Definition eval_block (c : cursor) (qs : list quoted) : list quoted :=
  in_parens (Some (eval_span c qs)) qs.
Definition evals_accepted (ps : list (string_item LI E)) : Prop :=
  forall c qs, In (PEval c qs) ps -> quote_code (eval_block c qs) <> None.

(** Columns [a] to [b] of a line of source. *)
Definition slice (src : str) (a b : nat) : str := firstn (b - a) (skipn a src).
(** The line of source spells the elements of a string: blanks between them, and
    tokens as they are. *)
Definition blank_source (src : str) (a b : nat) : Prop :=
  a <= b /\ slice src a b = repeat 32%N (b - a).
Fixpoint spelled (src : str) (at_ : nat) (ps : list (string_item LI E)) (stop : nat) : Prop :=
  match ps with
  | [] => blank_source src at_ stop
  | x :: ps' =>
      let a := p_col (c_start (string_cursor x)) in
      let b := p_col (c_end (string_cursor x)) in
      blank_source src at_ a /\ a <= b /\
      match x with PText _ s => slice src a b = s | _ => True end /\
      spelled src b ps' stop
  end.
(** The code of a string, except for the quotes: the source as it is, but for the
    forms with a dollar sign. *)
Fixpoint source_pieces (src : str) (at_ : nat) (ps : list (string_item LI E)) (stop : nat)
  : list (cchunk LI E) :=
  match ps with
  | [] => [CText (slice src at_ stop)]
  | x :: ps' =>
      let a := p_col (c_start (string_cursor x)) in
      let b := p_col (c_end (string_cursor x)) in
      match x with
      | PText _ _ => [CText (slice src at_ b)]
      | PDollar _ => [CText (slice src at_ a); CText $"$"]
      | PConstLit _ s => [CText (slice src at_ a); CText s]
      | PConst _ v => [CText (slice src at_ a); CCode [SAppend v]]
      | PIdent _ name =>
          [CText (slice src at_ a);
           CCode [SItem OpenEval; SItem (Literal (Static name)); SItem CloseEval]]
      | PEval c qs =>
          [CText (slice src at_ a);
           CCode (SItem OpenEval ::
                  match quote_code (eval_block c qs) with Some (_, code) => code | None => [] end ++
                  [SItem CloseEval])]
      end ++ source_pieces src b ps' stop
  end.

(** ** Documents *)

(** A string is marked as evaluating if and only if it contains an interpolation. *)
Fixpoint node_flags (n : node LI) : Prop :=
  match n with
  | NItem _ => True
  | NString e ps =>
      e = existsb (fun p => match p with SpecFmt.PEval _ => true | _ => false end) ps /\
      (fix all (l : list (part LI)) : Prop :=
         match l with [] => True | p :: l' => part_flags p /\ all l' end) ps
  end
with part_flags (p : part LI) : Prop :=
  match p with
  | SpecFmt.PEval ns =>
      (fix all (l : list (node LI)) : Prop :=
         match l with [] => True | n :: l' => node_flags n /\ all l' end) ns
  | _ => True
  end.
(** The content is that of a well-formed document. *)
Definition documents (xs : list (item LI)) : Prop :=
  exists ns, doc_ok ns = true /\ Forall node_flags ns /\ pieces xs = pieces (doc_items ns).
(** The content is that of the inside of a string without interpolation. *)
Definition constant_content (xs : list (item LI)) : Prop :=
  exists ps, forallb part_ok ps = true /\
  Forall (fun p => match p with SpecFmt.PEval _ => False | _ => True end) ps /\
  pieces xs = pieces (flat_map part_items ps).

Definition document_value (v : @expr E (value LI)) : Prop :=
  forall e, documents (items (append (fst (v e)) new)).
Definition document_scope (code : @expr E (list (call LI))) : Prop :=
  forall e, documents (items (run (fst (code e)) new)).
Definition constant_value (v : @expr E (value LI)) : Prop :=
  forall e, constant_content (items (append (fst (v e)) new)).

(** ** Appending *)

(** A quote that starts with static text or a string. *)
Definition starts_visible (qs : list quoted) : Prop :=
  match map snd (all_tokens qs) with
  | LText s :: _ => s <> []
  | LOther (QQuoted _ _) :: _ | LOther (QString _ _ _) :: _ => True
  | _ => False
  end.
End Spec.
