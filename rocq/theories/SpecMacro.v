(** * Specification: what a quote means.

    A reference semantics for quotes, independent of the encoder: the layout
    rules on source positions, and the items each element supplies. *)
From Verif Require Import Str Tokens SpecTokens Values Fmt SpecFmt Macro.

(** ** Brackets *)

Definition opener (d : delimiter) : str :=
  match d with Parenthesis => $"(" | Brace => $"{" | Bracket => $"[" end.
Definition closer (d : delimiter) : str :=
  match d with Parenthesis => $")" | Brace => $"}" | Bracket => $"]" end.
(** The first and the last character of a piece of source. *)
Definition opener_at (c : cursor) : cursor :=
  mk_cursor (c_start c) (mk_pos (p_line (c_start c)) (p_col (c_start c) + 1)).
Definition closer_at (c : cursor) : cursor :=
  mk_cursor (mk_pos (p_line (c_end c)) (p_col (c_end c) - 1)) (c_end c).
(** The inside of brackets. *)
Definition after_open (c : cursor) : pos := c_end (opener_at c).
Definition before_close (c : cursor) : pos := c_start (closer_at c).
(** Deviation of the implementation: the quote in an interpolation [$(..)] of a
    string is laid out as if its first token were the parentheses; as if the
    closing one were both, when it is empty. *)
Definition eval_span {LI E} (c : cursor) (qs : list (quoted_item LI E)) : cursor :=
  match qs with
  | (QText c _ | QQuoted c _) :: _ => c
  | (QDollar c | QLiteral c _ | QGroup c _ _ | QString c _ _ | QControl c _ | QEval c _
    | QScope c _ | QEffect c _ | QLoop c _ _ _ | QIf c _ _ _ | QMatch c _ _ | QLet c _) :: _ =>
      opener_at c
  | [] => closer_at c
  end.

Section Spec.
Context {LI E : Type}.
Notation quoted := (quoted_item LI E).

(** ** Layout rules *)

(** The start columns of the current line and of the lines that enclose it,
    innermost first.  A line that starts further left returns to the enclosing
    line with the same start column: how many levels, and what encloses it. *)
Fixpoint outdent (col : nat) (cols : list nat) : option (nat * list nat) :=
  match cols with
  | [] => None
  | c :: cs =>
      if c =? col then Some (0, cols)
      else if col <? c then option_map (fun '(n, cs') => (S n, cs')) (outdent col cs)
      else None
  end.
(** The change of level when a line starts at [col]. *)
Definition new_line (col : nat) (cols : list nat) : option (Z * list nat) :=
  match cols with
  | [] => None
  | c :: _ =>
      if c <? col then Some (1%Z, col :: cols)
      else option_map (fun '(n, cs') => ((- Z.of_nat n)%Z, cs')) (outdent col cols)
  end.

(** What separates a token that ends at [frm] from the next, which starts at
    [to]. *)
Definition gap (frm to : pos) (cols : list nat) : option (pending * list nat) :=
  if p_line frm =? p_line to then
    Some (mk_pending 0 (p_col frm <? p_col to) 0 0, cols)
  else if p_line to <? p_line frm then None
  else
    let blank := 1 <? p_line to - p_line frm in
    match cols with
    | [c] =>
        (* Deviation of the implementation: a line that starts further left than
           the first line of the quote is not separated at all. *)
        if p_col to <? c then Some (nothing, [p_col to])
        else option_map (fun '(k, cs) => (mk_pending (if blank then 2 else 1) false 0 k, cs))
               (new_line (p_col to) cols)
    | _ =>
        option_map (fun '(k, cs) => (mk_pending (if blank then 2 else 1) false 0 k, cs))
          (new_line (p_col to) cols)
    end.

(** Where we are in a quote: the end of the previous token and the start columns;
    [None] before the first token. *)
Definition place : Type := option (pos * list nat).
Definition enter (c : cursor) (w : place) : option (pending * place) :=
  match w with
  | None => Some (nothing, Some (c_end c, [p_col (c_start c)]))
  | Some (frm, cols) =>
      option_map (fun '(p, cols') => (p, Some (c_end c, cols'))) (gap frm (c_start c) cols)
  end.
(** Inside parentheses, the quote starts right after the opening one. *)
Definition start_of (span : option cursor) : place :=
  match span with
  | None => None
  | Some c => Some (after_open c, [p_col (after_open c)])
  end.
(** Levels still open. *)
Definition depth (w : place) : nat :=
  match w with Some (_, cols) => length cols - 1 | None => 0 end.

(** The items of a separation. *)
Definition gap_items (p : pending) : list (item LI) :=
  (if Z.eqb (p_indent p) 0 then [] else [Indentation (p_indent p)]) ++
  match p_breaks p with
  | 0 => []
  | 1 => if Z.eqb (p_indent p) 0 then [Push] else []
  | _ => [Line]
  end ++
  (if p_space p then [Space] else []).

(** ** Meaning *)

(** Static text of the quote, which joins with adjacent static text, and items
    supplied otherwise. *)
Inductive chunk : Type :=
| KText (s : str)
| KItems (its : list (item LI)).

Definition literal (s : str) : list (item LI) :=
  match s with [] => [] | _ => [Literal (Static s)] end.
Fixpoint join_texts (before : str) (cs : list chunk) : list (item LI) :=
  match cs with
  | [] => literal before
  | KText s :: cs' => join_texts (before ++ s) cs'
  | KItems its :: cs' => literal before ++ its ++ join_texts [] cs'
  end.

Record mstate : Type := mk_mstate {
  m_place : place;
  m_chunks : list chunk;
  m_env : E
}.

(** The token directly follows the previous one, or is the first. *)
Definition adjacent (c : cursor) (w : place) : bool :=
  match w with
  | None => true
  | Some (frm, _) =>
      (p_line frm =? p_line (c_start c)) && negb (p_col frm <? p_col (c_start c))
  end.
(** Separate from what precedes.  (A rejected layout has no meaning.) *)
Definition enter_chunks (c : cursor) (st : mstate) : mstate :=
  match enter c (m_place st) with
  | Some (p, w) =>
      mk_mstate w
        (m_chunks st ++ if adjacent c (m_place st) then [] else [KItems (gap_items p)])
        (m_env st)
  | None => st
  end.
Definition put (k : chunk) (st : mstate) : mstate :=
  mk_mstate (m_place st) (m_chunks st ++ [k]) (m_env st).
(** Supply items and continue with another environment. *)
Definition put_items (r : list (item LI) * E) (st : mstate) : mstate :=
  mk_mstate (m_place st) (m_chunks st ++ [KItems (fst r)]) (snd r).

(** A quote, given the meaning of its elements. *)
Definition block_mean_with (mean : quoted -> mstate -> mstate) (span : option cursor)
    (qs : list quoted) (e : E) : list (item LI) * E :=
  let st := fold_left (fun st x => mean x st) qs (mk_mstate (start_of span) [] e) in
  let st :=
    match span with
    | Some c => enter_chunks (mk_cursor (before_close c) (before_close c)) st
    | None => st
    end in
  (join_texts [] (m_chunks st) ++
   (if depth (m_place st) =? 0 then [] else [Indentation (- Z.of_nat (depth (m_place st)))]),
   m_env st).

(** One body after the other, [join] between them. *)
Fixpoint loop_mean (body join : E -> list (item LI) * E) (bs : list (E -> E)) (e : E)
  : list (item LI) * E :=
  match bs with
  | [] => ([], e)
  | b :: bs' =>
      let '(its, e) := body (b e) in
      let '(sep, e) := match bs' with [] => ([], e) | _ => join e end in
      let '(rest, e) := loop_mean body join bs' e in
      (its ++ sep ++ rest, e)
  end.

(** Blanks between two columns. *)
Definition blank_text (frm to : pos) : str := repeat 32%N (p_col to - p_col frm).
Definition is_eval (p : string_item LI E) : bool :=
  match p with PIdent _ _ | PEval _ _ => true | _ => false end.

Fixpoint mean (x : quoted) (st : mstate) : mstate :=
  match x with
  | QText c s | QLiteral c s => put (KText s) (enter_chunks c st)
  | QDollar c => put (KText $"$") (enter_chunks c st)
  | QQuoted c s =>
      put (KItems [OpenQuote false; Literal (Static s); CloseQuote]) (enter_chunks c st)
  | QGroup c d qs =>
      let st := put (KText (opener d)) (enter_chunks (opener_at c) st) in
      let st := fold_left (fun st x => mean x st) qs st in
      put (KText (closer d)) (enter_chunks (closer_at c) st)
  | QString c paren ps =>
      let st := enter_chunks c st in
      let '(at_, chunks, e) :=
        fold_left (fun st x => string_mean x st) ps (after_open paren, [], m_env st) in
      put_items
        (OpenQuote (existsb is_eval ps) ::
           join_texts [] (chunks ++ [KText (blank_text at_ (before_close paren))]) ++ [CloseQuote], e) st
  | QControl c k =>
      put (KItems [match k with KSpace => Space | KPush => Push | KLine => Line end])
        (enter_chunks c st)
  | QEval c v =>
      let st := enter_chunks c st in
      let '(v, e) := v (m_env st) in put_items (parts v, e) st
  | QScope c code =>
      let st := enter_chunks c st in
      let '(cs, e) := code (m_env st) in put_items (flat_map call_parts cs, e) st
  | QEffect c f =>
      let st := enter_chunks c st in mk_mstate (m_place st) (m_chunks st) (f (m_env st))
  | QLoop c it join body =>
      let st := enter_chunks c st in
      let '(bs, e) := it (m_env st) in
      put_items
        (loop_mean (block_mean_with mean None body)
           (match join with
            | Some (paren, js) => block_mean_with mean (Some paren) js
            | None => fun e => ([], e)
            end) bs e) st
  | QIf c cond a b =>
      let st := enter_chunks c st in
      let '(yes, e) := cond (m_env st) in
      put_items
        (if yes : bool then block_mean_with mean None a e
         else match b with Some b => block_mean_with mean None b e | None => ([], e) end) st
  | QMatch c sel arms =>
      let st := enter_chunks c st in
      let '(i, e) := sel (m_env st) in
      put_items
        ((fix pick (arms : list (option cursor * list quoted)) (i : nat) : list (item LI) * E :=
            match arms, i with
            | (paren, qs) :: _, O => block_mean_with mean paren qs e
            | _ :: arms', S i' => pick arms' i'
            | [], _ => ([], e)
            end) arms i) st
  | QLet c f =>
      let st := enter_chunks c st in put_items ([], f (m_env st)) st
  end
with string_mean (x : string_item LI E) (st : pos * list chunk * E) : pos * list chunk * E :=
  let '(at_, chunks, e) := st in
  match x with
  | PText c s | PConstLit c s =>
      (c_end c, chunks ++ [KText (blank_text at_ (c_start c)); KText s], e)
  | PDollar c => (c_end c, chunks ++ [KText (blank_text at_ (c_start c)); KText $"$"], e)
  | PConst c v =>
      let '(v, e) := v e in
      (c_end c, chunks ++ [KText (blank_text at_ (c_start c)); KItems (parts v)], e)
  | PIdent c name =>
      (c_end c, chunks ++ [KText (blank_text at_ (c_start c));
                           KItems [OpenEval; Literal (Static name); CloseEval]], e)
  | PEval c qs =>
      let '(its, e) := block_mean_with mean (Some (eval_span c qs)) qs e in
      (c_end c, chunks ++ [KText (blank_text at_ (c_start c));
                           KItems (OpenEval :: its ++ [CloseEval])], e)
  end.

Definition block_mean : option cursor -> list quoted -> E -> list (item LI) * E :=
  block_mean_with mean.
(** The items a quote supplies, and the environment it leaves. *)
Definition quote_mean (qs : list quoted) (e : E) : list (item LI) * E := block_mean None qs e.

(** ** Tokens of a quote *)

(** The tokens of a quote in order; a group is its two delimiters and what is
    between them. *)
Inductive leaf : Type :=
| LText (s : str)                (* static text *)
| LOther (x : quoted).           (* anything else *)
Fixpoint tokens_of (x : quoted) : list (cursor * leaf) :=
  match x with
  | QText c s | QLiteral c s => [(c, LText s)]
  | QDollar c => [(c, LText $"$")]
  | QGroup c d qs =>
      (opener_at c, LText (opener d)) :: flat_map tokens_of qs ++
      [(closer_at c, LText (closer d))]
  | x => [(cursor_of x, LOther x)]
  end.
Definition all_tokens (qs : list quoted) : list (cursor * leaf) := flat_map tokens_of qs.

(** ** Generated code *)

(** A piece of generated code: static text, other statements, or the statements
    of an unnamed scope, which static text may pass. *)
Inductive cchunk : Type :=
| CText (s : str)
| CCode (c : list (stmt LI E))
| CEffect (f : E -> E).
Definition text_code (s : str) : list (stmt LI E) := match s with [] => [] | _ => [SStatic s] end.
(** All pieces in order, adjacent static texts joined. *)
Fixpoint coalesce (before : str) (ks : list cchunk) : list (stmt LI E) :=
  match ks with
  | [] => text_code before
  | CText s :: ks' => coalesce (before ++ s) ks'
  | CCode c :: ks' => text_code before ++ c ++ coalesce [] ks'
  | CEffect f :: ks' => SEffect f :: coalesce before ks'
  end.

(** Whitespace requests as statements, and what they amount to. *)
Definition act_stmt (a : act) : stmt LI E :=
  match a with
  | TText s => SStatic s
  | TSpace => SSpace
  | TPush => SPush
  | TLine => SLine
  | TIndent => SIndent
  | TUnindent => SUnindent
  end.
Definition requests (h : list act) : Prop := Forall (fun a => forall s, a <> TText s) h.
Definition requested (h : list act) : pending := fold_left (fun p a => request a p) h nothing.

(** The code of a token by itself. *)
Definition leaf_code (l : leaf) (k : cchunk) : Prop :=
  match l with
  | LText s => k = CText s
  | LOther (QEffect _ f) => k = CEffect f
  | LOther x => exists r code, quote_code [x] = Some (r, code) /\ k = CCode code
  end.
(** A separation, if any, before each token. *)
Fixpoint interleave (seps : list (option (list act))) (ks : list cchunk) : list cchunk :=
  match seps, ks with
  | sep :: seps', k :: ks' =>
      match sep with Some h => [CCode (map act_stmt h)] | None => [] end ++
      k :: interleave seps' ks'
  | _, _ => []
  end.
(** The code of a quote: its tokens in order, separated, and the levels still open
    closed at the end. *)
Definition assembled (qs : list quoted) (seps : list (option (list act))) (closing : nat)
    (code : list (stmt LI E)) : Prop :=
  exists ks, Forall2 leaf_code (map snd (all_tokens qs)) ks /\ length seps = length ks /\
  Forall (fun sep => match sep with Some h => requests h | None => True end) seps /\
  code = coalesce [] (interleave seps ks) ++ repeat SUnindent closing.

(** ** Lines *)

(** The columns at which lines start. *)
Fixpoint starts_after (row : nat) (cs : list cursor) : list nat :=
  match cs with
  | [] => []
  | c :: cs' =>
      (if row =? p_line (c_start c) then [] else [p_col (c_start c)]) ++
      starts_after (p_line (c_end c)) cs'
  end.
Definition line_starts (cs : list cursor) : list nat :=
  match cs with
  | [] => []
  | c :: cs' => p_col (c_start c) :: starts_after (p_line (c_end c)) cs'
  end.
(** The level of the last line: how many lines start further left than all lines
    after them. *)
Fixpoint level (ss : list nat) : nat :=
  match ss with
  | [] => 0
  | c :: ss' =>
      (if match ss' with [] => false | _ => forallb (fun d => c <? d) ss' end then 1 else 0) +
      level ss'
  end.
(** A line that starts at [col] is aligned with an earlier line: no line since
    starts further left. *)
Definition aligned (ss : list nat) (col : nat) : Prop :=
  exists pre post, ss = pre ++ col :: post /\ Forall (fun d => col <= d) post.
(** Where a further line may start. *)
Definition may_start (ss : list nat) (col : nat) : Prop :=
  last ss 0 <= col \/ aligned ss col.

(** ** Source text *)

(** A line of source: how many empty lines precede it, the column of its first
    word, and the further words with the blanks before each. *)
Record src_line : Type := mk_src_line {
  sl_empty : nat;
  sl_col : nat;
  sl_word : str;
  sl_more : list (nat * str)
}.
Definition word_cursor (row col : nat) (w : str) : cursor :=
  mk_cursor (mk_pos row col) (mk_pos row (col + length w)).
Fixpoint more_tokens (row col : nat) (more : list (nat * str)) : list (cursor * leaf) :=
  match more with
  | [] => []
  | (g, w) :: more' =>
      (word_cursor row (col + g) w, LText w) :: more_tokens row (col + g + length w) more'
  end.
(** The tokens of lines of source, the first of which may be at [row]. *)
Fixpoint source_tokens (row : nat) (ls : list src_line) : list (cursor * leaf) :=
  match ls with
  | [] => []
  | l :: ls' =>
      let row := row + sl_empty l in
      (word_cursor row (sl_col l) (sl_word l), LText (sl_word l)) ::
      more_tokens row (sl_col l + length (sl_word l)) (sl_more l) ++ source_tokens (S row) ls'
  end.
Definition words_ok (l : src_line) : Prop :=
  sl_word l <> [] /\ Forall (fun gw => snd gw <> []) (sl_more l).
(** Every line but the first starts further right than, or at, the line before it,
    or in a column of an enclosing line. *)
Definition laid_out (ls : list src_line) : Prop :=
  forall before l after, ls = before ++ l :: after -> before <> [] ->
  may_start (map sl_col before) (sl_col l).

(** Words with single spaces where there are blanks. *)
Definition line_text (l : src_line) : str :=
  sl_word l ++ flat_map (fun '(g, w) => (if g =? 0 then [] else $" ") ++ w) (sl_more l).
(** The lines of the output: an empty line for any number of empty lines (none at
    the start), and the words, indented by the level of the line. *)
Fixpoint output_lines (ind : indentation_kind) (before ls : list src_line) : list str :=
  match ls with
  | [] => []
  | l :: ls' =>
      (match before with [] => [] | _ => if sl_empty l =? 0 then [] else [[]] end) ++
      (indent_text ind (Z.of_nat (level (map sl_col (before ++ [l])))) ++ line_text l) ::
      output_lines ind (before ++ [l]) ls'
  end.
End Spec.
Arguments chunk : clear implicits. Arguments cchunk : clear implicits. Arguments mstate : clear implicits. Arguments leaf : clear implicits.
