(** * Specification: programs assembled from quotes.

    A program is quoted with texts, literals, imports, other quoted code, conditions
    and loops in it; what text is meant by it, character by character. *)
From Verif Require Import Str Tokens Values Fmt SpecFmt SpecLang LangCsharp Macro SpecMacro SpecQuote SpecWords SpecSilent SpecReread SpecFile.

(** ** Programs *)

(** What is between the rounds of a loop: a space or none, some text, then
    nothing, a space, a new line or an empty line. *)
Record separator : Type := mk_separator {
  s_space : bool;
  s_text : str;
  s_then : option control
}.

(** What stands at a place of the source: the word that is written there, the
    literal of a string, a text, an import, some quoted code, or the rounds of a loop.
    Quoted code is a list of words with their positions in the source. *)
Inductive piece (LI : Type) : Type :=
| Itself
| LiteralOf (v : str)
| TextOf (v : str)
| ReferenceTo (i : LI)
| Fragment (l : list (cursor * (str * piece LI)))
| Rounds (sep : separator) (ls : list (list (cursor * (str * piece LI)))).
Arguments Itself {LI}. Arguments LiteralOf {LI}. Arguments TextOf {LI}. Arguments ReferenceTo {LI}.
Arguments Fragment {LI}. Arguments Rounds {LI}.
Definition program (LI : Type) : Type := list (cursor * (str * piece LI)).

(** The imports of a program, in order. *)
Fixpoint piece_imports {LI} (x : piece LI) : list LI :=
  match x with
  | ReferenceTo i => [i]
  | Fragment l => flat_map (fun y => piece_imports (snd (snd y))) l
  | Rounds _ ls => flat_map (flat_map (fun y => piece_imports (snd (snd y)))) ls
  | _ => []
  end.
Definition program_imports {LI} (l : program LI) : list LI := flat_map (fun y => piece_imports (snd (snd y))) l.

(** ** The text of a program *)
Section Text.
Context {LI : Type} (newline : str) (ind : indentation_kind) (literal : str -> str) (reference : LI -> str).

(** A new line at a level. *)
Definition new_line_at (n : nat) : str := newline ++ indent_text ind (Z.of_nat n).
Definition control_text (n : nat) (k : control) : str :=
  match k with
  | KSpace => $" "
  | KPush => new_line_at n
  | KLine => newline ++ new_line_at n
  end.
Definition separator_text (n : nat) (s : separator) : str :=
  (if s_space s then $" " else []) ++ s_text s ++ match s_then s with Some k => control_text n k | None => [] end.

(** Words after a word that ends at [prev], in code at level [n] whose lines so far
    start in the columns [before].  On the same line there is a space if there are
    blanks in the source.  A word that starts a line of the source starts a line, one
    after an empty line if there are any empty lines in the source, indented by the
    levels of the lines of the source. *)
Fixpoint following (n : nat) (before : list nat) (prev : pos) (l : list (cursor * (nat -> str))) : str :=
  match l with
  | [] => []
  | (c, w) :: l' =>
      let here := c_start c in
      if p_line here =? p_line prev then
        (if p_col here =? p_col prev then [] else $" ") ++ w (n + level before) ++ following n before (c_end c) l'
      else
        let before' := before ++ [p_col here] in
        (if p_line here =? S (p_line prev) then [] else newline) ++ new_line_at (n + level before') ++
        w (n + level before') ++ following n before' (c_end c) l'
  end.
Definition words_text (n : nat) (l : list (cursor * (nat -> str))) : str :=
  match l with
  | [] => []
  | (c, w) :: l' => w n ++ following n [p_col (c_start c)] (c_end c) l'
  end.

(** The text of a piece on a line at level [n]. *)
Fixpoint piece_text (w : str) (x : piece LI) (n : nat) : str :=
  match x with
  | Itself => w
  | LiteralOf v => literal v
  | TextOf v => v
  | ReferenceTo i => reference i
  | Fragment l => words_text n (map (fun '(c, (w, x)) => (c, piece_text w x)) l)
  | Rounds sep ls =>
      join (separator_text n sep) (map (fun l => words_text n (map (fun '(c, (w, x)) => (c, piece_text w x)) l)) ls)
  end.
Definition program_text (n : nat) (l : program LI) : str :=
  words_text n (map (fun '(c, (w, x)) => (c, piece_text w x)) l).
End Text.

(** ** Words that show nothing *)

(** [$(let ..)], [$(if ..)] whose condition is false, a loop over nothing, values of
    nothing: the program is that of the source without them. *)
Section Lines.
Context {X : Type}.
(** The lines of words in a source, those of the line that ends at [prev] first. *)
Fixpoint lines_after (prev : pos) (l : list (cursor * X)) : list (nat * (cursor * X)) * list (line_of (cursor * X)) :=
  match l with
  | [] => ([], [])
  | (c, x) :: l' =>
      let (more, ls) := lines_after (c_end c) l' in
      if p_line (c_start c) =? p_line prev then ((p_col (c_start c) - p_col prev, (c, x)) :: more, ls)
      else ([], mk_line_of (p_line (c_start c) - S (p_line prev)) (p_col (c_start c)) (c, x) more :: ls)
  end.
Definition source_lines (l : list (cursor * X)) : list (line_of (cursor * X)) :=
  match l with
  | [] => []
  | (c, x) :: l' =>
      let (more, ls) := lines_after (c_end c) l' in
      mk_line_of 0 (p_col (c_start c)) (c, x) more :: ls
  end.
(** The words of lines, each where it is if the first line is in row [row]. *)
Definition moved (row col : nat) (c : cursor) : cursor :=
  let rows := p_line (c_end c) - p_line (c_start c) in
  mk_cursor (mk_pos row col)
    (if rows =? 0 then mk_pos row (col + (p_col (c_end c) - p_col (c_start c)))
     else mk_pos (row + rows) (p_col (c_end c))).
Fixpoint put_row (prev : pos) (more : list (nat * (cursor * X))) : list (cursor * X) :=
  match more with
  | [] => []
  | (g, (c, x)) :: more' =>
      let c' := moved (p_line prev) (p_col prev + g) c in
      (c', x) :: put_row (c_end c') more'
  end.
Fixpoint put_lines (row : nat) (ls : list (line_of (cursor * X))) : list (cursor * X) :=
  match ls with
  | [] => []
  | l :: ls' =>
      let (c, x) := ln_word l in
      let c' := moved (row + ln_empty l) (ln_col l) c in
      let more := put_row (c_end c') (ln_more l) in
      (c', x) :: more ++ put_lines (S (p_line (c_end (last (map fst more) c')))) ls'
  end.
End Lines.

(** The words of a source; [None] for those that show nothing. *)
Definition sparse (LI : Type) : Type := list (cursor * (str * option (piece LI))).
Definition present {LI} (x : cursor * (str * option (piece LI))) : option (cursor * (str * piece LI)) :=
  match x with
  | (c, (w, Some b)) => Some (c, (w, b))
  | _ => None
  end.
Definition sparse_lines {LI} (l : sparse LI) : list (line_of (option (cursor * (str * piece LI)))) :=
  map (map_line present) (source_lines l).
(** The program that is left if they are deleted from the source, along with lines
    of only such words. *)
Definition left_over {LI} (l : sparse LI) : program LI :=
  match l with
  | [] => []
  | (c, _) :: _ => put_lines (p_line (c_start c)) (kept_lines 0 (sparse_lines l))
  end.
(** They may be deleted where [removable] says; the first and the last word are not
    among them. *)
Definition may_delete {LI} (l : sparse LI) : Prop :=
  removable (sparse_lines l) /\
  (exists x l', l = x :: l' /\ snd (snd x) <> None) /\ (exists l' x, l = l' ++ [x] /\ snd (snd x) <> None).

(** ** Quotes that are programs *)

(** The text of a value that is one. *)
Fixpoint value_text {LI} (v : value LI) : option str :=
  match v with
  | VStr s | VCow _ s | VStatic s | VDisplay s => Some s
  | VItemStr s => Some (content s)
  | VInt z => Some (dec_z z)
  | VOption (Some v) => value_text v
  | _ => None
  end.
(** How many levels deeper than it starts a piece ends: quoted code by the levels of its
    last line and of the last piece in it, a loop like its last round. *)
Fixpoint piece_depth {LI} (x : piece LI) : nat :=
  match x with
  | Fragment l => level (line_starts (map fst l)) + last (map (fun y => piece_depth (snd (snd y))) l) 0
  | Rounds _ ls =>
      last (map (fun l => level (line_starts (map fst l)) + last (map (fun y => piece_depth (snd (snd y))) l) 0) ls) 0
  | _ => 0
  end.
Definition program_depth {LI} (l : program LI) : nat := piece_depth (Fragment l).
(** Code that ends at the level it starts at, and is not empty. *)
Definition whole {LI} (l : program LI) : Prop := l <> [] /\ program_depth l = 0.
(** A piece that ends deeper than it starts is the last one on its line, and the next line
    does not start further right than this one, which starts in column [col]. *)
Fixpoint ends_from (col : nat) (l : list (cursor * nat)) : Prop :=
  match l with
  | [] => True
  | (c, depth) :: l' =>
      match l' with
      | [] => True
      | (c', _) :: _ =>
          if p_line (c_start c') =? p_line (c_end c) then depth = 0 /\ ends_from col l'
          else (depth = 0 \/ p_col (c_start c') <= col) /\ ends_from (p_col (c_start c')) l'
      end
  end.
Definition ends_fit {LI} (l : program LI) : Prop :=
  match l with
  | [] => True
  | x :: _ => ends_from (p_col (c_start (fst x))) (map (fun y => (fst y, piece_depth (snd (snd y)))) l)
  end.

Section Quotes.
Context {LI E : Type}.
Notation quoted := (quoted_item LI E).

(** The separator of a loop: none; [($['\n'])]; [(, )]; [(,$['\n'])]. *)
Inductive separated : option (cursor * list quoted) -> separator -> Prop :=
| separated_none : separated None (mk_separator false [] None)
| separated_control r c c' k : c + 1 <= c' - 1 ->
    separated (Some (mk_cursor (mk_pos r c) (mk_pos r c'),
                     [QControl (mk_cursor (mk_pos r (c + 1)) (mk_pos r (c' - 1))) k]))
      (mk_separator false [] (Some k))
| separated_text r c c1 c' w : c + 1 <= c1 -> c1 + length w <= c' - 1 -> w <> [] ->
    separated (Some (mk_cursor (mk_pos r c) (mk_pos r c'),
                     [QText (mk_cursor (mk_pos r c1) (mk_pos r (c1 + length w))) w]))
      (mk_separator (c + 1 <? c1) w (if c1 + length w <? c' - 1 then Some KSpace else None))
| separated_both r c c1 c' w k : c + 1 <= c1 -> c1 + length w <= c' - 1 -> w <> [] ->
    separated (Some (mk_cursor (mk_pos r c) (mk_pos r c'),
                     [QText (mk_cursor (mk_pos r c1) (mk_pos r (c1 + length w))) w;
                      QControl (mk_cursor (mk_pos r (c1 + length w)) (mk_pos r (c' - 1))) k]))
      (mk_separator (c + 1 <? c1) w (Some k)).
(** After rounds that end deeper than they start there is a new line, also without a
    separator, or an empty line. *)
Inductive breaks : option (cursor * list quoted) -> separator -> Prop :=
| breaks_none : breaks None (mk_separator false [] (Some KPush))
| breaks_control r c c' k : c + 1 <= c' - 1 -> k <> KSpace ->
    breaks (Some (mk_cursor (mk_pos r c) (mk_pos r c'),
                  [QControl (mk_cursor (mk_pos r (c + 1)) (mk_pos r (c' - 1))) k]))
      (mk_separator false [] (Some k)).

(** A token that shows nothing. *)
Inductive stands_for_nothing : leaf LI E -> E -> E -> Prop :=
| nothing_value c code v e e' : code e = (v, e') -> v = VOption None \/ v = VTokens new \/ v = VVec [] ->
    stands_for_nothing (LOther (QEval c code)) e e'
| nothing_if c cond a e e' : accepted a -> cond e = (false, e') ->
    stands_for_nothing (LOther (QIf c cond a None)) e e'
| nothing_loop c it sep body e e' : accepted [QLoop c it sep body] -> it e = ([], e') ->
    stands_for_nothing (LOther (QLoop c it sep body)) e e'
| nothing_let c f e : stands_for_nothing (LOther (QLet c f)) e (f e)
| nothing_effect c f e : stands_for_nothing (LOther (QEffect c f)) e (f e).

(** A token at [c], evaluated in [e], which leaves [e'], stands for a piece.  The
    bodies of conditions, loops and matches are in braces. *)
Inductive stands_for : cursor -> leaf LI E -> E -> str -> piece LI -> E -> Prop :=
| stands_word c w e : stands_for c (LText w) e w Itself e
| stands_literal c v w e : stands_for c (LOther (QQuoted c v)) e w (LiteralOf v) e
| stands_quoted c code v s w e e' : code e = (VQuoted v, e') -> value_text v = Some s ->
    stands_for c (LOther (QEval c code)) e w (LiteralOf s) e'
| stands_text c code v s w e e' : code e = (v, e') -> value_text v = Some s -> s <> [] ->
    stands_for c (LOther (QEval c code)) e w (TextOf s) e'
| stands_import c code i w e e' : code e = (VLang i, e') ->
    stands_for c (LOther (QEval c code)) e w (ReferenceTo i) e'
| stands_stream c code t qs e0 e1 l w e e' : code e = (VTokens t, e') -> quote qs e0 = Some (e1, t) ->
    quotes_program qs e0 l e1 -> l <> [] ->
    stands_for c (LOther (QEval c code)) e w (Fragment l) e'
| stands_if c cond a b yes l w e e1 e' : accepted [QIf c cond a b] -> cond e = (yes, e1) ->
    quotes_program (if yes then a else match b with Some b => b | None => [] end) e1 l e' -> l <> [] ->
    stands_for c (LOther (QIf c cond a b)) e w (Fragment l) e'
| stands_match c sel arms i qs l w e e1 e' : accepted [QMatch c sel arms] -> sel e = (i, e1) ->
    nth_error arms i = Some (None, qs) -> quotes_program qs e1 l e' -> l <> [] ->
    stands_for c (LOther (QMatch c sel arms)) e w (Fragment l) e'
| stands_loop c it sep body s bs ls w e e1 e' : accepted [QLoop c it sep body] -> it e = (bs, e1) ->
    separated sep s -> quotes_rounds body bs e1 ls e' -> ls <> [] -> Forall whole ls ->
    stands_for c (LOther (QLoop c it sep body)) e w (Rounds s ls) e'
(* rounds that end deeper than they start are on lines of their own *)
| stands_blocks c it sep body s bs ls w e e1 e' : accepted [QLoop c it sep body] -> it e = (bs, e1) ->
    breaks sep s -> quotes_rounds body bs e1 ls e' -> ls <> [] -> Forall (fun l => program_depth l <> 0) ls ->
    stands_for c (LOther (QLoop c it sep body)) e w (Rounds s ls) e'
(** One after the other. *)
with all_stand : list (cursor * leaf LI E) -> E -> program LI -> E -> Prop :=
| all_stand_end e : all_stand [] e [] e
| all_stand_next c x ts e w b e1 l e' : stands_for c x e w b e1 -> all_stand ts e1 l e' ->
    all_stand ((c, x) :: ts) e ((c, (w, b)) :: l) e'
with all_may_stand : list (cursor * leaf LI E) -> E -> sparse LI -> E -> Prop :=
| all_may_end e : all_may_stand [] e [] e
| all_may_next c x ts e w b e1 l e' : stands_for c x e w b e1 -> piece_depth b = 0 -> all_may_stand ts e1 l e' ->
    all_may_stand ((c, x) :: ts) e ((c, (w, Some b)) :: l) e'
| all_may_skip c x ts e w e1 l e' : stands_for_nothing x e e1 -> all_may_stand ts e1 l e' ->
    all_may_stand ((c, x) :: ts) e ((c, (w, None)) :: l) e'
(** The quote is written in the source as the words of this program, or as these and
    words that show nothing, if no piece ends deeper than it starts. *)
with quotes_program : list quoted -> E -> program LI -> E -> Prop :=
| quotes_words qs p s l e e' : written p s (map (fun x => (fst x, fst (snd x))) l) -> starts_fit (map fst l) ->
    all_stand (all_tokens qs) e l e' -> ends_fit l -> quotes_program qs e l e'
| quotes_sparse qs p s l e e' : written p s (map (fun x => (fst x, fst (snd x))) l) -> starts_fit (map fst l) ->
    all_may_stand (all_tokens qs) e l e' -> may_delete l -> quotes_program qs e (left_over l) e'
(** The body of a loop, round after round. *)
with quotes_rounds : list quoted -> list (E -> E) -> E -> list (program LI) -> E -> Prop :=
| quotes_no_rounds body e : quotes_rounds body [] e [] e
| quotes_round body b bs e l e1 ls e' : quotes_program body (b e) l e1 -> l <> [] ->
    quotes_rounds body bs e1 ls e' -> quotes_rounds body (b :: bs) e (l :: ls) e'.
End Quotes.

(** The file of the stream [t] is this one: the lines [header], an empty line if there
    are any, and the text of the program. *)
Definition is_file {LI C F} (L : lang_def LI C F) cfg (c : C) (t : tokens LI)
    (header : list str) (literal : str -> str) (reference : LI -> str) (l : program LI) : Prop :=
  file_renders L cfg c t
    (file_text (c_newline cfg) header (program_text (c_newline cfg) (c_indentation cfg) literal reference 0 l)).

(** A C# file with a namespace: the block of the namespace with the program one
    level deeper in it.  Types of the namespace itself are not imported. *)
Definition csharp_block (nl : str) (ind : indentation_kind) (namespace inner : str) : str :=
  $"namespace " ++ namespace ++ $" {" ++ nl ++ indent_text ind 1 ++ inner ++ nl ++ $"}".
Definition csharp_listed_in (own : str) (us : list cs_import) (types : list (str * str)) (usings : list str) : Prop :=
  (forall k, In k types <->
     first_named (pair_before text_before text_before) (fun k => fst k <> own) snd
       (fun k => exists i, In i us /\ k = (content (cs_namespace i), content (cs_name i))) k) /\
  sorted text_before usings /\ (forall n, In n usings <-> exists name, In (n, name) types).
