(** * Specification: the layout of quotes with interpolated values.

    Source lines made of words, each static text or an interpolation; the
    documents the words show; the lines they are rendered as. *)
From Verif Require Import Str Tokens SpecTokens Values Fmt SpecFmt SpecFile Macro SpecMacro.

(** ** Lines of words *)

(** A line of words of any kind: how many empty lines precede it, the column of its
    first word, and the further words with the blanks before each. *)
Record line_of (W : Type) : Type := mk_line_of {
  ln_empty : nat;
  ln_col : nat;
  ln_word : W;
  ln_more : list (nat * W)
}.
Arguments mk_line_of {W}. Arguments ln_empty {W}. Arguments ln_col {W}. Arguments ln_word {W}. Arguments ln_more {W}.
Definition words_of {W} (l : line_of W) : list W := ln_word l :: map snd (ln_more l).
Definition map_line {W V} (f : W -> V) (l : line_of W) : line_of V :=
  mk_line_of (ln_empty l) (ln_col l) (f (ln_word l)) (map (fun '(g, w) => (g, f w)) (ln_more l)).
(** Every line but the first starts further right than, or at, the line before it,
    or in a column of an enclosing line. *)
Definition lines_fit {W} (ls : list (line_of W)) : Prop :=
  forall before col after, map ln_col ls = before ++ col :: after -> before <> [] -> may_start before col.

(** ** Source *)
Section Words.
Context {LI E : Type}.

(** A word of source: a token, the further rows it spans, and its width; the
    column it ends in if it spans several rows. *)
Record src_word : Type := mk_src_word {
  sw_leaf : leaf LI E;
  sw_rows : nat;
  sw_width : nat
}.
Definition src_cursor (row col : nat) (w : src_word) : cursor :=
  mk_cursor (mk_pos row col)
    (if sw_rows w =? 0 then mk_pos row (col + sw_width w)
     else mk_pos (row + sw_rows w) (sw_width w)).
(** Words of a line: each starts in the row in which the one before ends. *)
Fixpoint row_tokens (frm : pos) (more : list (nat * src_word)) : list (cursor * leaf LI E) :=
  match more with
  | [] => []
  | (g, w) :: more' =>
      let c := src_cursor (p_line frm) (p_col frm + g) w in
      (c, sw_leaf w) :: row_tokens (c_end c) more'
  end.
Fixpoint row_end (frm : pos) (more : list (nat * src_word)) : pos :=
  match more with
  | [] => frm
  | (g, w) :: more' => row_end (c_end (src_cursor (p_line frm) (p_col frm + g) w)) more'
  end.
(** The tokens of lines of source, the first of which may be at [row]. *)
Fixpoint word_tokens (row : nat) (ls : list (line_of src_word)) : list (cursor * leaf LI E) :=
  match ls with
  | [] => []
  | l :: ls' =>
      let c := src_cursor (row + ln_empty l) (ln_col l) (ln_word l) in
      (c, sw_leaf (ln_word l)) :: row_tokens (c_end c) (ln_more l) ++
      word_tokens (S (p_line (row_end (c_end c) (ln_more l)))) ls'
  end.

(** ** What is shown *)
Context (ops : lang_ops LI) (cfg : config).

(** A document may end at a deeper level than it starts, like the body of a
    function; the item after it then closes the levels it leaves open. *)
Definition open_levels (ns : list (node LI)) : Z := net (doc_atoms ops cfg ns).
Definition closing (n : Z) : list (item LI) := if Z.eqb n 0 then [] else [Indentation (- n)].
(** The document a token shows, evaluated in [e], which leaves [e']: what a quote
    of it alone shows.  It starts and ends with visible text. *)
Definition shows (l : leaf LI E) (e : E) (ns : list (node LI)) (e' : E) : Prop :=
  match l with
  | LText s => e' = e /\ ns = [NItem (Literal (Static s))]
  | LOther x =>
      (exists t, quote [x] e = Some (e', t) /\ items t = doc_items ns ++ closing (open_levels ns)) /\
      (exists y its, fst (quote_mean [x] e) = y :: its /\ is_white y = false)
  end /\
  doc_ok ns = true /\ visible_ends (doc_atoms ops cfg ns) /\ (0 <= open_levels ns)%Z.
(** One after the other. *)
Fixpoint all_show (ws : list (leaf LI E)) (e : E) (ds : list (list (node LI))) (e' : E) : Prop :=
  match ws, ds with
  | [], [] => e' = e
  | w :: ws', d :: ds' => exists e1, shows w e d e1 /\ all_show ws' e1 ds' e'
  | _, _ => False
  end.
(** A document that leaves levels open is the last of its line.  The next line
    must not start further right if it follows directly and one level is open. *)
Definition line_closed (l : line_of (list (node LI))) : Prop :=
  Forall (fun ns => open_levels ns = 0%Z) (removelast (words_of l)).
Definition closed_before (l l' : line_of (list (node LI))) : Prop :=
  open_levels (last (words_of l) []) = 1%Z -> ln_empty l' = 0 -> ln_col l' <= ln_col l.
Fixpoint lines_closed (ds : list (line_of (list (node LI)))) : Prop :=
  match ds with
  | [] => True
  | l :: ds' => line_closed l /\ match ds' with [] => True | l' :: _ => closed_before l l' end /\ lines_closed ds'
  end.
(** Lines of source and the lines of documents they show. *)
Definition lines_show (ls : list (line_of src_word)) (e : E) (ds : list (line_of (list (node LI)))) (e' : E) : Prop :=
  map (map_line (fun _ => tt)) ls = map (map_line (fun _ => tt)) ds /\
  all_show (map sw_leaf (flat_map words_of ls)) e (flat_map words_of ds) e' /\ lines_closed ds.

(** ** Output *)
Notation ind := (c_indentation cfg).

(** A document laid out at a level, after something else. *)
Definition shown_at (lvl : Z) (ns : list (node LI)) : list sym :=
  layout_from ind false lvl [] (doc_atoms ops cfg ns).
Definition shown_line (lvl : Z) (l : line_of (list (node LI))) : list sym :=
  shown_at lvl (ln_word l) ++
  flat_map (fun '(g, ns) => (if g =? 0 then [] else [Ch 32]) ++ shown_at lvl ns) (ln_more l).
(** Lines after lines that start in the columns [before]. *)
Fixpoint shown_lines (before : list nat) (ls : list (line_of (list (node LI)))) : list sym :=
  match ls with
  | [] => []
  | l :: ls' =>
      let lvl := Z.of_nat (level (before ++ [ln_col l])) in
      match before with
      | [] => []
      | _ => if ln_empty l =? 0 then [NL] else [NL; NL]
      end ++ pad ind lvl ++ shown_line lvl l ++ shown_lines (before ++ [ln_col l]) ls'
  end.

(** ** Output as blocks of lines *)

(** The lines of a document by itself. *)
Definition block_of (ns : list (node LI)) : list str := sym_lines (layout ind (doc_atoms ops cfg ns)).
(** A document on one line. *)
Definition inline (ns : list (node LI)) : Prop := Forall (fun a => a_break a = false) (doc_atoms ops cfg ns).
(** A document that at the start of a line, at any level, shows the lines it shows
    by itself, indented by that level. *)
Definition steady (ns : list (node LI)) : Prop := forall n : nat,
  sym_lines (pad ind (Z.of_nat n) ++ shown_at (Z.of_nat n) ns) =
  map (indent_line (indent_text ind (Z.of_nat n))) (block_of ns).
(** A document that never goes left of where it starts. *)
Definition upright (ns : list (node LI)) : Prop :=
  forall p q, doc_atoms ops cfg ns = p ++ q -> (0 <= net p)%Z.

(** The string of a document by itself. *)
Definition string_of (ns : list (node LI)) : str := text (c_newline cfg) (layout ind (doc_atoms ops cfg ns)).
Definition as_source (l : line_of (list (node LI))) : src_line :=
  mk_src_line (ln_empty l) (ln_col l) (string_of (ln_word l)) (map (fun '(g, ns) => (g, string_of ns)) (ln_more l)).
End Words.
Arguments src_word : clear implicits.

(** Two blocks side by side: the second starts where the first ends. *)
Fixpoint beside (a : list str) (g : nat) (b : list str) : list str :=
  match a with
  | [] => b
  | [x] =>
      match b with
      | [] => [x]
      | y :: b' => (x ++ (if g =? 0 then [] else $" ") ++ y) :: b'
      end
  | x :: a' => x :: beside a' g b
  end.
Definition side_by_side (b : list str) (more : list (nat * list str)) : list str :=
  fold_left (fun a '(g, b) => beside a g b) more b.
(** Each line of blocks is indented by its level. *)
Fixpoint block_lines (ind : indentation_kind) (before : list nat) (ls : list (line_of (list str))) : list str :=
  match ls with
  | [] => []
  | l :: ls' =>
      match before with [] => [] | _ => if ln_empty l =? 0 then [] else [[]] end ++
      map (indent_line (indent_text ind (Z.of_nat (level (before ++ [ln_col l])))))
        (side_by_side (ln_word l) (ln_more l)) ++
      block_lines ind (before ++ [ln_col l]) ls'
  end.
