(** * Specification: block structure by indentation.

    How Python groups the lines of a file into blocks (Python reference, 2.1.6 to
    2.1.8).  Lines joined by backslashes or within brackets and literals of several
    lines are not modelled: every physical line is a logical line. *)
From Verif Require Import Str Fmt SpecFmt SpecMacro SpecWords.

(** ** Python *)

(** Physical lines: they end in LF, CR LF or CR. *)
Fixpoint physical_lines (line : str) (s : str) : list str :=
  match s with
  | [] => [line]
  | 10%N :: s' => line :: physical_lines [] s'
  | 13%N :: 10%N :: s' => line :: physical_lines [] s'
  | 13%N :: s' => line :: physical_lines [] s'
  | c :: s' => physical_lines (line ++ [c]) s'
  end.
(** The column a line starts in, and its text: a space is one column wide, a tab
    leads to the next multiple of eight. *)
Fixpoint columns (col : nat) (s : str) : nat * str :=
  match s with
  | 32%N :: s' => columns (S col) s'
  | 9%N :: s' => columns (8 * S (col / 8)) s'
  | _ => (col, s)
  end.
(** Lines without text and lines of a comment do not count. *)
Definition ignored (s : str) : bool :=
  match s with [] => true | c :: _ => N.eqb c 35 end.

Inductive event : Type := Indent | Dedent | Statement (s : str).

(** The columns of the open blocks, innermost first.  A line further right opens a
    block; a line further left closes blocks and must be in the column of one. *)
Fixpoint close_blocks (col : nat) (open : list nat) : option (nat * list nat) :=
  match open with
  | [] => None
  | c :: open' =>
      if col =? c then Some (0, open)
      else if col <? c then option_map (fun '(n, o) => (S n, o)) (close_blocks col open')
      else None
  end.
Definition start_line (col : nat) (open : list nat) : option (list event * list nat) :=
  match open with
  | [] => None
  | c :: _ =>
      if c <? col then Some ([Indent], col :: open)
      else option_map (fun '(n, o) => (repeat Dedent n, o)) (close_blocks col open)
  end.
Fixpoint blocks (open : list nat) (lines : list (nat * str)) : option (list event) :=
  match lines with
  | [] => Some (repeat Dedent (length open - 1))
  | (col, s) :: lines' =>
      if ignored s then blocks open lines'
      else match start_line col open with
           | None => None
           | Some (es, open') => option_map (fun more => es ++ Statement s :: more) (blocks open' lines')
           end
  end.
(** What Python reads; [None] where it reports inconsistent indentation. *)
Definition python_lines (ls : list str) : option (list event) := blocks [0] (map (columns 0) ls).
Definition python (s : str) : option (list event) := python_lines (physical_lines [] s).

(** ** Source *)

(** The same structure in the source of a quote, relative to its first line. *)
Definition source_blocks (ls : list src_line) : option (list event) :=
  match ls with
  | [] => Some []
  | l :: _ => blocks [sl_col l] (map (fun l => (sl_col l, line_text l)) ls)
  end.
(** Lines of which each stands for a block. *)
Fixpoint nested (open : list nat) (ls : list (nat * list str)) : option (list event) :=
  match ls with
  | [] => Some (repeat Dedent (length open - 1))
  | (col, b) :: ls' =>
      match python_lines b, start_line col open with
      | Some within, Some (es, open') => option_map (fun more => es ++ within ++ more) (nested open' ls')
      | _, _ => None
      end
  end.
Definition at_columns (ls : list (line_of (list str))) : list (nat * list str) :=
  map (fun l => (ln_col l, side_by_side (ln_word l) (ln_more l))) ls.
Definition nested_blocks (ls : list (nat * list str)) : option (list event) :=
  match ls with
  | [] => Some []
  | (col, _) :: _ => nested [col] ls
  end.
(** A line further right does not follow a block that ends further right than it
    starts. *)
Definition ends_deeper (b : list str) : Prop := exists es, python_lines b = Some (es ++ [Dedent]).
Fixpoint followed (ls : list (nat * list str)) : Prop :=
  match ls with
  | [] => True
  | (col, b) :: ls' =>
      match ls' with [] => True | (col', _) :: _ => ends_deeper b -> col' <= col end /\ followed ls'
  end.

(** ** Texts *)

(** Text of one line that does not start with a blank or a comment. *)
Definition plain (s : str) : Prop :=
  (exists c s', s = c :: s' /\ c <> 32%N /\ c <> 9%N /\ c <> 12%N /\ c <> 35%N) /\ ~ In 10%N s /\ ~ In 13%N s.
(** A line that is empty, or such text after indentation. *)
Definition indented (ind : indentation_kind) (l : str) : Prop :=
  l = [] \/ exists n s, l = indent_text ind (Z.of_nat n) ++ s /\ plain s.
(** A block that starts with such text. *)
Definition proper_block (ind : indentation_kind) (b : list str) : Prop :=
  exists s b', b = s :: b' /\ plain s /\ Forall (indented ind) b'.
Definition line_end (nl : str) : Prop := nl = [10%N] \/ nl = [13%N; 10%N] \/ nl = [13%N].
Definition indents (ind : indentation_kind) : Prop := ind <> ISpace 0.
