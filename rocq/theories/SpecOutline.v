(** * Specification: the blocks of an assembled program.

    The source of every quote is read like Python reads a file: a line further right
    than the one before it opens a block, a line further left closes blocks.  Quoted
    code within other code is read where it stands. *)
From Verif Require Import Str Values Macro SpecMacro SpecOffside SpecAssembled.

(** Text of the current line, a new line, a block that opens or closes here, a block that
    closes where the current line ends. *)
Inductive mark : Type := Text (s : str) | NewLine | Block (e : event) | Close.

Section Outline.
Context {LI : Type} (literal : str -> str) (reference : LI -> str).

(** Words after a word that ends at [prev], with the columns of the open blocks, and
    the blocks that are open at the end.  [None] if a line starts in no column of an
    open block. *)
Fixpoint following_marks (open : list nat) (prev : pos) (l : list (cursor * option (list mark)))
  : option (list mark * list nat) :=
  match l with
  | [] => Some ([], open)
  | (c, w) :: l' =>
      let here := c_start c in
      if p_line here =? p_line prev then
        match w, following_marks open (c_end c) l' with
        | Some w, Some (m, o) => Some ((if p_col here =? p_col prev then [] else [Text $" "]) ++ w ++ m, o)
        | _, _ => None
        end
      else
        match start_line (p_col here) open with
        | Some (es, open') =>
            match w, following_marks open' (c_end c) l' with
            | Some w, Some (m, o) => Some (NewLine :: map Block es ++ w ++ m, o)
            | _, _ => None
            end
        | None => None
        end
  end.
Definition words_marks (l : list (cursor * option (list mark))) : option (list mark * list nat) :=
  match l with
  | [] => None
  | (c, w) :: l' =>
      match w, following_marks [p_col (c_start c)] (c_end c) l' with
      | Some w, Some (m, o) => Some (w ++ m, o)
      | _, _ => None
      end
  end.
(** The blocks that code within other code leaves open end with its last line. *)
Definition inner_marks (l : list (cursor * option (list mark))) : option (list mark) :=
  match words_marks l with
  | Some (m, o) => Some (m ++ repeat Close (length o - 1))
  | None => None
  end.
Definition separator_marks (s : separator) : list mark :=
  (if s_space s then [Text $" "] else []) ++ Text (s_text s) ::
  match s_then s with
  | None => []
  | Some KSpace => [Text $" "]
  | Some KPush | Some KLine => [NewLine]
  end.
Fixpoint joined_marks (sep : list mark) (ls : list (option (list mark))) : option (list mark) :=
  match ls with
  | [] => Some []
  | [x] => x
  | x :: ls' =>
      match x, joined_marks sep ls' with
      | Some m, Some m' => Some (m ++ sep ++ m')
      | _, _ => None
      end
  end.

Fixpoint piece_marks (w : str) (x : piece LI) : option (list mark) :=
  match x with
  | Itself => Some [Text w]
  | LiteralOf v => Some [Text (literal v)]
  | TextOf v => Some [Text v]
  | ReferenceTo i => Some [Text (reference i)]
  | Fragment l => inner_marks (map (fun '(c, (w, x)) => (c, piece_marks w x)) l)
  | Rounds sep ls =>
      joined_marks (separator_marks sep) (map (fun l => inner_marks (map (fun '(c, (w, x)) => (c, piece_marks w x)) l)) ls)
  end.

(** The statements between the marks; [k] blocks close after the current line. *)
Fixpoint read_marks (line : str) (k : nat) (m : list mark) : list event :=
  match m with
  | [] => Statement line :: repeat Dedent k
  | Text s :: m' => read_marks (line ++ s) k m'
  | NewLine :: m' => Statement line :: repeat Dedent k ++ read_marks [] 0 m'
  | Block e :: m' => e :: read_marks line k m'
  | Close :: m' => read_marks line (S k) m'
  end.
Definition program_blocks (l : program LI) : option (list event) :=
  match words_marks (map (fun '(c, (w, x)) => (c, piece_marks w x)) l) with
  | Some (m, o) => Some (read_marks [] 0 m ++ repeat Dedent (length o - 1))
  | None => None
  end.
End Outline.

(** Statements of one line that are no comments. *)
Definition proper_event (e : event) : Prop := match e with Statement s => plain s | _ => True end.
