(** * Specification: the tokens of programs assembled from quotes.

    The parts of a program in order, whatever its layout is, and the tokens of them. *)
From Verif Require Import Str SpecStr Values Fmt SpecFmt Macro SpecWords SpecReread Parse SpecParse SpecLex SpecProgram SpecAssembled.

(** White space, some text, or the literal of a string. *)
Inductive stretch : Type :=
| Gap
| Chars (s : str)
| StringOf (v : str).

(** ** The parts of a program *)
Section Parts.
Context {LI : Type} (reference : LI -> str).
Definition gap_if (b : bool) : list stretch := if b then [Gap] else [].
Definition some_control (k : option control) : bool := match k with Some _ => true | None => false end.
Definition separator_parts (s : separator) : list stretch :=
  gap_if (s_space s) ++ [Chars (s_text s)] ++ gap_if (some_control (s_then s)).
Fixpoint between_parts (sep : list stretch) (ls : list (list stretch)) : list stretch :=
  match ls with
  | [] => []
  | [x] => x
  | x :: ls' => x ++ sep ++ between_parts sep ls'
  end.
(** There is white space between two words exactly if there is in the source. *)
Definition apart (p q : pos) : bool := negb ((p_line q =? p_line p) && (p_col q =? p_col p)).
Fixpoint following_parts (prev : pos) (l : list (cursor * list stretch)) : list stretch :=
  match l with
  | [] => []
  | (c, ps) :: l' => gap_if (apart prev (c_start c)) ++ ps ++ following_parts (c_end c) l'
  end.
Definition words_parts (l : list (cursor * list stretch)) : list stretch :=
  match l with
  | [] => []
  | (c, ps) :: l' => ps ++ following_parts (c_end c) l'
  end.
Fixpoint piece_parts (w : str) (x : piece LI) : list stretch :=
  match x with
  | Itself => [Chars w]
  | LiteralOf v => [StringOf v]
  | TextOf v => [Chars v]
  | ReferenceTo i => [Chars (reference i)]
  | Fragment l => words_parts (map (fun '(c, (w, x)) => (c, piece_parts w x)) l)
  | Rounds sep ls =>
      between_parts (separator_parts sep) (map (fun l => words_parts (map (fun '(c, (w, x)) => (c, piece_parts w x)) l)) ls)
  end.
Definition program_parts (l : program LI) : list stretch :=
  words_parts (map (fun '(c, (w, x)) => (c, piece_parts w x)) l).
End Parts.

(** ** The tokens of parts *)

(** The parts on one line.  No matter which strings there are. *)
Definition part_line (p : stretch) : str :=
  match p with
  | Gap => $" "
  | Chars s => s
  | StringOf _ => $""""""
  end.
Definition parts_line (l : list stretch) : str := flat_map part_line l.

(** In front of the other parts, on one line, the text of each part, or of texts next
    to each other, is these tokens; a literal is what the language stores for the
    string, [value], for strings that are [good]. *)
Inductive parts_read (g : grammar) (good : str -> Prop) (value : str -> list N) : list stretch -> list token -> Prop :=
| read_end : parts_read g good value [] []
| read_gap l K : parts_read g good value l K -> parts_read g good value (Gap :: l) K
| read_chars s l K1 K : reads_over g s (parts_line l) K1 -> parts_read g good value l K -> parts_read g good value (Chars s :: l) (K1 ++ K)
| read_joined s s' l K : parts_read g good value (Chars (s ++ s') :: l) K -> parts_read g good value (Chars s :: Chars s' :: l) K
| read_string v l K : good v -> parts_read g good value l K -> parts_read g good value (StringOf v :: l) (WString (value v) :: K).
(** Strings of characters. *)
Definition itself (v : str) : list N := v.
