(** * Specification: what the strings of quotes say, with code.

    Strings [$[str](..)] with code [$(..)], given what quotes of that code give. *)
From Verif Require Import Str Tokens Values Fmt SpecFmt Macro SpecMacro SpecQuote.

Section Source.
Context {LI E : Type}.
(** Tokens one after the other on line [row], from column [at_] on. *)
Fixpoint on_row (row at_ : nat) (cs : list cursor) : Prop :=
  match cs with
  | [] => True
  | mk_cursor (mk_pos r1 a) (mk_pos r2 b) :: cs' =>
      r1 = row /\ r2 = row /\ at_ <= a /\ a < b /\ on_row row b cs'
  end.
(** What is in the parentheses is on one line. *)
Definition code_on_line (qs : list (quoted_item LI E)) : Prop := exists row, on_row row 0 (map fst (all_tokens qs)).

(** Words of a line, the column before the first of them being [at_]: a blank where
    the source has any. *)
Fixpoint words_text (at_ : nat) (ws : list (cursor * str)) : str :=
  match ws with
  | [] => []
  | (c, s) :: ws' => (if at_ <? p_col (c_start c) then $" " else []) ++ s ++ words_text (p_col (c_end c)) ws'
  end.
Definition line_of_words (ws : list (cursor * str)) : str :=
  match ws with [] => [] | (c, s) :: ws' => s ++ words_text (p_col (c_end c)) ws' end.
(** The code is made of these words. *)
Definition made_of (qs : list (quoted_item LI E)) (ws : list (cursor * str)) : Prop :=
  all_tokens qs = map (fun '(c, s) => (c, LText s)) ws /\ Forall (fun w => snd w <> []) ws.

Definition constant_text (s : str) : list (part LI) :=
  match s with [] => [] | _ => [PItem (Literal (Static s))] end.
(** The string from column [at_] to [stop] of the line of source, evaluated in [e],
    which leaves [e']: the source as it is, constants, names, and the documents
    that quotes of the code give; [before] is the text before it. *)
Inductive string_doc (src : str) (stop : nat) : E -> str -> nat -> list (string_item LI E) -> E -> list (part LI) -> Prop :=
| doc_end e before at_ : string_doc src stop e before at_ [] e (constant_text (before ++ slice src at_ stop))
| doc_token e before at_ c s ps e' out :
    string_doc src stop e (before ++ slice src at_ (p_col (c_end c))) (p_col (c_end c)) ps e' out ->
    string_doc src stop e before at_ (PText c s :: ps) e' out
| doc_dollar e before at_ c ps e' out :
    string_doc src stop e (before ++ slice src at_ (p_col (c_start c)) ++ $"$") (p_col (c_end c)) ps e' out ->
    string_doc src stop e before at_ (PDollar c :: ps) e' out
| doc_const e before at_ c s ps e' out :
    string_doc src stop e (before ++ slice src at_ (p_col (c_start c)) ++ s) (p_col (c_end c)) ps e' out ->
    string_doc src stop e before at_ (PConstLit c s :: ps) e' out
| doc_value e before at_ c v w e1 s ps e' out : v e = (w, e1) -> items (append w new) = [Literal s] ->
    string_doc src stop e1 [] (p_col (c_end c)) ps e' out ->
    string_doc src stop e before at_ (PConst c v :: ps) e'
      (constant_text (before ++ slice src at_ (p_col (c_start c))) ++ PItem (Literal s) :: out)
| doc_name e before at_ c name ps e' out :
    string_doc src stop e [] (p_col (c_end c)) ps e' out ->
    string_doc src stop e before at_ (PIdent c name :: ps) e'
      (constant_text (before ++ slice src at_ (p_col (c_start c))) ++
       SpecFmt.PEval [NItem (Literal (Static name))] :: out)
| doc_code e before at_ c qs t ns e1 ps e' out : code_on_line qs ->
    quote qs e = Some (e1, t) -> items t = doc_items ns ->
    string_doc src stop e1 [] (p_col (c_end c)) ps e' out ->
    string_doc src stop e before at_ (PEval c qs :: ps) e'
      (constant_text (before ++ slice src at_ (p_col (c_start c))) ++ SpecFmt.PEval ns :: out).
End Source.
