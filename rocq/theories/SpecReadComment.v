(** * Specification: how languages read comments. *)
From Verif Require Import Str SpecStr.

(** Line terminators: Dart; C# (ECMA-334, 6.3.2: also next line, line separator and
    paragraph separator). *)
Definition dart_terminator (c : N) : bool := N.eqb c 10 || N.eqb c 13.
Definition cs_terminator (c : N) : bool :=
  N.eqb c 10 || N.eqb c 13 || N.eqb c 133 || N.eqb c 8232 || N.eqb c 8233.

(** The lines of a text. A carriage return followed by a line feed is one terminator. *)
Fixpoint read_lines (term : N -> bool) (s : str) : list str :=
  match s with
  | [] => [[]]
  | c :: s' =>
      if term c then
        match s' with
        | d :: s'' => if N.eqb c 13 && N.eqb d 10 then [] :: read_lines term s'' else [] :: read_lines term s'
        | [] => [[]; []]
        end
      else
        match read_lines term s' with
        | l :: ls => (c :: l) :: ls
        | [] => [[c]]
        end
  end.
(** A line with nothing but a comment: blanks, then [//] and anything. *)
Definition only_comment (l : str) : Prop :=
  exists blanks rest, l = blanks ++ $"//" ++ rest /\ Forall (fun c => c = 32%N \/ c = 9%N) blanks.

(** What comes after a block comment, from after its opening: the text after the first
    star that is directly followed by a slash. [star]: the character before is a star. *)
Fixpoint after_block (star : bool) (s : str) : option str :=
  match s with
  | [] => None
  | c :: s' => if star && N.eqb c 47 then Some s' else after_block (N.eqb c 42) s'
  end.
(** A text that is one block comment and nothing else. *)
Definition one_block (s : str) : Prop :=
  exists blanks rest, s = blanks ++ $"/*" ++ rest /\ Forall (fun c => c = 32%N \/ c = 9%N) blanks /\
    after_block false rest = Some [].

(** Java replaces Unicode escapes first, in comments too (JLS 3.3): a backslash that is not
    itself escaped by a backslash, one or more [u], and four hexadecimal digits. One that is
    not complete is an error. *)
Inductive escape_state : Type :=
| JText
| JSlash                        (* after a backslash *)
| JMarker                       (* after [u] *)
| JDigits (n : nat) (value : N) (* after [n] digits *).
Definition emit_char (c : N) : option str -> option str := option_map (cons c).
Fixpoint java_escapes (st : escape_state) (s : str) : option str :=
  match s with
  | [] => match st with JText => Some [] | JSlash => Some [92%N] | _ => None end
  | c :: s' =>
      match st with
      | JText => if N.eqb c 92 then java_escapes JSlash s' else emit_char c (java_escapes JText s')
      | JSlash =>
          if N.eqb c 117 then java_escapes JMarker s'
          else emit_char 92 (emit_char c (java_escapes JText s'))
      | JMarker =>
          if N.eqb c 117 then java_escapes JMarker s'
          else match hex_digit c with Some d => java_escapes (JDigits 1 d) s' | None => None end
      | JDigits n v =>
          match hex_digit c with
          | Some d => if n =? 3 then emit_char (16 * v + d) (java_escapes JText s') else java_escapes (JDigits (S n) (16 * v + d)) s'
          | None => None
          end
      end
  end.
Definition contains (part s : str) : Prop := exists before after, s = before ++ part ++ after.
