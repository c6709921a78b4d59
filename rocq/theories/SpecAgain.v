(** * Specification vocabulary for quoting what a quote has written. *)
From Verif Require Import Str SpecStr Fmt SpecReread.

(** A word: it starts with something visible and is on one line. *)
Definition solid (w : str) : Prop := match w with [] => False | c :: _ => is_white c = false end /\ ~ In 10%N w.
(** A text read as several words, next to each other or with single spaces between
    them. *)
Inductive pieces : str -> list str -> Prop :=
| pieces_one w : solid w -> pieces w [w]
| pieces_more w g r ws : solid w -> g = [] \/ g = $" " -> pieces r ws -> pieces (w ++ g ++ r) (w :: ws).
(** Line terminators of source text. *)
Definition ends_lines (nl : str) : Prop := nl = [10%N] \/ nl = [13%N; 10%N].
