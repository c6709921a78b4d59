(** * Specification vocabulary for errors about indentation. *)
From Verif Require Import Str Macro SpecMacro.

(** What to do about a line: move it by [n] columns, to the left or to the right. *)
Inductive advice : Type := Less (n : nat) | More (n : nat).
Definition follow (a : advice) (col : nat) : nat := match a with Less n => col - n | More n => col + n end.
Definition says_advice (a : advice) (msg : str) : Prop :=
  exists n word, msg = $"expected " ++ dec (N.of_nat n) ++ $" " ++ word ++ (if n =? 1 then $" space" else $" spaces") ++ $" of indentation" /\
  0 < n /\ match a with Less m => m = n /\ word = $"less" | More m => m = n /\ word = $"more" end.

(** Tokens do not go back to earlier lines. *)
Fixpoint in_order (ts : list cursor) : Prop :=
  match ts with
  | a :: ((b :: _) as ts') => p_line (c_end a) <= p_line (c_start b) /\ in_order ts'
  | _ => True
  end.
