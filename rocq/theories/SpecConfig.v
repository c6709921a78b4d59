(** * Specification: what the settings of a formatter change. *)
From Verif Require Import Str Tokens SpecTokens Fmt SpecFmt SpecBuild FmtConfig.

(** The indentation and the newline that were set last. *)
Definition set_indentation (s : setting) : option indentation_kind :=
  match s with SetIndentation k => Some k | _ => None end.
Definition set_newline (s : setting) : option str :=
  match s with SetNewline nl => Some nl | _ => None end.
Definition chosen {A} (f : setting -> option A) (default : A) (ss : list setting) : A :=
  match latest f ss with Some x => x | None => default end.

(** A line of code: its level and what is on it. *)
Definition styled (ind : indentation_kind) (l : Z * str) : str := indent_text ind (fst l) ++ snd l.

(** What is open after some items. *)
Fixpoint brackets {LI} (b : list bracket) (xs : list (item LI)) : option (list bracket) :=
  match xs with
  | [] => Some b
  | x :: xs' => match step_bracket b x with Some b' => brackets b' xs' | None => None end
  end.
(** No quoted value is inside of a string: where a quote opens, the innermost that
    is open is no string. *)
Definition flat_quotes {LI} (xs : list (item LI)) : Prop :=
  forall pre e post b, xs = pre ++ OpenQuote e :: post -> brackets [] pre = Some b ->
  match b with BQuote :: _ => False | _ => True end.
(** Nothing is left open. *)
Definition closed_quotes {LI} (xs : list (item LI)) : Prop := brackets [] xs = Some [].

(** One file for all settings: there are lines of code, each with a level, such
    that whatever is set, in whatever order, the file consists of these lines.  A
    line starts with the indentation that was set last, for its level; between
    the lines, and at the end, is the newline that was set last. *)
Definition one_file {LI C F} (L : lang_def LI C F) (default : indentation_kind) (c : C) (t : tokens LI) : Prop :=
  exists (lines : list (Z * str)) (ok : bool), forall ss,
    let ind := chosen set_indentation default ss in
    let nl := chosen set_newline [10%N] ss in
    outcome (format_file L string_writer (configured L ss) t c (formatter_new [])) =
      (join nl (map (styled ind) lines) ++ (if ok then nl else []), ok) /\
    into_vec (fst (outcome (format_file L vec_writer (configured L ss) t c (formatter_new vec_new)))) =
      map (styled ind) lines /\
    snd (outcome (format_file L vec_writer (configured L ss) t c (formatter_new vec_new))) = ok.
