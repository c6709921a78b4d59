(** * Specification: comments. *)
From Verif Require Import Str Tokens SpecTokens Fmt SpecFmt SpecFile TokensRun.

(** A comment line: the text after the prefix and a space; just the prefix if
    there is no text. *)
Definition comment_line (prefix : str) (l : item_str) : str :=
  match content l with [] => prefix | s => prefix ++ $" " ++ s end.
Definition line_comment (prefix : str) (ls : list item_str) : list str := map (comment_line prefix) ls.
(** A block: nothing at all for an empty list. *)
Definition block_comment (ls : list item_str) : list str :=
  match ls with
  | [] => []
  | _ => $"/**" :: line_comment $" *" ls ++ [$" */"]
  end.

(** Each line as a text of its own, on its own line. *)
Definition own_lines (lines : list str) : list act := flat_map (fun l => [TPush; TText l]) lines.

(** The next text, if there is one, starts a line. *)
Definition next_starts_line (h : list act) : Prop :=
  forall ws s h', h = ws ++ TText s :: h' -> (forall s', ~ In (TText s') ws) ->
  0 < p_breaks (fold_left (fun p a => request a p) ws nothing).
Definition texts_not_empty (h : list act) : Prop := forall s, In (TText s) h -> s <> [].

(** [helper], called between any two histories of calls, writes [lines ls] on
    lines of their own (indented like any other line) between what the histories
    write. *)
Definition writes_comment {LI C F} (L : lang_def LI C F)
    (helper : list item_str -> tokens LI -> tokens LI) (lines : list item_str -> list str) : Prop :=
  forall cfg c f before after ls,
  texts_not_empty before -> texts_not_empty after -> next_starts_line after ->
  renders L cfg c f (run (map act_call after) (helper ls (build (map act_call before))))
    (text (c_newline cfg)
       (history_layout (c_indentation cfg) (before ++ own_lines (lines ls) ++ after))).
