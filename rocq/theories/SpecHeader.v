(** * Specification: headers of files. *)
From Verif Require Import SpecFmt Str Tokens SpecTokens Fmt SpecFile.

(** The two streams' files consist of the same header stream, followed by the
    stream itself, both written with the same format. *)
Definition same_header {LI C F} (L : lang_def LI C F) (c : C) (t1 t2 : tokens LI) : Prop :=
  exists header f, ld_format_file L t1 c = [(header, f); (t1, f)] /\
                   ld_format_file L t2 c = [(header, f); (t2, f)].
(** Their texts differ in the bodies only. *)
Definition same_header_text {LI C F} (L : lang_def LI C F) cfg (c : C) (t1 t2 : tokens LI) : Prop :=
  exists header f, forall body1 body2,
    body_of L cfg c f t1 body1 -> body_of L cfg c f t2 body2 ->
    file_renders L cfg c t1 (file_text (c_newline cfg) header body1) /\
    file_renders L cfg c t2 (file_text (c_newline cfg) header body2).

(** ** Repeated imports *)

(** Names with the same text are given as the same kind of string throughout. *)
Definition one_kind {LI} (names : LI -> list item_str) (us : list LI) : Prop :=
  forall i j a b, In i us -> In j us -> In a (names i) -> In b (names j) -> content a = content b -> a = b.
Definition opt_name (a : option item_str) : list item_str := match a with Some a => [a] | None => [] end.
(** Names as texts. *)
Definition opt_text (a : option item_str) : option str := option_map content a.
Definition as_text (k : item_str * option item_str) : str * option str := (content (fst k), opt_text (snd k)).

(** ** Header and body *)

(** The file of a stream: header lines that do not depend on how the body
    renders, the last of which is not blank; a blank line; the body; a newline. *)
Definition header_then_body {LI C F} (L : lang_def LI C F) cfg (c : C) (t : tokens LI) : Prop :=
  exists header f, (header <> [] -> last header [] <> []) /\
    forall body, body_of L cfg c f t body ->
      file_renders L cfg c t (file_text (c_newline cfg) header body).

(** The same for every stream that renders.  Below a header the body loses the
    spaces that a blank line request comes after before its first text; nothing
    else changes, and the body is unchanged exactly if there are none. *)
Definition header_then_any_body {LI C F} (L : lang_def LI C F) cfg (c : C) (t : tokens LI) : Prop :=
  exists header f, (header <> [] -> last header [] <> []) /\
    forall body, renders L cfg c f t body ->
      (header = [] \/ body = [] -> file_renders L cfg c t (file_text (c_newline cfg) header body)) /\
      (header <> [] -> body <> [] -> exists ws indentation rest,
         leads (l_format_item (ld_ops L c f)) t ws /\
         indentation = indent_text (c_indentation cfg) (level_of ws) /\
         body = indentation ++ repeat 32%N (overtaken ws) ++ rest /\
         file_renders L cfg c t (file_text (c_newline cfg) header (indentation ++ rest)) /\
         (file_renders L cfg c t (file_text (c_newline cfg) header body) <-> overtaken ws = 0)).
