(** * Specification: generated files.

    Refers to the observable result of formatting, not to how headers are
    built. *)
From Verif Require Export SpecOrder.
From Verif Require Import Tokens SpecTokens TokensRun Values Fmt SpecFmt Order.

(** What formatting a stream, or a stream as a file, writes to an empty
    string. *)
Definition renders {LI C F} (L : lang_def LI C F) cfg (c : C) (f : F) (t : tokens LI)
    (s : str) : Prop :=
  outcome (format L string_writer cfg t c f (formatter_new [])) = (s, true).
Definition file_renders {LI C F} (L : lang_def LI C F) cfg (c : C) (t : tokens LI)
    (s : str) : Prop :=
  outcome (format_file L string_writer cfg t c (formatter_new [])) = (s, true).

(** Lines one below the other. *)
Fixpoint stack (nl : str) (lines : list str) : str :=
  match lines with
  | [] => []
  | [l] => l
  | l :: ls => l ++ nl ++ stack nl ls
  end.

(** A file: header lines, a blank line, the body, a final newline.  The blank
    line is only there between a header and a body. *)
Definition file_text (nl : str) (header : list str) (body : str) : str :=
  match header, body with
  | [], _ => body
  | _, [] => stack nl header
  | _, _ => stack nl header ++ nl ++ nl ++ body
  end ++ nl.

(** The items a stream uses: rendered or merely registered. *)
Definition uses {LI} (t : tokens LI) : list LI := imports_of (items t).

(** Items that write text when they come first. *)
Definition begins_text {LI} (fmt_item : LI -> list str) (x : item LI) : Prop :=
  match x with
  | Literal s => content s <> []
  | Lang _ l => concat (fmt_item l) <> []
  | OpenQuote _ => True
  | _ => False
  end.

(** Before its first text a stream has no space that is followed by a blank
    line request. *)
Definition clean_start {LI} (fmt_item : LI -> list str) (t : tokens LI) : Prop :=
  exists ws x post, items t = ws ++ x :: post /\ begins_text fmt_item x /\
    Forall (fun y => is_white y = true \/ exists p l, y = Register p l) ws /\
    (forall a b, ws = a ++ Space :: b -> ~ In Line b).

(** Items that write nothing when nothing was written before. *)
Definition silent {LI} (fmt_item : LI -> list str) (x : item LI) : Prop :=
  match x with
  | Literal s => content s = []
  | Lang _ l => concat (fmt_item l) = []
  | OpenQuote _ | CloseQuote | OpenEval | CloseEval => False
  | _ => True
  end.

(** What a stream has before its first text. *)
Definition leads {LI} (fmt_item : LI -> list str) (t : tokens LI) (ws : list (item LI)) : Prop :=
  exists x post, items t = ws ++ x :: post /\ begins_text fmt_item x /\ Forall (silent fmt_item) ws.

(** The indentation level it asks for, and its spaces that a blank line request
    comes after. *)
Fixpoint level_of {LI} (ws : list (item LI)) : Z :=
  match ws with
  | [] => 0
  | Indentation n :: ws => n + level_of ws
  | _ :: ws => level_of ws
  end.
Definition is_line {LI} (x : item LI) : bool := match x with Line => true | _ => false end.
Fixpoint overtaken {LI} (ws : list (item LI)) : nat :=
  match ws with
  | [] => 0
  | Space :: ws => (if existsb is_line ws then 1 else 0) + overtaken ws
  | _ :: ws => overtaken ws
  end.

(** What is left of a body below a header: all of it except these spaces. *)
Definition carried {LI} (fmt_item : LI -> list str) (ind : indentation_kind) (t : tokens LI)
    (body body' : str) : Prop :=
  body = [] /\ body' = [] \/
  exists ws rest, leads fmt_item t ws /\ rest <> [] /\
    body = indent_text ind (level_of ws) ++ repeat 32%N (overtaken ws) ++ rest /\
    body' = indent_text ind (level_of ws) ++ rest.

(** A file with a body that is [body] on its own and [body'] below a header. *)
Definition placed_file (nl : str) (header : list str) (body body' : str) : str :=
  file_text nl header (match header with [] => body | _ => body' end).

(** A stream with just one reference. *)
Definition only {LI} (l : LI) : tokens LI := build [CItem (Lang 0 l)].

(** ** Sorting *)

(** Texts in lexicographic order of code points. *)
Definition text_before (a b : str) : Prop :=
  exists p a' b', a = p ++ a' /\ b = p ++ b' /\
  match a', b' with
  | [], _ :: _ => True
  | x :: _, y :: _ => (x < y)%N
  | _, [] => False
  end.

(** Names: owned strings before static ones, each by text. *)
Definition name_before (a b : item_str) : Prop :=
  match a, b with
  | Box _, Static _ => True
  | Static _, Box _ => False
  | Box x, Box y | Static x, Static y => text_before x y
  end.
Definition opt_before {A} (before : A -> A -> Prop) (a b : option A) : Prop :=
  match a, b with
  | None, Some _ => True
  | Some x, Some y => before x y
  | _, None => False
  end.
Definition bool_before (a b : bool) : Prop := a = false /\ b = true.
Definition pair_before {A B} (before1 : A -> A -> Prop) (before2 : B -> B -> Prop)
    (a b : A * B) : Prop :=
  before1 (fst a) (fst b) \/ fst a = fst b /\ before2 (snd a) (snd b).

(** In strictly increasing order, so each element once. *)
Definition sorted {A} (before : A -> A -> Prop) (l : list A) : Prop :=
  StronglySorted before l.

(** The names are all owned, or all static. *)
Definition same_kind (a b : item_str) : Prop :=
  match a, b with
  | Box _, Box _ | Static _, Static _ => True
  | _, _ => False
  end.

(** The first, in the given order, among the eligible elements with its name. *)
Definition first_named {K} (before : K -> K -> Prop) (eligible : K -> Prop) (name : K -> str)
    (from : K -> Prop) (k : K) : Prop :=
  from k /\ eligible k /\
  forall k', from k' -> eligible k' -> name k' = name k -> k' = k \/ before k k'.

(** A stream that renders as [body] and, unless that is empty, has a clean
    start. *)
Definition body_of {LI C F} (L : lang_def LI C F) cfg (c : C) (f : F) (t : tokens LI)
    (body : str) : Prop :=
  renders L cfg c f t body /\
  (body <> [] -> clean_start (l_format_item (ld_ops L c f)) t).

(** The literal a language writes for a text. *)
Definition literal_of {LI C F} (L : lang_def LI C F) (lit : str -> str) : Prop :=
  forall s, to_string L (append (VQuoted (VStr s)) new) = Some (lit s).

(** A line one level deeper; blank lines stay empty. *)
Definition indent_line (p l : str) : str :=
  match l with [] => [] | _ => p ++ l end.

(** Sequences that start and end with visible text. *)
Definition visible_ends (l : list atom) : Prop :=
  (exists a l', l = a :: l' /\ visible a = true) /\ (exists l' a, l = l' ++ [a] /\ visible a = true).

(** Indentation that starts and ends at level zero and is never negative. *)
Definition level_body (l : list atom) : Prop :=
  net l = 0%Z /\ forall p q, l = p ++ q -> (0 <= net p)%Z.
