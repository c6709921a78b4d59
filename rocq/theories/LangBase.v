(** * Common parts of the language models.

    The language back ends build their headers with [quote!] and [quote_in!].
    The models below contain the calls on the target stream that the macro
    generates for those invocations; [MacroLangs.v] derives them from the model
    of the macro. *)
From Verif Require Export Order Values Fmt Quote.

Section Base.
Context {LI : Type}.
Implicit Types t : tokens LI.

(** Static text of a quote (genco-macros/src/static_buffer.rs:31-39). *)
Definition st (s : str) t : tokens LI := append (VItemStr (Static s)) t.
(** [$x] for an [ItemStr] (src/tokens/item_str.rs:24-40). *)
Definition istr (s : item_str) t : tokens LI := append (VItemStr s) t.
(** [$x] for a [&str] or [String] (src/tokens/format_into.rs:190-246). *)
Definition txt (s : str) t : tokens LI := append (VStr s) t.
(** [$(quoted(x))] for an [ItemStr] (src/tokens/quoted.rs:66-76). *)
Definition quoted_istr (s : item_str) t : tokens LI :=
  append (VQuoted (VItemStr s)) t.

(** [for x in xs { .. }] on the target stream. *)
Definition for_each {A} (f : A -> tokens LI -> tokens LI) (xs : list A) t
  : tokens LI := fold_left (fun t x => f x t) xs t.

End Base.

(** A language that only overrides [write_quoted] and has its own items. *)
Definition lang_ops_of {LI} (write_quoted : str -> list str)
    (fmt_item : LI -> list str) : lang_ops LI := {|
  l_open_quote := fun _ => default_quote;
  l_close_quote := fun _ => default_quote;
  l_string_eval_literal := fun s => [s];
  l_start_string_eval := [];
  l_end_string_eval := [];
  l_write_quoted := write_quoted;
  l_format_item := fmt_item
|}.

(** [Option<&ItemStr>] and the like: the text. *)
Definition opt_text (o : option item_str) : option str := option_map content o.

(** Equality of optional texts. *)
Definition opt_str_eqb (a b : option str) : bool :=
  match a, b with
  | Some x, Some y => str_eqb x y
  | None, None => true
  | _, _ => false
  end.
