(** * Specification: code with interpolated strings.

    Shares with the model the item type of [Tokens.v]. *)
From Verif Require Import Str Tokens.

(** Text, and string literals made of constant and evaluated parts. *)
Inductive code : Type :=
| Text (s : item_str)
| Interpolated (ps : list code_part)
with code_part : Type :=
| Const (s : item_str)
| Eval (cs : list code).

Definition is_eval (p : code_part) : bool :=
  match p with Eval _ => true | Const _ => false end.

(** The items that stand for code in a stream. *)
Section Items.
Context {LI : Type}.
Fixpoint code_items (c : code) : list (item LI) :=
  match c with
  | Text s => [Literal s]
  | Interpolated ps => OpenQuote (existsb is_eval ps) :: flat_map code_part_items ps ++ [CloseQuote]
  end
with code_part_items (p : code_part) : list (item LI) :=
  match p with
  | Const s => [Literal s]
  | Eval cs => OpenEval :: flat_map code_items cs ++ [CloseEval]
  end.
End Items.

(** The source text of code: [quote], given whether there are evaluations;
    [eval], given the evaluated code and its source; [escape] for constants. *)
Section Source.
Context (quote : bool -> str) (eval : list code -> str -> str) (escape : str -> str).
Fixpoint code_source (c : code) : str :=
  match c with
  | Text s => content s
  | Interpolated ps =>
      quote (existsb is_eval ps) ++ flat_map code_part_source ps ++ quote (existsb is_eval ps)
  end
with code_part_source (p : code_part) : str :=
  match p with
  | Const s => escape (content s)
  | Eval cs => eval cs (flat_map code_source cs)
  end.
End Source.

(** JavaScript: backticks when there are evaluations, [${..}]. *)
Definition js_code_quote (has_eval : bool) : str := if has_eval then $"`" else [34%N].
Definition js_eval (_ : list code) (src : str) : str := $"${" ++ src ++ $"}".
(** Dart: [$name] for a single text, [${..}] otherwise. *)
Definition double_quote (_ : bool) : str := [34%N].
Definition dart_eval (cs : list code) (src : str) : str :=
  match cs with [Text s] => $"$" ++ content s | _ => $"${" ++ src ++ $"}" end.
(** The other languages have no evaluation syntax. *)
Definition no_eval (_ : list code) (src : str) : str := src.
