(** * Specification: what the strings of quotes say.

    Strings [$[str](..)] of text, names and constants. *)
From Verif Require Import Str Tokens Macro SpecMacro SpecQuote SpecTemplate.

Section Source.
Context {LI E : Type}.
(** Text, [$$], [$[const]("..")] and [$name]. *)
Definition simple_part (x : string_item LI E) : bool :=
  match x with PText _ _ | PDollar _ | PConstLit _ _ | PIdent _ _ => true | _ => false end.
(** The source from column [at_] to [stop], but for the forms with a dollar sign;
    [before] is the text since the last name. *)
Fixpoint source_says (src : str) (before : str) (at_ : nat) (ps : list (string_item LI E)) (stop : nat)
  : list says :=
  match ps with
  | [] => [Says (before ++ slice src at_ stop)]
  | x :: ps' =>
      let before := before ++ slice src at_ (p_col (c_start (string_cursor x))) in
      let b := p_col (c_end (string_cursor x)) in
      match x with
      | PIdent _ name => Says before :: Does name :: source_says src [] b ps' stop
      | PDollar _ => source_says src (before ++ $"$") b ps' stop
      | PConstLit _ s => source_says src (before ++ s) b ps' stop
      | _ => source_says src (before ++ slice src (p_col (c_start (string_cursor x))) b) b ps' stop
      end
  end.
End Source.

(** All text is fine, and so are the names, given the character after them if it is
    text. *)
Fixpoint readable (text_ok : str -> Prop) (name_ok : str -> option N -> Prop) (out : list says) : Prop :=
  match out with
  | [] => True
  | Says s :: out' => text_ok s /\ readable text_ok name_ok out'
  | Does n :: out' =>
      name_ok n (match out' with Says s :: _ => hd_error s | _ => None end) /\ readable text_ok name_ok out'
  end.
