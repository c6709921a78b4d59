(** * Specification: quotes without line information. *)
From Verif Require Import Str Tokens SpecTokens TokensRun Values Fmt SpecFmt Macro SpecMacro Parse SpecParse SpecQuote.

(** How the compiler shows the span of a token from byte [a] to byte [b]. *)
Definition span_text (before : str) (a b : N) : str :=
  before ++ $"(" ++ dec a ++ $".." ++ dec b ++ $")".

(** All of a token is on a line. *)
Definition on_line (row : nat) (c : cursor) : Prop :=
  p_line (c_start c) = row /\ p_line (c_end c) = row.
(** All tokens at any depth. *)
Fixpoint tree_all (P : cursor -> Prop) (t : tree) : Prop :=
  match t with
  | TIdent c _ | TLit c _ | TStr c _ _ | TChar c _ _ | TPunct c _ _ => P c
  | TGroup c _ ts =>
      P c /\ (fix all (l : list tree) : Prop :=
                match l with [] => True | t :: l' => tree_all P t /\ all l' end) ts
  end.
Definition all_on_line (row : nat) (ts : list tree) : Prop := Forall (tree_all (on_line row)) ts.

(** No request for a line break or another indentation. *)
Definition no_break {LI} (x : item LI) : Prop :=
  match x with Push | Line | Indentation _ => False | _ => True end.
Definition unbroken {LI} (t : tokens LI) : Prop := Forall no_break (items t).

Section Spec.
Context {LI E : Type}.
Notation quoted := (quoted_item LI E).

(** What is inserted leaves a stream without line breaks without them. *)
Definition calm_value (v : @expr E (value LI)) : Prop :=
  forall e t, unbroken t -> unbroken (append (fst (v e)) t).
Definition calm_scope (code : @expr E (list (call LI))) : Prop :=
  forall e t, unbroken t -> unbroken (run (fst (code e)) t).

(** [$['\r']] or [$['\n']] occurs, at any depth. *)
Fixpoint breaks (x : quoted) : bool :=
  match x with
  | QControl _ k => match k with KSpace => false | _ => true end
  | QGroup _ _ qs => existsb breaks qs
  | QString _ _ ps => existsb breaks_in ps
  | QLoop _ _ join body =>
      match join with Some (_, js) => existsb breaks js | None => false end || existsb breaks body
  | QIf _ _ a b => existsb breaks a || match b with Some b => existsb breaks b | None => false end
  | QMatch _ _ arms => existsb (fun arm => existsb breaks (snd arm)) arms
  | _ => false
  end
with breaks_in (x : string_item LI E) : bool :=
  match x with PEval _ qs => existsb breaks qs | _ => false end.
(** The quote asks for no line breaks by other means than its layout. *)
Definition calm (qs : list quoted) : Prop :=
  Forall (every_value calm_value calm_scope calm_value) qs /\ existsb breaks qs = false.

(** Words, and a space where there is something between their places. *)
Fixpoint spaced_words (prev : option nat) (ws : list (nat * nat * str)) : str :=
  match ws with
  | [] => []
  | (a, b, w) :: ws' =>
      match prev with Some e => if e <? a then $" " else [] | None => [] end ++ w ++
      spaced_words (Some b) ws'
  end.
End Spec.
