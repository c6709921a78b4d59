(** * Specification vocabulary for [break] and [continue] in quoted loops. *)
From Verif Require Import Str Tokens SpecTokens Values Macro SpecMacro Exit SpecExit Jump.

(** The rounds of a loop, as in Rust. *)
Fixpoint rounds {S : Type} (how : S -> option jump) (back : S -> S) (fs : list (S -> S)) (s : S) : S :=
  match fs with
  | [] => s
  | f :: fs' =>
      match how (f s) with
      | None => rounds how back fs' (f s)
      | Some Continues => rounds how back fs' (back (f s))
      | Some Breaks => back (f s)
      | Some Leaves => f s
      end
  end.

Section Spec.
Context {LI E : Type} (how : E -> option jump) (back : E -> E).
Notation quoted := (quoted_item LI E).
Notation state := (E * tokens LI)%type.

(** Quote into the stream, until the quote is left. *)
Definition runs_jump (qs : list quoted) (st : state) : state :=
  match quote_in_jump how back qs (fst st) (snd st) with Some st' => st' | None => st end.
Definition state_away (st : state) : bool := away how (fst st).
Definition state_how (st : state) : option jump := how (fst st).
Definition state_back (st : state) : state := (back (fst st), snd st).

(** What is done in a round: bind the element, quote the body; in a joined loop, the
    separator unless it is the last element. *)
Definition round (body : list quoted) (b : E -> E) : list (state -> state) := [sets b; runs_jump body].
Fixpoint joined_rounds (join body : list quoted) (bs : list (E -> E)) : list (list (state -> state)) :=
  match bs with
  | [] => []
  | [b] => [round body b]
  | b :: bs' => (round body b ++ [runs_jump join]) :: joined_rounds join body bs'
  end.

(** With this element, the [let] [f] that a body starts with ends the round, and
    whichever element is next does not notice. *)
Definition skips (f : E -> E) (next : list (E -> E)) (b : E -> E) : Prop :=
  forall e, how e = None -> how (b e) = None /\ how (f (b e)) = Some Continues /\
    forall b', In b' next -> b' (back (f (b e))) = b' e.
End Spec.
