(** * Specification vocabulary for quotes that are left early. *)
From Verif Require Import Str Tokens SpecTokens Values Macro SpecMacro Exit.

(** One after the other until one leaves. *)
Fixpoint in_turn_until {S : Type} (gone : S -> bool) (fs : list (S -> S)) (s : S) : S :=
  match fs with
  | [] => s
  | f :: fs' => if gone (f s) then f s else in_turn_until gone fs' (f s)
  end.

Section Spec.
Context {LI E : Type} (gone : E -> bool).
Notation quoted := (quoted_item LI E).

(** Quote into the stream, until the quote is left. *)
Definition runs_until (qs : list quoted) (st : E * tokens LI) : E * tokens LI :=
  match quote_in_until gone qs (fst st) (snd st) with Some st' => st' | None => st end.
(** It was left. *)
Definition was_left (st : E * tokens LI) : bool := gone (fst st).
(** Change the environment. *)
Definition sets (f : E -> E) (st : E * tokens LI) : E * tokens LI := (f (fst st), snd st).

(** What precedes a token at [c] that follows [pre], and what separates it from
    it. *)
Definition up_to (pre : list quoted) (c : cursor) (e : E) : list (chunk LI) :=
  m_chunks (enter_chunks c (fold_left (fun st x => mean x st) pre (mk_mstate None [] e))).
(** Without the static text at the end. *)
Fixpoint settled (cs : list (chunk LI)) : list (chunk LI) :=
  match cs with
  | [] => []
  | k :: cs' =>
      match settled cs', k with
      | [], KText _ => []
      | r, _ => k :: r
      end
  end.
End Spec.
