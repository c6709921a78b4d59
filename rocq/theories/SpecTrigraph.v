(** * Specification: trigraphs.  Before C23, C replaces certain sequences of three
    characters by one before it reads a source file (ISO C11, 5.1.1.2 and 5.2.1.1). *)
From Verif Require Import Str SpecLex.

Definition trigraph (c : N) : option N :=
  option_map snd (find (fun p => N.eqb (fst p) c) [(chr "=", chr "#"); (chr "/", 92%N); (39%N, 94%N); (chr "(", chr "["); (chr ")", chr "]");
          (chr "!", chr "|"); (chr "<", chr "{"); (chr ">", chr "}"); (chr "-", chr "~")]).
Fixpoint trigraphs (s : str) : str :=
  match s with
  | [] => []
  | a :: r =>
      match r with
      | b :: c :: r' =>
          match (if N.eqb a 63 && N.eqb b 63 then trigraph c else None) with
          | Some d => d :: trigraphs r'
          | None => a :: trigraphs r
          end
      | _ => a :: trigraphs r
      end
  end.
(** What a literal denotes then; the text after it is translated as well. *)
Definition trigraph_denotes (src : str) (v : list N) : Prop :=
  forall rest, read_literal c_grammar (trigraphs (src ++ rest)) = Some (v, trigraphs rest).
(** None of the sequences occurs, but for the one with an apostrophe. *)
Definition no_trigraph (s : str) : Prop :=
  forall p c q, s = p ++ 63%N :: 63%N :: c :: q -> c <> 39%N -> trigraph c = None.
