(** * Specification: in which order the code in quotes runs.

    What a quote does to the environment of the Rust code in it, by its elements
    in the order of the source.  Positions, text and the stream do not matter. *)
From Verif Require Import Str Tokens Values Macro.

Section Order.
Context {LI E : Type}.
Notation quoted := (quoted_item LI E).

(** First to last. *)
Definition one_after_another {A : Type} (f : A -> E -> E) (l : list A) (e : E) : E := fold_left (fun e x => f x e) l e.
(** For each element its binding and the body; the separator between two rounds. *)
Fixpoint rounds (bs : list (E -> E)) (body sep : E -> E) (e : E) : E :=
  match bs with
  | [] => e
  | [b] => body (b e)
  | b :: bs' => rounds bs' body sep (sep (body (b e)))
  end.

(** An element: its expression once, then what is in it. *)
Fixpoint effect (x : quoted) : E -> E :=
  let all := fix all (l : list quoted) (e : E) : E := match l with [] => e | x :: l' => all l' (effect x e) end in
  match x with
  | QText _ _ | QDollar _ | QLiteral _ _ | QQuoted _ _ | QControl _ _ => fun e => e
  | QGroup _ _ qs => all qs
  | QString _ _ ps =>
      (fix alls (l : list (string_item LI E)) (e : E) : E := match l with [] => e | x :: l' => alls l' (effect_in x e) end) ps
  | QEval _ v => fun e => snd (v e)
  | QScope _ code => fun e => snd (code e)
  | QEffect _ f | QLet _ f => f
  | QLoop _ it join body => fun e =>
      rounds (fst (it e)) (all body) (match join with Some (_, js) => all js | None => fun e => e end) (snd (it e))
  | QIf _ cond a b => fun e =>
      if fst (cond e) then all a (snd (cond e))
      else match b with Some b => all b (snd (cond e)) | None => snd (cond e) end
  | QMatch _ sel arms => fun e =>
      (fix pick (arms : list (option cursor * list quoted)) (i : nat) : E :=
         match arms, i with
         | (_, qs) :: _, O => all qs (snd (sel e))
         | _ :: arms', S i' => pick arms' i'
         | [], _ => snd (sel e)
         end) arms (fst (sel e))
  end
with effect_in (x : string_item LI E) : E -> E :=
  match x with
  | PText _ _ | PDollar _ | PConstLit _ _ | PIdent _ _ => fun e => e
  | PConst _ v => fun e => snd (v e)
  | PEval _ qs =>
      (fix all (l : list quoted) (e : E) : E := match l with [] => e | x :: l' => all l' (effect x e) end) qs
  end.
Definition effects (qs : list quoted) : E -> E := one_after_another effect qs.
End Order.

(** Expressions that only write to a log: the log has them in the order of the
    source, each once, at any depth of brackets and in strings. *)
Section Log.
Context {LI A : Type}.
Inductive logs : list (quoted_item LI (list A)) -> list A -> Prop :=
| logs_nil : logs [] []
| logs_text c s qs l : logs qs l -> logs (QText c s :: qs) l
| logs_value c v a qs l : (forall e, snd (v e) = e ++ [a]) -> logs qs l -> logs (QEval c v :: qs) (a :: l)
| logs_scope c v a qs l : (forall e, snd (v e) = e ++ [a]) -> logs qs l -> logs (QScope c v :: qs) (a :: l)
| logs_let c f a qs l : (forall e, f e = e ++ [a]) -> logs qs l -> logs (QLet c f :: qs) (a :: l)
| logs_group c d inner qs l l' : logs inner l -> logs qs l' -> logs (QGroup c d inner :: qs) (l ++ l')
| logs_string c p ps qs l l' : logs_in ps l -> logs qs l' -> logs (QString c p ps :: qs) (l ++ l')
with logs_in : list (string_item LI (list A)) -> list A -> Prop :=
| logs_end : logs_in [] []
| logs_word c s ps l : logs_in ps l -> logs_in (PText c s :: ps) l
| logs_name c s ps l : logs_in ps l -> logs_in (PIdent c s :: ps) l
| logs_const c v a ps l : (forall e, snd (v e) = e ++ [a]) -> logs_in ps l -> logs_in (PConst c v :: ps) (a :: l)
| logs_code c qs ps l l' : logs qs l -> logs_in ps l' -> logs_in (PEval c qs :: ps) (l ++ l').
Scheme logs_mind := Minimality for logs Sort Prop with logs_in_mind := Minimality for logs_in Sort Prop.
End Log.
