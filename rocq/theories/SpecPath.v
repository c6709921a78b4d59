(** * Specification: where the text of a path leads. *)
From Verif Require Import Str.

(** The segments of a path: the texts between slashes. *)
Fixpoint segments (s : str) : list str :=
  match s with
  | [] => [[]]
  | c :: s' =>
      if N.eqb c 47 then [] :: segments s'
      else match segments s' with
           | [] => [[c]]
           | w :: ws => (c :: w) :: ws
           end
  end.

(** A place, seen from the directory all paths are relative to: some levels
    above it, then down by name. *)
Definition place : Type := nat * list str.
Definition up (at_ : place) : place :=
  match snd at_ with
  | [] => (S (fst at_), [])
  | names => (fst at_, removelast names)
  end.
(** One segment: [.] and nothing stay, [..] goes up, a name goes down. *)
Definition step (at_ : place) (seg : str) : place :=
  if str_eqb seg [] || str_eqb seg $"." then at_
  else if str_eqb seg $".." then up at_
  else (fst at_, snd at_ ++ [seg]).
(** Where a path leads from a place, and from the start. *)
Definition follow (at_ : place) (text : str) : place := fold_left step (segments text) at_.
Definition place_of (text : str) : place := follow (0, []) text.

(** Names that may occur in a path. *)
Definition path_name (s : str) : Prop := s <> [] /\ s <> $"." /\ s <> $".." /\ ~ In 47%N s.

(** A specifier that starts with [./] or [../]: JavaScript resolves it from the
    importing module.  Others name packages. *)
Definition relative_specifier (text : str) : Prop :=
  exists seg segs, segments text = seg :: segs /\ (seg = $"." \/ seg = $"..").
(** A place inside, or equal to, another. *)
Definition inside (outer inner : place) : Prop :=
  fst outer = fst inner /\ exists rest, snd inner = snd outer ++ rest.
