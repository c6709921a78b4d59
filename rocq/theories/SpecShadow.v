(** * Specification: quotes whose bodies bind no name that is in use outside.

    [fits outer vs x vs'] says: where the names [vs] are in scope, of them [outer]
    from outside of the innermost body, the element [x] uses names in scope only,
  binds none of [outer], and leaves the names [vs'] in scope.  Names may be bound
    again in the body that binds them.  Loops with a separator are not where a name
    [__it] is in scope. *)
From Verif Require Import Str Tokens SpecTokens Values Macro.

Section Spec.
Context {LI value store : Type}.
Notation names := (str -> option value).
Notation env := (names * store)%type.

Definition alike (vs : list str) (e e' : env) : Prop :=
  (forall x, In x vs -> fst e x = fst e' x) /\ snd e = snd e'.
(** Rust code that uses [vs] only, and binds [ns] only. *)
Definition binds {A : Type} (vs ns : list str) (f : env -> A * env) : Prop :=
  (forall e x, ~ In x ns -> fst (snd (f e)) x = fst e x) /\
  (forall e e', alike vs e e' -> fst (f e) = fst (f e') /\ alike (ns ++ vs) (snd (f e)) (snd (f e'))).
Definition uses {A : Type} (vs : list str) (f : env -> A * env) : Prop := binds vs [] f.
(** Code without a value. *)
Definition only (f : env -> env) (e : env) : unit * env := (tt, f e).
(** What a variable [__it] that is no value of the user's does to names. *)
Definition own_it (n : names) : names := fun x => if str_eqb x $"__it" then None else n x.
Definition apart_from (vs ns : list str) : Prop := forall x, In x ns -> ~ In x vs.

Inductive fits : list str -> list str -> quoted_item LI env -> list str -> Prop :=
| fits_text outer vs c s : fits outer vs (QText c s) vs
| fits_dollar outer vs c : fits outer vs (QDollar c) vs
| fits_literal outer vs c s : fits outer vs (QLiteral c s) vs
| fits_quoted outer vs c s : fits outer vs (QQuoted c s) vs
| fits_group outer vs c d qs vs' : fits_all outer vs qs vs' -> fits outer vs (QGroup c d qs) vs'
| fits_string outer vs c paren ps vs' : fits_string_all outer vs ps vs' -> fits outer vs (QString c paren ps) vs'
| fits_control outer vs c k : fits outer vs (QControl c k) vs
| fits_eval outer vs c v : uses vs v -> fits outer vs (QEval c v) vs
| fits_scope outer vs c code : uses vs code -> fits outer vs (QScope c code) vs
| fits_effect outer vs c f : uses vs (only f) -> fits outer vs (QEffect c f) vs
| fits_loop outer vs c it join body ns vs' :
    uses vs it -> apart_from vs ns ->
    (forall e b, In b (fst (it e)) -> binds vs ns (only b)) ->
    fits_all vs (ns ++ vs) body vs' ->
    fits_join vs' join ->
    fits outer vs (QLoop c it join body) vs
| fits_if outer vs c cond a b ns vs' :
    binds vs ns cond -> apart_from vs ns ->
    fits_all vs (ns ++ vs) a vs' -> fits_else vs b ->
    fits outer vs (QIf c cond a b) vs
| fits_match outer vs c sel arms ns :
    binds vs ns sel -> apart_from vs ns -> fits_arms vs (ns ++ vs) arms ->
    fits outer vs (QMatch c sel arms) vs
| fits_let outer vs c f ns :
    binds vs ns (only f) -> apart_from outer ns -> fits outer vs (QLet c f) (ns ++ vs)
with fits_all : list str -> list str -> list (quoted_item LI env) -> list str -> Prop :=
| fits_nil outer vs : fits_all outer vs [] vs
| fits_cons outer vs x vs1 qs vs2 :
    fits outer vs x vs1 -> fits_all outer vs1 qs vs2 -> fits_all outer vs (x :: qs) vs2
with fits_string_part : list str -> list str -> string_item LI env -> list str -> Prop :=
| fits_stext outer vs c s : fits_string_part outer vs (PText c s) vs
| fits_sdollar outer vs c : fits_string_part outer vs (PDollar c) vs
| fits_sconstlit outer vs c s : fits_string_part outer vs (PConstLit c s) vs
| fits_sconst outer vs c v : uses vs v -> fits_string_part outer vs (PConst c v) vs
| fits_sident outer vs c s : fits_string_part outer vs (PIdent c s) vs
| fits_seval outer vs c qs vs' : fits_all outer vs qs vs' -> fits_string_part outer vs (PEval c qs) vs'
with fits_string_all : list str -> list str -> list (string_item LI env) -> list str -> Prop :=
| fits_snil outer vs : fits_string_all outer vs [] vs
| fits_scons outer vs x vs1 ps vs2 :
    fits_string_part outer vs x vs1 -> fits_string_all outer vs1 ps vs2 -> fits_string_all outer vs (x :: ps) vs2
with fits_join : list str -> option (cursor * list (quoted_item LI env)) -> Prop :=
| fits_no_join vs : fits_join vs None
| fits_some_join vs paren js vs' : ~ In $"__it" vs -> fits_all vs vs js vs' -> fits_join vs (Some (paren, js))
with fits_else : list str -> option (list (quoted_item LI env)) -> Prop :=
| fits_no_else vs : fits_else vs None
| fits_some_else vs qs vs' : fits_all vs vs qs vs' -> fits_else vs (Some qs)
with fits_arms : list str -> list str -> list (option cursor * list (quoted_item LI env)) -> Prop :=
| fits_no_arm outer vs : fits_arms outer vs []
| fits_arm outer vs paren qs vs' arms :
    fits_all outer vs qs vs' -> fits_arms outer vs arms -> fits_arms outer vs ((paren, qs) :: arms).
End Spec.
