(** * Model: quotes with [break] and [continue] (genco-macros/src).

    Rust code in the body of a quoted loop can end the round with [continue] and
    the loop with [break], since the loop is a loop of the generated code
    (encoder.rs:235-267).  The pattern of a joined loop does the same: it becomes
    part of a [while let], which ends at the first element the pattern does not
    match.

    [how] tells of an environment how the code evaluated last has gone on, [back]
    is the environment once a jump has arrived.  Simplified as in [Exit]: no jumps
    from inside of the conversion of a value, and no labels. *)
From Verif Require Import Str Tokens SpecTokens TokensRun Values Macro Exit.

(** Rust's [return] (or [?], or a panic), [break] and [continue]. *)
Inductive jump := Leaves | Breaks | Continues.

Section Jump.
Context {LI E : Type} (how : E -> option jump) (back : E -> E).
Notation stmt := (stmt LI E).

(** The code does not go on to the next statement. *)
Definition away (e : E) : bool := match how e with None => false | Some _ => true end.

(** The end of a round of a loop. *)
Definition arrive (st : E * tokens LI) (next : E * tokens LI -> E * tokens LI) : E * tokens LI :=
  match how (fst st) with
  | None => next st
  | Some Continues => next (back (fst st), snd st)
  | Some Breaks => (back (fst st), snd st)
  | Some Leaves => st
  end.

(** genco-macros/src/encoder.rs:260-266: [for p in expr { body }]. *)
Definition for_jump (body : E * tokens LI -> E * tokens LI)
  : list (E -> E) -> E * tokens LI -> E * tokens LI :=
  fix go (bs : list (E -> E)) (st : E * tokens LI) : E * tokens LI :=
    match bs with
    | [] => st
    | b :: bs' => arrive (unless_gone away (b (fst st), snd st) body) (go bs')
    end.
(** genco-macros/src/encoder.rs:244-259: [while let Some(p) = it.next() { body; if
    it.peek().is_some() { join } }].  An element the pattern [p] does not match
    breaks. *)
Definition join_jump (body join : E * tokens LI -> E * tokens LI)
  : list (E -> E) -> E * tokens LI -> E * tokens LI :=
  fix go (bs : list (E -> E)) (st : E * tokens LI) : E * tokens LI :=
    match bs with
    | [] => st
    | b :: bs' =>
        arrive (unless_gone away (b (fst st), snd st) (fun st =>
                unless_gone away (body st) (fun st =>
                match bs' with [] => st | _ => join st end))) (go bs')
    end.

(** The generated statements of genco-macros/src/encoder.rs:161-316 and
    static_buffer.rs:30-39 as Rust runs them. *)
Fixpoint exec_jump (c : stmt) (st : E * tokens LI) : E * tokens LI :=
  match c with
  | SStatic s => (fst st, append (VItemStr (Static s)) (snd st))
  | SItem x => (fst st, append (VItem x) (snd st))
  | SAppend v =>
      let '(v, e) := v (fst st) in
      unless_gone away (e, snd st) (fun st => (fst st, append v (snd st)))
  | SSpace => (fst st, space (snd st))
  | SPush => (fst st, push (snd st))
  | SLine => (fst st, line (snd st))
  | SIndent => (fst st, indent (snd st))
  | SUnindent => (fst st, unindent (snd st))
  | SCode code => let '(cs, e) := code (fst st) in (e, run cs (snd st))
  | SEffect f => (f (fst st), snd st)
  | SFor it body =>
      let '(bs, e) := it (fst st) in
      unless_gone away (e, snd st) (for_jump (fold_until away exec_jump body) bs)
  | SForJoin it body join =>
      let '(bs, e) := it (fst st) in
      unless_gone away (e, snd st) (join_jump (fold_until away exec_jump body) (fold_until away exec_jump join) bs)
  | SIf cond a b =>
      let '(yes, e) := cond (fst st) in
      unless_gone away (e, snd st) (fun st =>
      if yes : bool then fold_until away exec_jump a st
      else match b with
           | Some b => fold_until away exec_jump b st
           | None => st
           end)
  | SMatch sel arms =>
      let '(i, e) := sel (fst st) in
      unless_gone away (e, snd st) (fun st =>
      (fix pick (arms : list (list stmt)) (i : nat) : E * tokens LI :=
         match arms, i with
         | a :: _, O => fold_until away exec_jump a st
         | _ :: arms', S i' => pick arms' i'
         | [], _ => st
         end) arms i)
  | SLet f => (f (fst st), snd st)
  end.
(** Statements one after another. *)
Definition execs_jump (code : list stmt) : E * tokens LI -> E * tokens LI := fold_until away exec_jump code.

(** genco-macros/src/quote_in.rs:12-39: [quote_in!]. *)
Definition quote_in_jump (qs : list (quoted_item LI E)) (e : E) (t : tokens LI) : option (E * tokens LI) :=
  option_map (fun r => execs_jump (snd r) (e, t)) (quote_code qs).
End Jump.
