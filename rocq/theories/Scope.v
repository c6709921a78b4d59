(** * Model: names bound in quotes (genco-macros/src/encoder.rs).

    [Macro] runs the generated code with an environment that leaving a block does
    not restore.  Here the environment is the names in scope and everything else
    ([names] and [store]), and leaving a block ends the names bound in it, as Rust
    does.  The code of a loop with [join] has a variable of its own, [__it]
    (encoder.rs:249, a name like any other there): [own] is what it does to the
    names in scope.  Simplified: the stream is no name (it is called
    [__genco_macros_toks], lib.rs:31), and binding [__it] in the body of such a loop
    does not change its iterator. *)
From Verif Require Import Str Tokens SpecTokens TokensRun Values Macro.

Section Scope.
Context {LI names store : Type} (own : names -> names).
Notation env := (names * store)%type.
Notation stmt := (stmt LI env).

(** The end of a block, or of an expression, that was entered with [outer]. *)
Definition leave (outer inner : env) : env := (fst outer, snd inner).
(** A block: [{ .. }]. *)
Definition braces (f : env * tokens LI -> env * tokens LI) (st : env * tokens LI) : env * tokens LI :=
  let st' := f st in (leave (fst st) (fst st'), snd st').

(** genco-macros/src/encoder.rs:246-259: [while let Some(p) = it.next() { body; if
    it.peek().is_some() { join } }]. *)
Definition join_braces (body join : env * tokens LI -> env * tokens LI)
  : list (env -> env) -> env * tokens LI -> env * tokens LI :=
  fix go (bs : list (env -> env)) (st : env * tokens LI) : env * tokens LI :=
    match bs with
    | [] => st
    | b :: bs' =>
        go bs' (braces (fun st =>
          let st := body (b (fst st), snd st) in
          match bs' with [] => st | _ => braces join st end) st)
    end.

(** The generated statements of genco-macros/src/encoder.rs:161-316 as Rust runs
    them: [for p in expr { .. }] (261-266), [{ let mut it = ..; while let .. }]
    (247-259), [if cond { .. } else { .. }] (278-282, the names a condition binds
    are those of the first branch only), [match expr { p => { .. } }] (301-306),
    [let p = expr;] (313-315). *)
Fixpoint exec_scoped (c : stmt) (st : env * tokens LI) : env * tokens LI :=
  match c with
  | SStatic s => (fst st, append (VItemStr (Static s)) (snd st))
  | SItem x => (fst st, append (VItem x) (snd st))
  | SAppend v => let '(v, e) := v (fst st) in (leave (fst st) e, append v (snd st))
  | SSpace => (fst st, space (snd st))
  | SPush => (fst st, push (snd st))
  | SLine => (fst st, line (snd st))
  | SIndent => (fst st, indent (snd st))
  | SUnindent => (fst st, unindent (snd st))
  | SCode code => let '(cs, e) := code (fst st) in (leave (fst st) e, run cs (snd st))
  | SEffect f => (leave (fst st) (f (fst st)), snd st)
  | SFor it body =>
      let '(bs, e) := it (fst st) in
      fold_state (fun b => braces (fun st => fold_state exec_scoped body (b (fst st), snd st)))
        bs (leave (fst st) e, snd st)
  | SForJoin it body join =>
      braces (fun st =>
        let '(bs, e) := it (fst st) in
        join_braces (fold_state exec_scoped body) (fold_state exec_scoped join)
          bs ((own (fst (fst st)), snd e), snd st)) st
  | SIf cond a b =>
      braces (fun st =>
        let '(yes, e) := cond (fst st) in
        if yes : bool then fold_state exec_scoped a (e, snd st)
        else match b with
             | Some b => fold_state exec_scoped b (leave (fst st) e, snd st)
             | None => (e, snd st)
             end) st
  | SMatch sel arms =>
      braces (fun st =>
        let '(i, e) := sel (fst st) in
        (fix pick (arms : list (list stmt)) (i : nat) : env * tokens LI :=
           match arms, i with
           | a :: _, O => fold_state exec_scoped a (e, snd st)
           | _ :: arms', S i' => pick arms' i'
           | [], _ => (e, snd st)
           end) arms i) st
  | SLet f => (f (fst st), snd st)
  end.
(** Statements one after another. *)
Definition execs_scoped (code : list stmt) : env * tokens LI -> env * tokens LI :=
  fold_state exec_scoped code.

(** genco-macros/src/lib.rs:48-77: [quote!], whose code is in a block *)
Definition quote_scoped (qs : list (quoted_item LI env)) (e : env) : option (env * tokens LI) :=
  option_map (fun r => braces (execs_scoped (snd r)) (e, new)) (quote_code qs).
(** genco-macros/src/quote_in.rs:12-39: [quote_in!], also in a block *)
Definition quote_in_scoped (qs : list (quoted_item LI env)) (e : env) (t : tokens LI) : option (env * tokens LI) :=
  option_map (fun r => braces (execs_scoped (snd r)) (e, t)) (quote_code qs).
End Scope.
