(** * Model: quotes that are left early (genco-macros/src).

    Rust code in a quote can leave the function the quote is in: [?], [return],
    a panic.  The generated code is spliced into that function
    (lib.rs:64-74, quote_in.rs:27-36), so that leaving ends it right there; the
    stream given to [quote_in!] keeps what has been supplied so far.

    [gone] tells of an environment whether the code evaluated last has left.
    Simplified: [break] and [continue] out of a quoted loop are in [Jump]; a panic
    inside of the conversion of a value is not modelled. *)
From Verif Require Import Str Tokens SpecTokens TokensRun Values Macro.

Section Exit.
Context {LI E : Type} (gone : E -> bool).
Notation stmt := (stmt LI E).

(** Statement after statement until one leaves (genco-macros/src/encoder.rs:12-38,
    [output]). *)
Definition fold_until {A : Type} (f : A -> E * tokens LI -> E * tokens LI)
  : list A -> E * tokens LI -> E * tokens LI :=
  fix go (l : list A) (st : E * tokens LI) : E * tokens LI :=
    match l with
    | [] => st
    | x :: l' => let st := f x st in if gone (fst st) then st else go l' st
    end.
(** Evaluation of an expression before the code that uses its value. *)
Definition unless_gone (st : E * tokens LI) (f : E * tokens LI -> E * tokens LI) : E * tokens LI :=
  if gone (fst st) then st else f st.

(** genco-macros/src/encoder.rs:246-259: [while let Some(p) = it.next() { body; if
    it.peek().is_some() { join } }]. *)
Definition join_until (body join : E * tokens LI -> E * tokens LI)
  : list (E -> E) -> E * tokens LI -> E * tokens LI :=
  fix go (bs : list (E -> E)) (st : E * tokens LI) : E * tokens LI :=
    match bs with
    | [] => st
    | b :: bs' =>
        unless_gone (b (fst st), snd st) (fun st =>
        unless_gone (body st) (fun st =>
        unless_gone (match bs' with [] => st | _ => join st end) (go bs')))
    end.

(** The generated statements of genco-macros/src/encoder.rs:161-316 and
    static_buffer.rs:30-39 as Rust runs them: what an expression leaves in front
    of is not run. *)
Fixpoint exec_until (c : stmt) (st : E * tokens LI) : E * tokens LI :=
  match c with
  | SStatic s => (fst st, append (VItemStr (Static s)) (snd st))
  | SItem x => (fst st, append (VItem x) (snd st))
  | SAppend v =>
      let '(v, e) := v (fst st) in
      unless_gone (e, snd st) (fun st => (fst st, append v (snd st)))
  | SSpace => (fst st, space (snd st))
  | SPush => (fst st, push (snd st))
  | SLine => (fst st, line (snd st))
  | SIndent => (fst st, indent (snd st))
  | SUnindent => (fst st, unindent (snd st))
  | SCode code =>
      (* the calls the code makes before it leaves *)
      let '(cs, e) := code (fst st) in (e, run cs (snd st))
  | SEffect f => (f (fst st), snd st)
  | SFor it body =>
      let '(bs, e) := it (fst st) in
      unless_gone (e, snd st) (fun st =>
      fold_until (fun b st => unless_gone (b (fst st), snd st) (fold_until exec_until body)) bs st)
  | SForJoin it body join =>
      let '(bs, e) := it (fst st) in
      unless_gone (e, snd st) (fun st =>
      join_until (fold_until exec_until body) (fold_until exec_until join) bs st)
  | SIf cond a b =>
      let '(yes, e) := cond (fst st) in
      unless_gone (e, snd st) (fun st =>
      if yes : bool then fold_until exec_until a st
      else match b with
           | Some b => fold_until exec_until b st
           | None => st
           end)
  | SMatch sel arms =>
      let '(i, e) := sel (fst st) in
      unless_gone (e, snd st) (fun st =>
      (fix pick (arms : list (list stmt)) (i : nat) : E * tokens LI :=
         match arms, i with
         | a :: _, O => fold_until exec_until a st
         | _ :: arms', S i' => pick arms' i'
         | [], _ => st
         end) arms i)
  | SLet f => (f (fst st), snd st)
  end.
(** Statements one after another. *)
Definition execs_until (code : list stmt) : E * tokens LI -> E * tokens LI := fold_until exec_until code.

(** genco-macros/src/quote_in.rs:12-39: [quote_in!]: the stream when the quote is
    done or left, whether it was left is [gone] of the environment. *)
Definition quote_in_until (qs : list (quoted_item LI E)) (e : E) (t : tokens LI) : option (E * tokens LI) :=
  option_map (fun r => execs_until (snd r) (e, t)) (quote_code qs).
End Exit.
