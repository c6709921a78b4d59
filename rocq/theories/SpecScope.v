(** * Specification: where the names bound in a quote are in scope.

    A name bound by [$(let ..)] is in scope from there to the end of the innermost
    loop body, separator, branch or arm it is in, or of the quote, whatever groups
    it is in; inside of an interpolated string also after that string.  The names
    bound by the pattern of a loop are in scope in its body and separator, those
    of [if let] in the first branch, those of a pattern of [match] in its arm.
    Nothing else binds names.

    An environment is the names in scope and everything else. *)
From Verif Require Import Str Tokens SpecTokens TokensRun Values SpecFmt Macro SpecMacro.

Section Spec.
(** [own] is what a loop with a separator does to the names in scope in it by
    names of its own; nothing, it should be. *)
Context {LI names store : Type} (own : names -> names).
Notation env := (names * store)%type.
Notation quoted := (quoted_item LI env).
Notation mstate := (mstate LI env).

(** What is bound inside is not in scope outside. *)
Definition inside {A : Type} (m : env -> A * env) (e : env) : A * env :=
  let '(r, e') := m e in (r, (fst e, snd e')).

(** One body after the other, [join] between them, with what the pattern and the
    body bind, in a scope of its own. *)
Fixpoint loop_scoped (body join : env -> list (item LI) * env) (bs : list (env -> env)) (e : env)
  : list (item LI) * env :=
  match bs with
  | [] => ([], e)
  | b :: bs' =>
      let '(its, e) := inside (fun e =>
        let '(its, e) := body (b e) in
        let '(sep, e) := match bs' with [] => ([], e) | _ => inside join e end in
        (its ++ sep, e)) e in
      let '(rest, e) := loop_scoped body join bs' e in
      (its ++ rest, e)
  end.

Fixpoint mean_scoped (x : quoted) (st : mstate) : mstate :=
  match x with
  | QText c s | QLiteral c s => put (KText s) (enter_chunks c st)
  | QDollar c => put (KText $"$") (enter_chunks c st)
  | QQuoted c s =>
      put (KItems [OpenQuote false; Literal (Static s); CloseQuote]) (enter_chunks c st)
  | QGroup c d qs =>
      let st := put (KText (opener d)) (enter_chunks (opener_at c) st) in
      let st := fold_left (fun st x => mean_scoped x st) qs st in
      put (KText (closer d)) (enter_chunks (closer_at c) st)
  | QString c paren ps =>
      let st := enter_chunks c st in
      let '(at_, chunks, e) :=
        fold_left (fun st x => string_mean_scoped x st) ps (after_open paren, [], m_env st) in
      put_items
        (OpenQuote (existsb is_eval ps) ::
           join_texts [] (chunks ++ [KText (blank_text at_ (before_close paren))]) ++ [CloseQuote], e) st
  | QControl c k =>
      put (KItems [match k with KSpace => Space | KPush => Push | KLine => Line end])
        (enter_chunks c st)
  | QEval c v =>
      let st := enter_chunks c st in
      let '(v, e) := inside v (m_env st) in put_items (parts v, e) st
  | QScope c code =>
      let st := enter_chunks c st in
      let '(cs, e) := inside code (m_env st) in put_items (flat_map call_parts cs, e) st
  | QEffect c f =>
      let st := enter_chunks c st in
      mk_mstate (m_place st) (m_chunks st) (snd (inside (fun e => (tt, f e)) (m_env st)))
  | QLoop c it join body =>
      let st := enter_chunks c st in
      let '(bs, e) := inside it (m_env st) in
      put_items
        (match join with
         | Some (paren, js) =>
             inside (fun e => loop_scoped (block_mean_with mean_scoped None body)
               (block_mean_with mean_scoped (Some paren) js) bs (own (fst e), snd e)) e
         | None => loop_scoped (block_mean_with mean_scoped None body) (fun e => ([], e)) bs e
         end) st
  | QIf c cond a b =>
      let st := enter_chunks c st in
      put_items
        (if fst (cond (m_env st)) : bool
         then inside (fun e => block_mean_with mean_scoped None a (snd (cond e))) (m_env st)
         else
           let '(_, e) := inside cond (m_env st) in
           match b with
           | Some b => inside (block_mean_with mean_scoped None b) e
           | None => ([], e)
           end) st
  | QMatch c sel arms =>
      let st := enter_chunks c st in
      put_items
        (inside (fun e =>
           let '(i, e) := sel e in
           (fix pick (arms : list (option cursor * list quoted)) (i : nat) : list (item LI) * env :=
              match arms, i with
              | (paren, qs) :: _, O => block_mean_with mean_scoped paren qs e
              | _ :: arms', S i' => pick arms' i'
              | [], _ => ([], e)
              end) arms i) (m_env st)) st
  | QLet c f =>
      let st := enter_chunks c st in put_items ([], f (m_env st)) st
  end
with string_mean_scoped (x : string_item LI env) (st : pos * list (chunk LI) * env)
  : pos * list (chunk LI) * env :=
  let '(at_, chunks, e) := st in
  match x with
  | PText c s | PConstLit c s =>
      (c_end c, chunks ++ [KText (blank_text at_ (c_start c)); KText s], e)
  | PDollar c => (c_end c, chunks ++ [KText (blank_text at_ (c_start c)); KText $"$"], e)
  | PConst c v =>
      let '(v, e) := inside v e in
      (c_end c, chunks ++ [KText (blank_text at_ (c_start c)); KItems (parts v)], e)
  | PIdent c name =>
      (c_end c, chunks ++ [KText (blank_text at_ (c_start c));
                           KItems [OpenEval; Literal (Static name); CloseEval]], e)
  | PEval c qs =>
      let '(its, e) := block_mean_with mean_scoped (Some (eval_span c qs)) qs e in
      (c_end c, chunks ++ [KText (blank_text at_ (c_start c));
                           KItems (OpenEval :: its ++ [CloseEval])], e)
  end.

(** The items of a quote, and the environment after it. *)
Definition quote_mean_scoped (qs : list quoted) : env -> list (item LI) * env :=
  inside (block_mean_with mean_scoped None qs).
End Spec.
