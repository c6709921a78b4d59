(** * Specification: what control flow in quotes shows.

    The documents that bodies show, one round after the other, separators between
    them; blocks of lines put together. *)
From Verif Require Import Str Tokens SpecTokens Values Fmt SpecFmt SpecFile Macro SpecMacro SpecQuote SpecWords.

Section Rounds.
Context {LI E : Type} (ops : lang_ops LI) (cfg : config).
Notation doc := (list (node LI)). Notation quoted := (quoted_item LI E).

(** The document a quote shows, evaluated in [e], which leaves [e']: as [shows], for
    any number of tokens. *)
Definition quote_shows (qs : list quoted) (e : E) (ns : doc) (e' : E) : Prop :=
  ((exists t, quote qs e = Some (e', t) /\ items t = doc_items ns ++ closing (open_levels ops cfg ns)) /\
   (exists y its, fst (quote_mean qs e) = y :: its /\ is_white y = false)) /\
  doc_ok ns = true /\ visible_ends (doc_atoms ops cfg ns) /\ (0 <= open_levels ops cfg ns)%Z.

(** ** Rounds of a loop *)

(** The body, in the environment of each round. *)
Fixpoint bodies_show (body : list quoted) (bs : list (E -> E)) (e : E) (ds : list doc) (e' : E) : Prop :=
  match bs, ds with
  | [], [] => e' = e
  | b :: bs', d :: ds' => exists e1, quote_shows body (b e) d e1 /\ bodies_show body bs' e1 ds' e'
  | _, _ => False
  end.
(** What is between two rounds, the first of which shows [d].  Without a separator:
    nothing but the end of the levels left open.  A separator shows any document,
    also of only whitespace; it closes the levels it opens.  After a round that ends
    deeper than it starts: one that asks for a new line or an empty one. *)
Definition between (join : option (cursor * list quoted)) (d : doc) (e : E) (s : doc) (e' : E) : Prop :=
  match join with
  | None => s = map NItem (closing (open_levels ops cfg d)) /\ e' = e
  | Some (paren, js) =>
      (open_levels ops cfg d = 0%Z /\
       exists t, quote (in_parens (Some paren) js) e = Some (e', t) /\ items t = doc_items s /\
       doc_ok s = true /\ open_levels ops cfg s = 0%Z) \/
      (open_levels ops cfg d <> 0%Z /\
       exists t x, quote (in_parens (Some paren) js) e = Some (e', t) /\ fst (quote_mean (in_parens (Some paren) js) e) = [x] /\
       (x = Push \/ x = Line) /\ s = map NItem (closing (open_levels ops cfg d) ++ [x]))
  end.
(** The rounds and what is between them. *)
Fixpoint rounds_show (join : option (cursor * list quoted)) (body : list quoted) (bs : list (E -> E)) (e : E)
    (ds : list doc) (e' : E) : Prop :=
  match bs, ds with
  | [b], [d] => quote_shows body (b e) d e'
  | b :: bs', d :: s :: ds' =>
      exists e1 e2, quote_shows body (b e) d e1 /\ between join d e1 s e2 /\ rounds_show join body bs' e2 ds' e'
  | _, _ => False
  end.
(** A separator that always shows the same, and evaluates nothing. *)
Definition always_shows (paren : cursor) (js : list quoted) (l : list atom) : Prop :=
  exists s t, (forall e, quote (in_parens (Some paren) js) e = Some (e, t)) /\ items t = doc_items s /\
  doc_ok s = true /\ doc_atoms ops cfg s = l.

(** ** Blocks put together *)

(** How a block follows another one. *)
Inductive joint : Type := Beside (g : nat) | Below | Apart.
(** What asks for it, after a document that leaves [k] levels open. *)
Inductive asks : list atom -> Z -> joint -> Prop :=
| asks_beside : asks [] 0 (Beside 0)
| asks_space : asks [ASpace] 0 (Beside 1)
| asks_push : asks [APush] 0 Below
| asks_line : asks [ALine] 0 Apart
| asks_closing k : k <> 0%Z -> asks [AIndent (- k)] k Below
| asks_closing_push k : k <> 0%Z -> asks [AIndent (- k); APush] k Below
| asks_closing_line k : k <> 0%Z -> asks [AIndent (- k); ALine] k Apart.
End Rounds.
(** Blanks of source between two columns ask for a space. *)
Definition margin (a b : nat) : list atom := if a <? b then [ASpace] else [].
Definition put_after (a : list str) (j : joint) (b : list str) : list str :=
  match j with
  | Beside g => beside a g b
  | Below => a ++ b
  | Apart => a ++ [[]] ++ b
  end.
Definition put_together (a : list str) (more : list (joint * list str)) : list str :=
  fold_left (fun a '(j, b) => put_after a j b) more a.
Section Sequence.
Context {LI : Type} (ops : lang_ops LI) (cfg : config).
(** Rounds with nothing between them, after a round that leaves [k] levels open: beside
    each other, but after a round that ends indented on a line of its own. *)
Fixpoint in_sequence (k : Z) (ds : list (list (node LI))) : list (joint * list str) :=
  match ds with
  | [] => []
  | d :: ds' => (if Z.eqb k 0 then Beside 0 else Below, block_of ops cfg d) :: in_sequence (open_levels ops cfg d) ds'
  end.
End Sequence.
