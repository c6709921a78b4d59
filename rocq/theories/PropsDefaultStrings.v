(** * Properties of the default methods of a language (C35).

    A language that overrides none of the methods for strings puts double quotes around
    a string and nothing around what is evaluated in it.

    Vocabulary: documents as for C10 ([SpecFmt.v]). *)
From Verif Require Import Str Tokens Fmt SpecFmt RenderFacts PropsFmt.

Section Default.
Context {LI : Type} (ops : lang_ops LI) (cfg : config).
(** A double quote. *)
Definition mark : item LI := Literal (Static [34%N]).
(** What items show as a document of their own. *)
Definition own_text (xs : list (item LI)) : str := fst (outcome (format_items ops cfg string_writer xs (formatter_new []))).
(** The items of a document with double quotes around strings; a quoted value in a string
    is the text it shows on its own. *)
Fixpoint marked (n : node LI) : list (item LI) :=
  match n with
  | NItem x => [x]
  | NString _ ps => mark :: flat_map marked_part ps ++ [mark]
  end
with marked_part (p : part LI) : list (item LI) :=
  match p with
  | PItem x => [x]
  | PQuoted xs => [Literal (Static (own_text (mark :: xs ++ [mark])))]
  | PEval ns => flat_map marked ns
  end.
End Default.

Section Facts.
Context {LI : Type} (f : LI -> list str) (cfg : config).
Notation ops := (default_ops f).
Lemma single_node (ns : list (node LI)) s : single_literal ns = Some s -> exists t, ns = [NItem (Literal t)] /\ content t = s.
Proof.
  unfold single_literal, doc_items. destruct ns as [|[x|e ps] ns]; [discriminate| |].
  - cbn. destruct x as [t| | | | | | | | | |]; try discriminate. destruct ns as [|[y|e ps] ns]; cbn; try discriminate. intros [= <-]. eauto.
  - cbn. discriminate.
Qed.
Lemma plain_marked : forall n, node_ok n = true -> forallb plain (marked ops cfg n) = true.
Proof.
  fix IH 1. intros [x|e ps] H; [cbn in *; rewrite H; reflexivity|]. cbn [node_ok] in H.
  change (forallb plain ([mark] ++ flat_map (marked_part ops cfg) ps ++ [mark]) = true). rewrite !forallb_app. cbn [forallb plain mark andb]. rewrite andb_true_r.
  induction ps as [|p ps IHp]; [reflexivity|]. cbn [forallb flat_map] in *. apply andb_prop in H as [H1 H2]. rewrite forallb_app, (IHp H2), andb_true_r. clear IHp H2.
  destruct p as [x|xs|ns]; [cbn in *; rewrite H1; reflexivity|reflexivity|]. change (marked_part ops cfg (PEval ns)) with (flat_map (marked ops cfg) ns).
  change (forallb node_ok ns = true) in H1. induction ns as [|n ns IHn]; [reflexivity|]. cbn [forallb flat_map] in *. apply andb_prop in H1 as [H1 H2].
  rewrite forallb_app, (IH n H1), (IHn H2). reflexivity.
Qed.
Lemma atoms_cat (a b : list (item LI)) : atoms ops (a ++ b) = atoms ops a ++ atoms ops b.
Proof. apply flat_map_app. Qed.
Lemma marked_atoms : forall n, node_ok n = true -> node_atoms ops cfg n = atoms ops (marked ops cfg n).
Proof.
  fix IH 1. intros [x|e ps] H; [cbn; rewrite app_nil_r; reflexivity|]. cbn [node_ok] in H.
  change (texts (l_open_quote ops e) ++ flat_map (part_atoms ops cfg) ps ++ texts (l_close_quote ops e) = atoms ops ([mark] ++ flat_map (marked_part ops cfg) ps ++ [mark])).
  rewrite !atoms_cat. f_equal. f_equal.
  induction ps as [|p ps IHp]; [reflexivity|]. cbn [forallb flat_map] in *. apply andb_prop in H as [H1 H2]. rewrite atoms_cat, <- (IHp H2). f_equal. clear IHp H2.
  destruct p as [x|xs|ns].
  - destruct x; cbn; rewrite ?app_nil_r; reflexivity.
  - change (forallb plain xs = true) in H1. change (marked_part ops cfg (PQuoted xs)) with ([Literal (LI := LI) (Static (own_text ops cfg (mark :: xs ++ [mark])))]). unfold own_text. rewrite (C10_layout LI ops cfg (mark :: xs ++ [mark])) by (cbn [forallb plain mark andb]; rewrite forallb_app, H1; reflexivity).
    cbn [fst]. change (mark :: ?l ++ [mark]) with ([@mark LI] ++ l ++ [mark]). rewrite !atoms_cat. reflexivity.
  - change (forallb node_ok ns = true) in H1. change (marked_part ops cfg (PEval ns)) with (flat_map (marked ops cfg) ns).
    change (part_atoms ops cfg (PEval ns)) with (match single_literal ns with Some s => texts (l_string_eval_literal ops s) | None => texts (l_start_string_eval ops) ++ flat_map (node_atoms ops cfg) ns ++ texts (l_end_string_eval ops) end).
    assert (G : flat_map (node_atoms ops cfg) ns = atoms ops (flat_map (marked ops cfg) ns)).
    { clear -IH H1. induction ns as [|n ns IHn]; [reflexivity|]. cbn [forallb flat_map] in *. apply andb_prop in H1 as [H1 H2]. rewrite atoms_cat, (IH n H1), (IHn H2). reflexivity. }
    destruct (single_literal ns) as [s|] eqn:S; [|cbn [default_ops l_start_string_eval l_end_string_eval texts map app]; rewrite app_nil_r; exact G].
    apply single_node in S as (t & -> & <-). reflexivity.
Qed.
End Facts.

(** Without overrides a document shows what the items with literal double quotes show. *)
Theorem C35_defaults : forall LI (fmt_item : LI -> list str) cfg ns, doc_ok ns = true ->
  outcome (format_items (default_ops fmt_item) cfg string_writer (doc_items ns) (formatter_new [])) =
  outcome (format_items (default_ops fmt_item) cfg string_writer (flat_map (marked (default_ops fmt_item) cfg) ns) (formatter_new [])).
Proof.
  intros LI f cfg ns H. rewrite C10_layout_documents by exact H. rewrite C10_layout.
  - do 3 f_equal. unfold doc_atoms, doc_ok in *. induction ns as [|n ns IH]; [reflexivity|]. cbn [forallb flat_map] in *. apply andb_prop in H as [H1 H2].
    rewrite atoms_cat, (marked_atoms f cfg n H1), (IH H2). reflexivity.
  - unfold doc_ok in H. induction ns as [|n ns IH]; [reflexivity|]. cbn [forallb flat_map] in *. apply andb_prop in H as [H1 H2].
    rewrite forallb_app, (plain_marked f cfg n H1), (IH H2). reflexivity.
Qed.
Print Assumptions C35_defaults.

Example C35_defaults_example :
  let ns := [NItem (Literal (Static $"x =")); NItem Space;
             NString true [PItem (Literal (Static $"a")); PEval [NItem (Literal (Static $"b"))]; PQuoted [Literal (Static $"c")];
               PEval [NItem (Lang 0 7); NString false [PItem Space; PItem (Literal (Static $"d"))]]]] in
  doc_ok ns = true /\
  outcome (format_items (default_ops (fun n : nat => [$"<"; [48 + N.of_nat n]%N; $">"])) (mk_config (ISpace 4) [10%N]) string_writer (doc_items ns) (formatter_new [])) =
    ($"x = " ++ [34%N] ++ $"ab" ++ [34%N] ++ $"c" ++ [34%N] ++ $"<7>" ++ [34%N] ++ $" d" ++ [34; 34]%N, true).
Proof. split; vm_compute; reflexivity. Qed.
