(** * Rendering of code with interpolated strings. *)
From Verif Require Import Str Tokens Values Fmt SpecFmt SpecCode RenderFacts OutputFacts StringFacts.

Section Nodes.
Context {LI : Type}.

Fixpoint to_node (c : code) : node LI :=
  match c with
  | Text s => NItem (Literal s)
  | Interpolated ps => NString (existsb is_eval ps) (map to_part ps)
  end
with to_part (p : code_part) : part LI :=
  match p with
  | Const s => PItem (Literal s)
  | Eval cs => PEval (map to_node cs)
  end.

Fixpoint to_node_ok (c : code) :
  node_ok (to_node c) = true /\ node_items (to_node c) = @code_items LI c
with to_part_ok (p : code_part) :
  part_ok (to_part p) = true /\ part_items (to_part p) = @code_part_items LI p.
Proof.
  - destruct c as [s|ps]; [split; reflexivity|].
    assert (H : forallb part_ok (map to_part ps) = true /\
                flat_map part_items (map to_part ps) = flat_map (@code_part_items LI) ps).
    { induction ps as [|p ps [IH1 IH2]]; [split; reflexivity|].
      destruct (to_part_ok p) as [P1 P2]. cbn [map forallb flat_map]. rewrite P1, P2, IH1, IH2. auto. }
    destruct H as [H1 H2]. change (to_node (Interpolated ps)) with
      (@NString LI (existsb is_eval ps) (map to_part ps)).
    rewrite node_ok_string, node_items_string, H1, H2. auto.
  - destruct p as [s|cs]; [split; reflexivity|].
    assert (H : forallb node_ok (map to_node cs) = true /\
                flat_map node_items (map to_node cs) = flat_map (@code_items LI) cs).
    { induction cs as [|p ps [IH1 IH2]]; [split; reflexivity|].
      destruct (to_node_ok p) as [P1 P2]. cbn [map forallb flat_map]. rewrite P1, P2, IH1, IH2. auto. }
    destruct H as [H1 H2]. change (to_part (Eval cs)) with (@PEval LI (map to_node cs)).
    rewrite part_ok_eval, part_items_eval. unfold doc_ok, doc_items. rewrite H1, H2. auto.
Qed.

Context (ops : lang_ops LI) (cfg : config).
Context (quote : bool -> str) (eval : list code -> str -> str) (escape : str -> str).
Context (Hopen : forall e, concat (l_open_quote ops e) = quote e)
        (Hclose : forall e, concat (l_close_quote ops e) = quote e)
        (Hescape : forall s, concat (l_write_quoted ops s) = escape s)
        (Hlit : forall s, concat (l_string_eval_literal ops (content s)) = eval [Text s] (content s))
        (Heval : forall cs src, (forall s, cs <> [Text s]) ->
           concat (l_start_string_eval ops) ++ src ++ concat (l_end_string_eval ops) = eval cs src).

Definition pieces (l : list atom) (s : str) : Prop := exists ss, l = texts ss /\ concat ss = s.
Lemma pieces_app l1 s1 l2 s2 : pieces l1 s1 -> pieces l2 s2 -> pieces (l1 ++ l2) (s1 ++ s2).
Proof.
  intros [a [-> <-]] [b [-> <-]]. exists (a ++ b). unfold texts. rewrite map_app, concat_app. auto.
Qed.
Lemma pieces_texts ss s : concat ss = s -> pieces (texts ss) s.
Proof. intros <-. exists ss. auto. Qed.
Lemma pieces_flat_map {A} (f : A -> list atom) g l :
  (forall x, pieces (f x) (g x)) -> pieces (flat_map f l) (flat_map g l).
Proof.
  intros H. induction l as [|x l IH]; cbn [flat_map]; [exists []; auto|].
  apply pieces_app; auto.
Qed.

Lemma code_items_single cs x :
  flat_map (@code_items LI) cs = [x] -> exists s, cs = [Text s] /\ x = Literal s.
Proof.
  destruct cs as [|[s|ps] cs]; cbn [flat_map code_items app]; try discriminate.
  - intros E. injection E as <- E. exists s. destruct cs as [|[s'|ps] cs]; try discriminate. auto.
  - intros E. injection E as _ E. apply (f_equal (@length _)) in E.
    rewrite !app_length in E. cbn in E. lia.
Qed.

Lemma single_literal_code cs :
  single_literal (map to_node cs) = match cs with [Text s] => Some (content s) | _ => None end.
Proof.
  unfold single_literal, doc_items.
  assert (E : flat_map node_items (map to_node cs) = flat_map (@code_items LI) cs).
  { clear. induction cs as [|c cs IH]; auto. cbn [map flat_map].
    rewrite IH, (proj2 (to_node_ok c)). auto. }
  rewrite E. destruct (flat_map code_items cs) as [|x [|y r]] eqn:F.
  - destruct cs as [|[s|ps] cs]; auto. discriminate.
  - apply code_items_single in F as [s [-> ->]]. reflexivity.
  - destruct x; destruct cs as [|[s'|ps] [|c cs]]; auto; discriminate.
Qed.

Fixpoint node_pieces (c : code) :
  pieces (node_atoms ops cfg (to_node c)) (code_source quote eval escape c)
with part_pieces (p : code_part) :
  pieces (part_atoms ops cfg (to_part p)) (code_part_source quote eval escape p).
Proof.
  - destruct c as [s|ps].
    + exists [content s]. split; [reflexivity|]. apply app_nil_r.
    + change (to_node (Interpolated ps)) with (@NString LI (existsb is_eval ps) (map to_part ps)).
      rewrite node_atoms_string.
      change (code_source quote eval escape (Interpolated ps)) with
        (quote (existsb is_eval ps) ++ flat_map (code_part_source quote eval escape) ps ++
         quote (existsb is_eval ps)).
      apply pieces_app; [apply pieces_texts, Hopen|].
      apply pieces_app; [|apply pieces_texts, Hclose].
      induction ps as [|p ps IH]; [exists []; auto|]. cbn [map flat_map].
      apply pieces_app; auto.
  - destruct p as [s|cs].
    + apply pieces_texts. apply Hescape.
    + change (to_part (Eval cs)) with (@PEval LI (map to_node cs)).
      change (code_part_source quote eval escape (Eval cs)) with
        (eval cs (flat_map (code_source quote eval escape) cs)).
      rewrite part_atoms_eval, single_literal_code.
      assert (H : pieces (flat_map (node_atoms ops cfg) (map to_node cs))
                    (flat_map (code_source quote eval escape) cs)).
      { induction cs as [|p ps IH]; [exists []; auto|]. cbn [map flat_map].
        apply pieces_app; auto. }
      assert (D : (exists s, cs = [Text s]) \/ forall s, cs <> [Text s]).
      { destruct cs as [|[s|ps] [|c cs]]; try (right; discriminate). left; eauto. }
      destruct D as [[s ->]|D].
      * cbn [flat_map code_source]. rewrite app_nil_r. apply pieces_texts, Hlit.
      * assert (E : match cs with [Text s] => Some (content s) | _ => None end = None).
        { destruct cs as [|[s|ps] [|c cs]]; auto. destruct (D s); auto. }
        rewrite E, <- Heval by auto.
        apply pieces_app; [apply pieces_texts; auto|].
        apply pieces_app; [auto|apply pieces_texts; auto].
Qed.
End Nodes.

Lemma code_to_string {LI CFG FMT} (L : lang_def LI CFG FMT) quote eval escape t cs :
  let ops := ld_ops L (ld_default_config L) (ld_default_format L) in
  (forall e, concat (l_open_quote ops e) = quote e) ->
  (forall e, concat (l_close_quote ops e) = quote e) ->
  (forall s, concat (l_write_quoted ops s) = escape s) ->
  (forall s, concat (l_string_eval_literal ops (content s)) = eval [Text s] (content s)) ->
  (forall cs src, (forall s, cs <> [Text s]) ->
     concat (l_start_string_eval ops) ++ src ++ concat (l_end_string_eval ops) = eval cs src) ->
  items t = flat_map code_items cs ->
  to_string L t = Some (flat_map (code_source quote eval escape) cs).
Proof.
  intros ops H1 H2 H3 H4 H5 E.
  assert (P : pieces (doc_atoms ops (config_from_lang L) (map to_node cs))
                (flat_map (code_source quote eval escape) cs)).
  { unfold doc_atoms. induction cs as [|c cs IH] in |- *; [exists []; auto|]. cbn [map flat_map].
    apply pieces_app; auto. apply node_pieces; auto. }
  destruct P as [ss [P <-]].
  apply (to_string_texts L t (map to_node cs) ss); auto.
  - rewrite E. unfold doc_items. clear. induction cs as [|c cs IH]; auto. cbn [map flat_map].
    rewrite IH, (proj2 (to_node_ok c)). auto.
  - unfold doc_ok. clear. induction cs as [|c cs IH]; auto. cbn [map forallb].
    rewrite IH, (proj1 (to_node_ok c)). auto.
Qed.
