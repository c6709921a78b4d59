(** * Outputs: acceptance, strings, vectors, bytes, failing sinks. *)
From Verif Require Import Tokens SpecTokens Fmt SpecFmt FmtFacts RenderFacts StrFacts.

(** ** Acceptance *)

Section Accept.
Context {LI : Type} (ops : lang_ops LI) (cfg : config).
Notation E := (E ops cfg).

Definition conv_frame (f : frame) : list bracket :=
  (if in_quote f then [BQuote] else []) ++ (if end_on_eval f then [BEval] else []).
Definition conv (stack : list frame) : list bracket := flat_map conv_frame stack.

Fixpoint valid_stack (stack : list frame) : Prop :=
  match stack with
  | [] => False
  | [f] => end_on_eval f = false
  | f :: s => end_on_eval f = true /\ valid_stack s
  end.

Definition sfx (eoc : bool) (b : list bracket) : list bracket :=
  if eoc then BNested :: b else [].

Definition continue (eoc : bool) b (r : list atom * list (item LI) * bool) : bool :=
  if eoc then match r with (_, rest, true) => accepts b rest | _ => false end
  else snd r.

Lemma continue_pre eoc b l r : continue eoc b (pre l r) = continue eoc b r.
Proof. destruct r as [[? ?] ?]; reflexivity. Qed.

Lemma close_nested_conv stack b : close_nested (conv stack ++ BNested :: b) = Some b.
Proof.
  induction stack as [|f s IH]; cbn; auto. unfold conv_frame.
  destruct (in_quote f), (end_on_eval f); cbn; auto.
Qed.
Lemma close_nested_conv' stack : close_nested (conv stack) = None.
Proof.
  induction stack as [|f s IH]; cbn; auto. unfold conv_frame.
  destruct (in_quote f), (end_on_eval f); cbn; auto.
Qed.

Lemma E_reject_open eoc head below rest : in_quote head = true ->
  E eoc (head :: below) (OpenQuote true :: rest) = ([], rest, false).
Proof. intros H. unfold RenderFacts.E; cbn. rewrite H; auto. Qed.
Lemma E_reject_close head below rest : in_quote head = false ->
  E false (head :: below) (CloseQuote :: rest) = ([], rest, false).
Proof. intros H. unfold RenderFacts.E; cbn. rewrite H; auto. Qed.
Lemma E_reject_eval eoc head below rest : in_quote head = false ->
  E eoc (head :: below) (OpenEval :: rest) = ([], rest, false).
Proof. intros H. unfold RenderFacts.E; cbn. rewrite H; auto. Qed.
Lemma E_reject_close_eval eoc head below rest : end_on_eval head = false ->
  E eoc (head :: below) (CloseEval :: rest) = ([], rest, false).
Proof. intros H. unfold RenderFacts.E; cbn. rewrite H; auto. Qed.

Lemma continue_reject eoc b l rest : continue eoc b (l, rest, false) = false.
Proof. destruct eoc; auto. Qed.

Lemma not_quote_top head below eoc b : valid_stack (head :: below) ->
  in_quote head = false ->
  match conv (head :: below) ++ sfx eoc b with BQuote :: _ => False | _ => True end.
Proof.
  intros V H. cbn [conv flat_map]. unfold conv_frame. rewrite H.
  destruct (end_on_eval head) eqn:Ee; cbn; auto.
  destruct below; cbn in *; [destruct eoc; cbn; auto|]. destruct V; congruence.
Qed.

Lemma accepts_E n : forall cursor, length cursor <= n -> forall eoc stack b,
  valid_stack stack ->
  accepts (conv stack ++ sfx eoc b) cursor = continue eoc b (E eoc stack cursor).
Proof.
  induction n as [|n IH]; intros cursor Hl eoc stack b V.
  { destruct cursor; [|cbn in Hl; lia]. rewrite E_nil. destruct eoc; reflexivity. }
  destruct cursor as [|it rest]; [rewrite E_nil; destruct eoc; reflexivity|].
  cbn [length] in Hl.
  destruct stack as [|head below]; [destruct V|].
  destruct (plain it) eqn:P.
  { rewrite E_plain, continue_pre by auto. cbn [accepts].
    rewrite <- (IH rest ltac:(lia) eoc (head :: below) b V).
    destruct it; try discriminate P; reflexivity. }
  cbn [accepts]. destruct it as [| | | | | | |e| | |]; try discriminate P; clear P.
  - destruct (in_quote head) eqn:Q.
    + assert (T : conv (head :: below) ++ sfx eoc b =
         BQuote :: tl (conv (head :: below) ++ sfx eoc b)).
      { cbn [conv flat_map]. unfold conv_frame. rewrite Q. reflexivity. }
      destruct e.
      * rewrite E_reject_open, continue_reject by auto.
        rewrite T. reflexivity.
      * rewrite E_nested by auto.
        assert (S : step_bracket (conv (head :: below) ++ sfx eoc b) (@OpenQuote LI false) =
          Some (BNested :: conv (head :: below) ++ sfx eoc b)).
        { rewrite T. reflexivity. }
        rewrite S.
        pose proof (IH rest ltac:(lia) true [mk_frame false false false]
          (conv (head :: below) ++ sfx eoc b) eq_refl) as IHn.
        cbn [sfx] in IHn.
        change (conv [mk_frame false false false]) with (@nil bracket) in IHn.
        cbn [app] in IHn.
        rewrite IHn.
        pose proof (E_rest ops cfg true [mk_frame false false false] rest) as R.
        destruct (E true [mk_frame false false false] rest) as [[l rest'] [|]]; cbn [continue].
        -- rewrite continue_pre. cbn in R. apply (IH rest' ltac:(lia) eoc (head :: below) b V).
        -- rewrite continue_reject; auto.
    + rewrite E_open, continue_pre by auto.
      pose proof (not_quote_top head below eoc b V Q) as NT.
      assert (S : step_bracket (conv (head :: below) ++ sfx eoc b) (@OpenQuote LI e) =
          Some (BQuote :: conv (head :: below) ++ sfx eoc b)).
      { destruct (conv (head :: below) ++ sfx eoc b) as [|[| |] l]; cbn; tauto. }
      rewrite S. rewrite <- (IH rest ltac:(lia) eoc _ b).
      * f_equal. cbn [conv flat_map]. unfold conv_frame at 2. cbn [in_quote end_on_eval].
        unfold conv_frame at 1. rewrite Q. reflexivity.
      * destruct below; cbn in *; auto.
  - destruct eoc; cbn [sfx].
    + rewrite E_close_eoc. cbn [step_bracket]. rewrite close_nested_conv. reflexivity.
    + rewrite app_nil_r. cbn [step_bracket]. rewrite close_nested_conv'.
      destruct (in_quote head) eqn:Q.
      * rewrite E_close, continue_pre by auto.
        cbn [conv flat_map]. unfold conv_frame at 1. rewrite Q. cbn [app].
        rewrite <- (IH rest ltac:(lia) false _ b).
        -- cbn [sfx]. rewrite app_nil_r. reflexivity.
        -- destruct below; cbn in *; auto.
      * rewrite E_reject_close, continue_reject by auto.
        pose proof (not_quote_top head below false b V Q) as NT. cbn [sfx] in NT.
        rewrite app_nil_r in NT. destruct (conv (head :: below)) as [|[| |] l]; cbn; tauto.
  - destruct (in_quote head) eqn:Q.
    + assert (T : conv (head :: below) ++ sfx eoc b =
         BQuote :: tl (conv (head :: below) ++ sfx eoc b)).
      { cbn [conv flat_map]. unfold conv_frame. rewrite Q. reflexivity. }
      assert (S : step_bracket (conv (head :: below) ++ sfx eoc b) (@OpenEval LI) =
          Some (BEval :: conv (head :: below) ++ sfx eoc b)).
      { rewrite T. reflexivity. }
      rewrite S.
      assert (D : (exists s rest', rest = Literal s :: CloseEval :: rest') \/
         (forall s rest', rest <> Literal s :: CloseEval :: rest')).
      { clear. destruct rest as [|[s|? ?|? ?| | | |?|?| | |] [|[?|? ?|? ?| | | |?|?| | |] rest']];
          try (right; discriminate). left; eauto. }
      destruct D as [[s [rest' ->]]|D].
      * rewrite E_eval_literal, continue_pre by auto. cbn [accepts step_bracket].
        cbn [length] in Hl. apply IH; auto; lia.
      * rewrite E_eval, continue_pre by auto.
        rewrite <- (IH rest ltac:(lia) eoc _ b).
        -- reflexivity.
        -- cbn; auto.
    + rewrite E_reject_eval, continue_reject by auto.
      pose proof (not_quote_top head below eoc b V Q) as NT.
      destruct (conv (head :: below) ++ sfx eoc b) as [|[| |] l]; cbn; tauto.
  - destruct (end_on_eval head) eqn:Ee.
    + rewrite E_close_eval, continue_pre by auto.
      assert (S : step_bracket (conv (head :: below) ++ sfx eoc b) (@CloseEval LI) =
          Some (conv below ++ sfx eoc b)).
      { cbn [conv flat_map]. unfold conv_frame. rewrite Ee. destruct (in_quote head); reflexivity. }
      rewrite S. apply IH; [lia|]. destruct below; cbn in V; [congruence|tauto].
    + rewrite E_reject_close_eval, continue_reject by auto.
      destruct below as [|g s]; [|destruct V; congruence].
      cbn [conv flat_map]. unfold conv_frame. rewrite Ee.
      destruct (in_quote head), eoc; reflexivity.
Qed.

Lemma accepts_ok its :
  snd (E false [mk_frame false false false] its) = accepts [] its.
Proof.
  pose proof (accepts_E (length its) its (le_n _) false [mk_frame false false false] []
    eq_refl) as A.
  cbn in A. symmetry. exact A.
Qed.

Lemma accepts_atoms its :
  exists l, forall W (wr : writer W) st,
    format_items ops cfg wr its st =
    (fst (run_atoms wr cfg l st), snd (run_atoms wr cfg l st) && accepts [] its).
Proof.
  exists (fst (fst (E false [mk_frame false false false] its))).
  intros W wr st. pose proof (format_items_elab ops cfg wr its st) as F.
  pose proof (accepts_ok its) as A.
  destruct (E false [mk_frame false false false] its) as [[l rest] ok].
  cbn in *. subst ok. exact F.
Qed.

(** Documents are accepted. *)
Lemma doc_accepts (ns : list (node LI)) : doc_ok ns = true -> accepts [] (doc_items ns) = true.
Proof.
  intros H. rewrite <- accepts_ok.
  pose proof (elab_doc ops cfg ns [] false [] H) as D. rewrite app_nil_r, E_nil in D.
  rewrite D. reflexivity.
Qed.

End Accept.

(** ** Writers that do not fail *)

Definition writes_ok {W} (wr : writer W) : Prop :=
  (forall s w, snd (w_str wr s w) = true) /\ (forall c w, snd (w_line wr c w) = true).

Section Total.
Context {W : Type} (wr : writer W) (cfg : config) (T : writes_ok wr).

Lemma and_then_ok r (k : fstate W -> fstate W * bool) :
  snd r = true -> (forall st, snd (k st) = true) -> snd (and_then r k) = true.
Proof. destruct r as [st [|]]; cbn; auto. Qed.

Lemma on_write_ok (f : W -> W * bool) st : (forall w, snd (f w) = true) ->
  snd (on_write f st) = true.
Proof. intros H. unfold on_write. specialize (H (f_write st)). destruct (f (f_write st)); auto. Qed.

Lemma write_lines_ok n : forall st, snd (write_lines wr cfg n st) = true.
Proof.
  induction n as [|n IH]; intros st; cbn [write_lines]; auto.
  apply and_then_ok; auto. apply on_write_ok. apply T.
Qed.
Lemma write_padding_ok chunk c fuel : forall n st,
  snd (write_padding wr fuel chunk c n st) = true.
Proof.
  induction fuel as [|f IH]; intros n st; cbn [write_padding]; auto.
  destruct n; auto. apply and_then_ok; auto. apply on_write_ok. apply T.
Qed.
Lemma write_str_ok s st : snd (write_str wr cfg s st) = true.
Proof.
  unfold write_str. destruct s; auto. apply and_then_ok.
  - unfold flush_whitespace. destruct (into_indent (f_line st)).
    + apply and_then_ok; [apply write_lines_ok|]. intros st'.
      destruct (c_indentation cfg); [apply write_padding_ok|].
      apply and_then_ok; intros; apply write_padding_ok.
    + apply write_padding_ok.
  - intros; apply on_write_ok, T.
Qed.
Lemma run_atoms_ok l : forall st, snd (run_atoms wr cfg l st) = true.
Proof.
  induction l as [|a l IH]; intros st; cbn [run_atoms]; auto.
  apply and_then_ok; auto. destruct a as [s| | | |n]; cbn; auto; [apply write_str_ok|].
  destruct (Z.eqb n 0); auto.
Qed.
End Total.

(** ** Streams of a file *)

Section Streams.
Context {LI Config Format : Type} (L : lang_def LI Config Format) (cfg : config).

Definition streams_accept (ts : list (tokens LI * Format)) : bool :=
  forallb (fun p => accepts [] (items (fst p))) ts.

Lemma streams_atoms c ts :
  exists l, forall W (wr : writer W) st,
    format_streams L wr cfg c ts st =
    (fst (run_atoms wr cfg l st), snd (run_atoms wr cfg l st) && streams_accept ts).
Proof.
  induction ts as [|[t f] ts [l2 IH]].
  - exists []. intros; reflexivity.
  - destruct (accepts_atoms (ld_ops L c f) cfg (items t)) as [l1 H].
    cbn [streams_accept forallb fst]. destruct (accepts [] (items t)).
    + exists (l1 ++ l2). intros W wr st. cbn [format_streams]. unfold format.
      rewrite H. rewrite run_atoms_app.
      destruct (run_atoms wr cfg l1 st) as [st' [|]]; cbn; auto.
    + exists l1. intros W wr st. cbn [format_streams]. unfold format.
      rewrite H. destruct (run_atoms wr cfg l1 st) as [st' [|]]; cbn; auto.
Qed.
End Streams.

(** ** Trailing-free traces *)

Definition no_trailing (tr : list event) : Prop :=
  Forall (fun e => e <> ETrailing) tr.

Lemma run_atoms_trace cfg l (st : fstate (list event)) :
  exists tr, run_atoms trace_writer cfg l st =
    (put (fst (run_atoms trace_writer cfg l st)) (f_write st ++ tr), true) /\
    no_trailing tr.
Proof.
  pose (wr := {| w_str := fun _ (_ : unit) => (tt, true);
                 w_line := fun _ _ => (tt, true);
                 w_trailing := fun _ _ => (tt, false) |}).
  pose proof (run_atoms_sim wr cfg l st tt) as [tr [E1 E2]].
  exists tr. split.
  - rewrite <- E1, put_self.
    pose proof (run_atoms_ok trace_writer cfg ltac:(split; auto) l st) as O.
    destruct (run_atoms trace_writer cfg l st); cbn in *; subst; auto.
  - assert (O : snd (run_atoms wr cfg l (put st tt)) = true)
      by (apply run_atoms_ok; split; auto).
    assert (R : snd (replay wr cfg tr tt) = true).
    { destruct (replay wr cfg tr tt) as [w' [|]]; auto. destruct E2; congruence. }
    clear E1 E2 O. unfold no_trailing. revert R. generalize tt at 1 as u.
    induction tr as [|e tr IH]; intros u R; constructor.
    + intros ->. cbn in R. discriminate.
    + destruct e; cbn in R; try discriminate; eauto.
Qed.

(** ** Vectors of lines *)

Definition glue (buf : str) (ls : list str) : list str :=
  match ls with [] => [buf] | x :: ls' => (buf ++ x) :: ls' end.

Lemma sym_lines_nonempty o : sym_lines o <> [].
Proof. destruct o as [|[c|] o]; cbn; try discriminate. destruct (sym_lines o); discriminate. Qed.

Lemma sym_lines_chars s o : sym_lines (map Ch s ++ o) = glue s (sym_lines o).
Proof.
  induction s as [|c s IH]; cbn [map app sym_lines].
  - pose proof (sym_lines_nonempty o). destruct (sym_lines o); [congruence|auto].
  - rewrite IH. pose proof (sym_lines_nonempty o). destruct (sym_lines o); [congruence|auto].
Qed.

Lemma glue_glue a b ls : glue a (glue b ls) = glue (a ++ b) ls.
Proof. destruct ls; cbn; rewrite ?app_assoc; auto. Qed.

Lemma replay_vec cfg tr : no_trailing tr -> forall tgt buf,
  exists v, replay vec_writer cfg tr (mk_vec tgt buf) = (v, true) /\
    into_vec v = tgt ++ glue buf (sym_lines (flat tr)).
Proof.
  induction 1 as [|e tr Hne Htr IH]; intros tgt buf; cbn [replay flat flat_map].
  - eexists; split; [reflexivity|]. cbn. rewrite app_nil_r. reflexivity.
  - destruct e as [s| |]; [| |congruence]; cbn [do_event vec_writer w_str w_line v_target v_buffer flat_event].
    + destruct (IH tgt (buf ++ s)) as [v [E1 E2]]. exists v. split; auto.
      rewrite E2. rewrite sym_lines_chars, glue_glue. reflexivity.
    + destruct (IH (tgt ++ [buf]) []) as [v [E1 E2]]. exists v. split; auto.
      rewrite E2, <- app_assoc. cbn [app sym_lines glue]. rewrite app_nil_r. do 2 f_equal.
      fold (flat tr). pose proof (sym_lines_nonempty (flat tr)).
      destruct (sym_lines (flat tr)); [congruence|auto].
Qed.

Lemma text_join nl o : text nl o = join nl (sym_lines o).
Proof.
  induction o as [|[c|] o IH]; cbn [sym_lines]; auto.
  - cbn [text flat_map sym_text app] in *. fold (text nl o). rewrite IH.
    pose proof (sym_lines_nonempty o). destruct (sym_lines o) as [|l [|l2 ls]]; [congruence| |]; reflexivity.
  - cbn [text flat_map sym_text] in *. fold (text nl o). rewrite IH.
    pose proof (sym_lines_nonempty o). destruct (sym_lines o) as [|l ls]; [congruence|].
    reflexivity.
Qed.

(** All writers at once, for a sequence of atoms on a fresh formatter. *)
Section Fresh.
Context (cfg : config) (l : list atom).
Notation nl := (c_newline cfg).
Notation out := (layout (c_indentation cfg) l).

Lemma fresh_trace :
  exists tr stt, run_atoms trace_writer cfg l (formatter_new []) = (stt, true) /\
    f_write stt = tr /\ no_trailing tr /\ flat tr = out.
Proof.
  destruct (run_atoms_trace cfg l (formatter_new [])) as [tr [E1 E2]].
  exists tr. eexists. split; [exact E1|]. cbn [f_write put app formatter_new]. split; auto.
  split; auto.
  destruct (run_layout cfg l true 0%Z [] (formatter_new []) (new_inv [])) as [st' [L1 [L2 _]]].
  pose proof (run_atoms_sim sym_writer cfg l (formatter_new []) []) as [tr2 [S1 S2]].
  rewrite E1 in S1. cbn [fst f_write put formatter_new app] in S1. subst tr2.
  rewrite replay_sym in S2.
  change (put (formatter_new []) []) with (@formatter_new (list sym) []) in S2.
  rewrite L1 in S2. inversion S2 as [[S3 S4]]. rewrite S3 in L2. cbn in L2. exact L2.
Qed.

Lemma fresh_replay {W} (wr : writer W) w :
  exists tr, no_trailing tr /\ flat tr = out /\
    f_write (fst (run_atoms wr cfg l (formatter_new w))) = fst (replay wr cfg tr w) /\
    snd (run_atoms wr cfg l (formatter_new w)) = snd (replay wr cfg tr w).
Proof.
  destruct fresh_trace as [tr [stt [E1 [E2 [E3 E4]]]]]. exists tr. split; auto. split; auto.
  pose proof (run_atoms_sim wr cfg l (formatter_new []) w) as [tr2 [S1 S2]].
  rewrite E1 in S1, S2. cbn [fst snd f_write put formatter_new app] in S1, S2.
  rewrite E2 in S1. cbn in S1. subst tr2.
  change (put (formatter_new []) w) with (formatter_new w) in S2.
  destruct (replay wr cfg tr w) as [w' [|]]; cbn [fst snd].
  - rewrite S2. auto.
  - exact S2.
Qed.

End Fresh.
