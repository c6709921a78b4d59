(** * Settings and quoted values inside of string literals, exactly (C14). *)
From Verif Require Import Str StrFacts Tokens SpecTokens TokensRun Fmt SpecFmt RenderFacts WriterFacts LayoutFacts HistoryFacts OutputFacts
  FileFacts StringFacts HeaderFacts Quote LangBase LangC LangCsharp LangDart LangGo LangJava LangJs LangNix LangPython LangRust LangSwift PropsFmt.

(** Values that are quoted inside of string literals are on one line: nothing in them
    asks for a line break or for another level. *)
Definition stays {LI} (x : item LI) : bool :=
  match x with Push | Line => false | Indentation n => Z.eqb n 0 | _ => true end.
Fixpoint node_one_line {LI} (n : node LI) : bool :=
  match n with
  | NItem _ => true
  | NString _ ps => forallb part_one_line ps
  end
with part_one_line {LI} (p : part LI) : bool :=
  match p with
  | PItem _ => true
  | PQuoted xs => forallb stays xs
  | PEval ns => forallb node_one_line ns
  end.

(** A language that writes every character of a string on its own: an [a] as itself, a
    backslash as two, none as nothing; and has quotes. *)
Definition by_character {LI} (ops : lang_ops LI) : Prop :=
  exists e, (forall s, l_write_quoted ops s = map e s) /\ (forall c, e c <> []) /\
    e 97%N = [97%N] /\ e 92%N = [92; 92]%N /\
    concat (l_open_quote ops false) <> [] /\ concat (l_close_quote ops false) <> [].

Section Sources.
Context {LI : Type} (ops : lang_ops LI).

Lemma atoms_still (xs : list (item LI)) : forallb stays xs = negb (existsb a_break (atoms ops xs)).
Proof.
  unfold atoms. induction xs as [|x xs IH]; [reflexivity|]. cbn [forallb flat_map]. rewrite existsb_app, negb_orb, IH. f_equal. clear.
  assert (T : forall ss, existsb a_break (map AText ss) = false) by (induction ss; cbn; auto).
  destruct x; cbn; try reflexivity; rewrite ?T; try reflexivity. destruct (Z.eqb n 0); reflexivity.
Qed.
Lemma net_still l : existsb a_break l = false -> net l = 0%Z.
Proof.
  induction l as [|a l IH]; [reflexivity|]. cbn [existsb]. intros H. apply orb_false_iff in H as [H1 H2]. cbn [net]. rewrite (IH H2).
  destruct a; try reflexivity. cbn in *. destruct (Z.eqb_spec n 0); [lia|discriminate].
Qed.
Lemma lines_break l : existsb a_break l = false -> existsb a_line l = false.
Proof.
  induction l as [|a l IH]; [reflexivity|]. cbn [existsb]. intros H. apply orb_false_iff in H as [H1 H2]. rewrite (IH H2). destruct a; try reflexivity. discriminate H1.
Qed.
Lemma layout_still l : forall first gap, existsb a_break (gap ++ l) = false -> exists s, forall ind, layout_from ind first 0 gap l = map Ch s.
Proof.
  induction l as [|a l IH]; intros first gap H; [exists []; reflexivity|]. cbn [layout_from]. destruct (a_text a) as [|c s] eqn:A.
  - apply IH. rewrite <- app_assoc. exact H.
  - rewrite existsb_app in H. apply orb_false_iff in H as [H1 H2]. cbn [existsb] in H2. apply orb_false_iff in H2 as [_ H2].
    destruct (IH false [] H2) as [s' E]. exists (repeat 32%N (count_spaces gap) ++ (c :: s) ++ s'). intros ind.
    rewrite (net_still gap H1). change (0 + 0)%Z with 0%Z. rewrite E. rewrite !map_app, <- blanks_text. f_equal. unfold separator. rewrite (lines_break gap H1), H1.
    destruct first; [|reflexivity]. unfold pad. destruct ind; reflexivity.
Qed.
(** A break before visible text is a new line. *)
Lemma layout_breaks ind ss : concat ss <> [] -> forall l lvl gap, existsb a_break (gap ++ l) = true -> In NL (layout_from ind false lvl gap (l ++ texts ss)).
Proof.
  intros NE. assert (B : forall lvl gap s, existsb a_break gap = true -> In NL (separator ind false lvl gap ++ s)).
  { intros lvl gap s H. unfold separator. destruct (existsb a_line gap); [left; reflexivity|]. rewrite H. left; reflexivity. }
  induction l as [|a l IH]; intros lvl gap H.
  - rewrite app_nil_r in H. cbn [app]. revert gap H. induction ss as [|s ss IH]; intros gap H; [contradiction NE; reflexivity|]. cbn [texts map layout_from a_text].
    destruct s as [|c s]; [apply IH; [exact NE|rewrite existsb_app, H; reflexivity]|apply B; exact H].
  - cbn [app layout_from]. destruct (a_text a) as [|c s] eqn:A; [apply IH; rewrite <- app_assoc; exact H|].
    rewrite existsb_app in H. apply orb_true_iff in H as [H|H]; [apply B, H|]. apply in_or_app. right. apply in_or_app. right. apply IH.
    cbn [existsb] in H. apply orb_true_iff in H as [H|H]; [destruct a; discriminate|exact H].
Qed.
Lemma source_still c1 c2 xs : forallb stays xs = true -> quoted_source ops c1 xs = quoted_source ops c2 xs.
Proof.
  intros H. unfold quoted_source, layout.
  assert (T : forall ss, existsb a_break (texts ss) = false) by (induction ss; cbn; auto).
  destruct (layout_still (texts (l_open_quote ops false) ++ atoms ops xs ++ texts (l_close_quote ops false)) true []) as [s E].
  { cbn [app]. rewrite !existsb_app, !T. rewrite atoms_still in H. apply negb_true_iff in H. rewrite H. reflexivity. }
  rewrite !E, !text_chars. reflexivity.
Qed.
Fixpoint node_atoms_one_line c1 c2 (n : node LI) : node_one_line n = true -> node_atoms ops c1 n = node_atoms ops c2 n
with part_atoms_one_line c1 c2 (p : part LI) : part_one_line p = true -> part_atoms ops c1 p = part_atoms ops c2 p.
Proof.
  - destruct n as [x|e ps]; [reflexivity|]. change (node_one_line (NString e ps)) with (forallb part_one_line ps). intros H.
    rewrite !node_atoms_string. f_equal. f_equal.
    induction ps as [|p ps IH]; [reflexivity|].
    cbn [forallb] in H. apply andb_true_iff in H as [H1 H2].
    cbn [flat_map]. rewrite (part_atoms_one_line c1 c2 p H1), (IH H2). reflexivity.
  - destruct p as [x|xs|ns]; [reflexivity| |].
    + cbn [part_one_line part_atoms]. intros H. rewrite (source_still c1 c2 xs H). reflexivity.
    + change (part_one_line (PEval ns)) with (forallb node_one_line ns). intros H.
      rewrite !part_atoms_eval. destruct (single_literal ns); [reflexivity|].
      f_equal. f_equal.
      induction ns as [|n ns IH]; [reflexivity|].
      cbn [forallb] in H. apply andb_true_iff in H as [H1 H2].
      cbn [flat_map]. rewrite (node_atoms_one_line c1 c2 n H1), (IH H2). reflexivity.
Qed.
Lemma doc_atoms_one_line c1 c2 ns : forallb node_one_line ns = true -> doc_atoms ops c1 ns = doc_atoms ops c2 ns.
Proof.
  induction ns as [|n ns IH]; [reflexivity|]. cbn [forallb]. intros H.
  apply andb_true_iff in H as [H1 H2]. unfold doc_atoms in *; cbn [flat_map].
  rewrite (node_atoms_one_line c1 c2 n H1), IH; auto.
Qed.

(** ** Lengths *)
Definition asks (a : atom) : bool := match a with AText _ => false | _ => true end.
Lemma sep_asks ind first lvl g : separator ind first lvl (filter asks g) = separator ind first lvl g.
Proof.
  assert (C : forall g, count_spaces (filter asks g) = count_spaces g).
  { clear. unfold count_spaces. intros g. f_equal. induction g as [|a g IH]; [reflexivity|]. destruct a; cbn; rewrite ?IH; reflexivity. }
  assert (X : forall p, p (AText []) = p (AText []) -> (forall s, p (AText s) = false) -> forall g, existsb p (filter asks g) = existsb p g).
  { clear. intros p _ P g. induction g as [|a g IH]; [reflexivity|]. destruct a; cbn [filter asks existsb]; rewrite ?IH, ?P; reflexivity. }
  assert (A : forall p, (forall s, p (AText s) = false) -> forall g, after_last p (filter asks g) = filter asks (after_last p g)).
  { intros p P. intros g'. induction g' as [|a g' IH]; [reflexivity|]. destruct (asks a) eqn:Q.
    - cbn [filter]. rewrite Q. cbn [after_last]. rewrite (X p eq_refl P g'). destruct (existsb p g'); [exact IH|]. destruct (p a); [reflexivity|]. cbn [filter]. rewrite Q. reflexivity.
    - cbn [filter]. rewrite Q. cbn [after_last]. destruct a; try discriminate Q. destruct (existsb p g') eqn:Y; [exact IH|]. rewrite P. cbn [filter asks].
      rewrite IH. f_equal. clear -Y. induction g' as [|b g' IHg]; [reflexivity|]. cbn [existsb] in Y. apply orb_false_iff in Y as [Y1 Y2]. cbn [after_last]. rewrite Y2, Y1. reflexivity. }
  unfold separator. rewrite !C, !(X a_line), !(X a_break) by reflexivity. rewrite !(A a_line), !(A a_break), !C by reflexivity. reflexivity.
Qed.
Lemma net_asks g : net (filter asks g) = net g.
Proof. induction g as [|a g IH]; [reflexivity|]. destruct a; cbn; rewrite ?IH; reflexivity. Qed.
Lemma layout_asks ind l : forall first lvl g1 g2, filter asks g1 = filter asks g2 -> layout_from ind first lvl g1 l = layout_from ind first lvl g2 l.
Proof.
  induction l as [|a l IH]; intros first lvl g1 g2 E; [reflexivity|]. cbn [layout_from]. destruct (a_text a) as [|c s].
  - apply IH. rewrite !filter_app, E. reflexivity.
  - rewrite <- (sep_asks ind first _ g1), <- (sep_asks ind first _ g2), <- (net_asks g1), <- (net_asks g2), E. reflexivity.
Qed.
Lemma layout_segment ind ss l : forall first lvl g, concat ss <> [] ->
  layout_from ind first lvl g (texts ss ++ l) = separator ind first (lvl + net g) g ++ map Ch (concat ss) ++ layout_from ind false (lvl + net g) [] l.
Proof.
  assert (M : forall lvl ss, layout_from ind false lvl [] (texts ss ++ l) = map Ch (concat ss) ++ layout_from ind false lvl [] l).
  { intros lvl ss'. induction ss' as [|s ss' IH]; [reflexivity|]. cbn [texts map app layout_from a_text concat]. fold (texts ss'). destruct s as [|c s].
    - rewrite (layout_asks ind _ false lvl _ []) by reflexivity. exact IH.
    - cbn [net]. rewrite Z.add_0_r, IH, map_app, <- app_assoc. reflexivity. }
  induction ss as [|s ss IH]; intros first lvl g NE; [contradiction NE; reflexivity|]. cbn [texts map app layout_from a_text concat]. fold (texts ss). destruct s as [|c s].
  - rewrite (layout_asks ind _ first lvl _ g) by (rewrite filter_app; cbn; apply app_nil_r). apply IH. exact NE.
  - rewrite M, map_app, <- app_assoc. reflexivity.
Qed.
Definition weight (l : list atom) : nat := length (flat_map a_text l).
Lemma weight_app a b : weight (a ++ b) = weight a + weight b.
Proof. unfold weight. rewrite flat_map_app, app_length. reflexivity. Qed.
Lemma weight_texts ss : weight (texts ss) = length (concat ss).
Proof. unfold weight, texts. f_equal. induction ss as [|s ss IH]; [reflexivity|]. cbn. rewrite IH. reflexivity. Qed.
(** The same but for the texts that are shown in some places. *)
Inductive aligned : list atom -> list atom -> Prop :=
| al_nil : aligned [] []
| al_same a l1 l2 : aligned l1 l2 -> aligned (a :: l1) (a :: l2)
| al_text s1 s2 l1 l2 : concat s1 <> [] -> concat s2 <> [] -> aligned l1 l2 -> aligned (texts s1 ++ l1) (texts s2 ++ l2).
Lemma aligned_refl l : aligned l l. Proof. induction l; constructor; assumption. Qed.
Lemma aligned_app a1 a2 b1 b2 : aligned a1 a2 -> aligned b1 b2 -> aligned (a1 ++ b1) (a2 ++ b2).
Proof. induction 1; intros B; [exact B|constructor; auto|]. rewrite <- !app_assoc. constructor; auto. Qed.
Lemma aligned_length ind l1 l2 : aligned l1 l2 -> forall first lvl g,
  length (layout_from ind first lvl g l1) + weight l2 = length (layout_from ind first lvl g l2) + weight l1.
Proof.
  induction 1 as [|a l1 l2 A IH|s1 s2 l1 l2 N1 N2 A IH]; intros first lvl g; [reflexivity| |].
  - change (a :: l1) with ([a] ++ l1). change (a :: l2) with ([a] ++ l2). rewrite !weight_app. cbn [app layout_from]. destruct (a_text a) as [|c s].
    + specialize (IH first lvl (g ++ [a])). lia.
    + specialize (IH false (lvl + net g)%Z []). rewrite !app_length. lia.
  - rewrite !layout_segment by assumption. rewrite !weight_app, !weight_texts, !app_length, !map_length. specialize (IH false (lvl + net g)%Z []). lia.
Qed.

Section Two.
Context (e : N -> str) (EW : forall s, l_write_quoted ops s = map e s) (EN : forall c, e c <> [])
        (EA : e 97%N = [97%N]) (EB : e 92%N = [92; 92]%N)
        (NO : concat (l_open_quote ops false) <> []) (NC : concat (l_close_quote ops false) <> []) (ind : indentation_kind).
Notation ca := (mk_config ind [97%N]). Notation cb := (mk_config ind [92%N]).
Lemma source_weight xs : length (flat_map e (quoted_source ops ca xs)) <= length (flat_map e (quoted_source ops cb xs)) /\
  (forallb stays xs = false -> length (flat_map e (quoted_source ops ca xs)) < length (flat_map e (quoted_source ops cb xs))).
Proof.
  unfold quoted_source. cbn [c_newline c_indentation]. set (o := layout ind _).
  assert (G : forall o, length (flat_map e (text [97%N] o)) <= length (flat_map e (text [92%N] o)) /\ (In NL o -> length (flat_map e (text [97%N] o)) < length (flat_map e (text [92%N] o)))).
  { clear -EA EB. induction o as [|x o [IH1 IH2]]; [split; [apply Nat.le_refl|intros []]|]. unfold text in *. destruct x as [c|]; cbn [flat_map sym_text app] in *.
    - rewrite !app_length. split; [lia|]. intros [H|H]; [discriminate|]. specialize (IH2 H). lia.
    - rewrite EA, EB. cbn [app length]. lia. }
  destruct (G o) as [G1 G2]. split; [exact G1|]. intros H. apply G2. rewrite atoms_still in H. apply negb_false_iff in H. unfold o, layout.
  rewrite layout_segment by exact NO. apply in_or_app. right. apply in_or_app. right. apply layout_breaks; [exact NC|exact H].
Qed.
Lemma source_shown c xs : quoted_source ops c xs <> [].
Proof.
  unfold quoted_source, layout. rewrite layout_segment by exact NO. rewrite !text_app, text_chars. intros H. apply app_eq_nil in H as [_ H]. apply app_eq_nil in H as [H _]. exact (NO H).
Qed.
Lemma written_shown s : s <> [] -> concat (map e s) <> [].
Proof. destruct s as [|c s]; [congruence|]. intros _ H. cbn in H. apply app_eq_nil in H as [H _]. exact (EN c H). Qed.
Fixpoint node_two (n : node LI) : aligned (node_atoms ops ca n) (node_atoms ops cb n) /\ weight (node_atoms ops ca n) <= weight (node_atoms ops cb n) /\
  (node_one_line n = false -> weight (node_atoms ops ca n) < weight (node_atoms ops cb n))
with part_two (p : part LI) : aligned (part_atoms ops ca p) (part_atoms ops cb p) /\ weight (part_atoms ops ca p) <= weight (part_atoms ops cb p) /\
  (part_one_line p = false -> weight (part_atoms ops ca p) < weight (part_atoms ops cb p)).
Proof.
  - destruct n as [x|he ps]; [split; [apply aligned_refl|split; [apply Nat.le_refl|discriminate]]|]. rewrite !node_atoms_string, !weight_app.
    change (node_one_line (NString he ps)) with (forallb part_one_line ps).
    assert (G : aligned (flat_map (part_atoms ops ca) ps) (flat_map (part_atoms ops cb) ps) /\ weight (flat_map (part_atoms ops ca) ps) <= weight (flat_map (part_atoms ops cb) ps) /\
      (forallb part_one_line ps = false -> weight (flat_map (part_atoms ops ca) ps) < weight (flat_map (part_atoms ops cb) ps))).
    { induction ps as [|p ps (I1 & I2 & I3)]; [split; [constructor|split; [apply Nat.le_refl|discriminate]]|]. destruct (part_two p) as (P1 & P2 & P3). cbn [flat_map forallb]. rewrite !weight_app.
      split; [apply aligned_app; assumption|]. split; [lia|]. intros H. apply andb_false_iff in H as [H|H]; [specialize (P3 H)|specialize (I3 H)]; lia. }
    destruct G as (G1 & G2 & G3). split; [apply aligned_app; [apply aligned_refl|apply aligned_app; [exact G1|apply aligned_refl]]|]. split; [lia|]. intros H. specialize (G3 H). lia.
  - destruct p as [x|xs|ns]; [split; [apply aligned_refl|split; [apply Nat.le_refl|discriminate]]| |].
    + cbn [part_atoms part_one_line]. rewrite !EW, !weight_texts. destruct (source_weight xs) as [W1 W2]. assert (CF : forall s, concat (map e s) = flat_map e s) by (intros; symmetry; apply flat_map_concat_map); rewrite !CF. split; [|split; [exact W1|exact W2]].
      pose proof (al_text (map e (quoted_source ops ca xs)) (map e (quoted_source ops cb xs)) [] []) as K. rewrite !app_nil_r in K.
      apply K; [apply written_shown, source_shown|apply written_shown, source_shown|constructor].
    + change (part_one_line (PEval ns)) with (forallb node_one_line ns). rewrite !part_atoms_eval. destruct (single_literal ns) as [s|] eqn:SL.
      { split; [apply aligned_refl|]. split; [apply Nat.le_refl|]. intros H. exfalso. unfold single_literal in SL.
        assert (X : forall n, In n ns -> node_one_line n = true).
        { intros n I. apply in_split in I as (a & b & ->). unfold doc_items in SL. rewrite flat_map_app in SL. cbn [flat_map] in SL.
          destruct n as [x|he ps]; [reflexivity|]. exfalso. rewrite node_items_string in SL.
          destruct (flat_map node_items a) as [|y [|z r]]; cbn [app] in SL; try discriminate SL.
          - destruct y; discriminate SL.
          - destruct y; discriminate SL. }
        assert (Y : forallb node_one_line ns = true) by (apply forallb_forall; exact X). congruence. }
      rewrite !weight_app.
      assert (G : aligned (flat_map (node_atoms ops ca) ns) (flat_map (node_atoms ops cb) ns) /\ weight (flat_map (node_atoms ops ca) ns) <= weight (flat_map (node_atoms ops cb) ns) /\
        (forallb node_one_line ns = false -> weight (flat_map (node_atoms ops ca) ns) < weight (flat_map (node_atoms ops cb) ns))).
      { clear SL. induction ns as [|n ns (I1 & I2 & I3)]; [split; [constructor|split; [apply Nat.le_refl|discriminate]]|]. destruct (node_two n) as (P1 & P2 & P3). cbn [flat_map forallb]. rewrite !weight_app.
        split; [apply aligned_app; assumption|]. split; [lia|]. intros H. apply andb_false_iff in H as [H|H]; [specialize (P3 H)|specialize (I3 H)]; lia. }
      destruct G as (G1 & G2 & G3). split; [apply aligned_app; [apply aligned_refl|apply aligned_app; [exact G1|apply aligned_refl]]|]. split; [lia|]. intros H. specialize (G3 H). lia.
Qed.
Lemma doc_two ns : forallb node_one_line ns = false -> length (layout ind (doc_atoms ops ca ns)) < length (layout ind (doc_atoms ops cb ns)).
Proof.
  intros H. assert (G : aligned (doc_atoms ops ca ns) (doc_atoms ops cb ns) /\ weight (doc_atoms ops ca ns) <= weight (doc_atoms ops cb ns) /\
    (forallb node_one_line ns = false -> weight (doc_atoms ops ca ns) < weight (doc_atoms ops cb ns))).
  { clear H. unfold doc_atoms. induction ns as [|n ns (I1 & I2 & I3)]; [split; [constructor|split; [apply Nat.le_refl|discriminate]]|]. destruct (node_two n) as (P1 & P2 & P3). cbn [flat_map forallb]. rewrite !weight_app.
    split; [apply aligned_app; assumption|]. split; [lia|]. intros H. apply andb_false_iff in H as [H|H]; [specialize (P3 H)|specialize (I3 H)]; lia. }
  destruct G as (G1 & _ & G3). specialize (G3 H). pose proof (aligned_length ind _ _ G1 true 0%Z []) as E. unfold layout. lia.
Qed.
End Two.
End Sources.

(** The line ending is nothing but what separates lines exactly if the values that are
    quoted inside of string literals are on one line. *)
Theorem C14_newline_exact : forall LI (ops : lang_ops LI) ind ns, by_character ops -> doc_ok ns = true ->
  ((exists o : list sym, forall newline,
      outcome (format_items ops (mk_config ind newline) string_writer (doc_items ns) (formatter_new [])) = (text newline o, true)) <->
   forallb node_one_line ns = true).
Proof.
  intros LI ops ind ns (e & EW & EN & EA & EB & NO & NC) OK. split.
  - intros [o H]. destruct (forallb node_one_line ns) eqn:S; [reflexivity|]. exfalso.
    pose proof (doc_two ops e EW EN EA EB NO NC ind ns S) as L. pose proof (H [97%N]) as H1. pose proof (H [92%N]) as H2.
    rewrite C10_layout_documents in H1, H2 by exact OK. cbn [c_newline c_indentation] in H1, H2. injection H1 as H1. injection H2 as H2.
    assert (T : forall c o, length (text [c] o) = length o).
    { clear. intros c o. induction o as [|x o IH]; [reflexivity|]. unfold text in *. destruct x; cbn; rewrite IH; reflexivity. }
    apply (f_equal (@length N)) in H1, H2. rewrite !T in H1, H2. lia.
  - intros S. exists (layout ind (doc_atoms ops (mk_config ind []) ns)). intros newline. rewrite C10_layout_documents by exact OK. cbn [c_newline c_indentation].
    rewrite (doc_atoms_one_line ops (mk_config ind newline) (mk_config ind []) ns S). reflexivity.
Qed.
Print Assumptions C14_newline_exact.

(** So it is for the style of indentation and the line ending together. *)
Theorem C14_settings_exact : forall LI (ops : lang_ops LI) ns, by_character ops -> doc_ok ns = true ->
  ((exists lines : list (Z * str), forall ind newline,
      outcome (format_items ops (mk_config ind newline) string_writer (doc_items ns) (formatter_new [])) =
      (join newline (map (fun '(level, rest) => indent_text ind level ++ rest) lines), true)) <->
   forallb node_one_line ns = true).
Proof.
  intros LI ops ns B OK. split.
  - intros [lines H]. apply (C14_newline_exact LI ops ITab ns B OK). 
    assert (J : forall ls, exists o, forall nl, join nl ls = text nl o).
    { induction ls as [|l ls [o IH]]; [exists []; reflexivity|]. destruct ls as [|l2 ls]; [exists (map Ch l); intros nl; rewrite text_chars; reflexivity|].
      exists (map Ch l ++ [NL] ++ o). intros nl. rewrite !text_app, text_chars, <- IH. unfold text at 1. cbn [flat_map sym_text join]. rewrite app_nil_r. reflexivity. }
    destruct (J (map (fun '(level, rest) => indent_text ITab level ++ rest) lines)) as [o Jo]. exists o. intros nl. rewrite H, Jo. reflexivity.
  - intros S. destruct (layout_style (doc_atoms ops (mk_config ITab []) ns)) as [ls H]. exists ls.
    intros ind newline. rewrite C10_layout_documents by exact OK. cbn [c_newline c_indentation].
    rewrite (doc_atoms_one_line ops (mk_config ind newline) (mk_config ITab []) ns S). rewrite WriterFacts.text_join, H. reflexivity.
Qed.
Print Assumptions C14_settings_exact.

(** The languages are such languages. *)
Lemma char_shown : (forall c, c_family_char c <> []) /\ (forall c, rust_char c <> []) /\ (forall c, js_char c <> []) /\
  (forall c, dart_char c <> []) /\ (forall c, java_char c <> []) /\ (forall c, swift_char c <> []).
Proof.
  assert (U : forall c, utf16_escapes c <> []) by (intros c; unfold utf16_escapes, utf16_char; destruct (c <? 65536)%N; discriminate).
  repeat split; intros c; match goal with |- ?f c <> [] => unfold f end;
    repeat match goal with |- (if ?b then _ else _) <> [] => destruct b end; try discriminate; apply U.
Qed.
Theorem C14_languages :
  by_character (ld_ops c_lang tt tt) /\ (forall c f, by_character (ld_ops csharp_lang c f)) /\ by_character (ld_ops dart_lang tt tt) /\
  (forall c, by_character (ld_ops go_lang c tt)) /\ (forall c f, by_character (ld_ops java_lang c f)) /\
  (forall r c, by_character (ld_ops (js_lang r) c tt)) /\ (forall c, by_character (ld_ops nix_lang c tt)) /\
  by_character (ld_ops python_lang tt tt) /\ (forall c, by_character (ld_ops rust_lang c tt)) /\ by_character (ld_ops swift_lang tt tt).
Proof.
  destruct char_shown as (C1 & C2 & C3 & C4 & C5 & C6).
  repeat split; intros; eexists; (split; [intros; reflexivity|]); (split; [assumption|]); repeat split; try (vm_compute; reflexivity); discriminate.
Qed.
Print Assumptions C14_languages.

(** A value quoted inside of a literal, on one line and on two. *)
Example C14_exact_example :
  let one := [NString false [PItem (lit $"v = "); PQuoted [lit $"a"; Space; lit $"b"]]; NItem Push; @NItem nat (lit $";")] in
  let two := [NString false [PItem (lit $"v = "); PQuoted [lit $"a"; Push; lit $"b"]]; NItem Push; @NItem nat (lit $";")] in
  doc_ok one = true /\ doc_ok two = true /\ forallb node_one_line one = true /\ forallb node_one_line two = false /\
  forallb node_simple one = false.
Proof. repeat split. Qed.
