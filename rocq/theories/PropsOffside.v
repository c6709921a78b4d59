(** * Block structure by indentation (C70).

    Vocabulary: [SpecOffside.v] (how Python reads indentation), [SpecMacro.v]
    (source text, levels), [SpecWords.v] (lines of words and what they show),
    [SpecPython.v]. *)
From Verif Require Import Str Tokens SpecTokens TokensRun TokensFacts Values Fmt SpecFmt RenderFacts OutputFacts
  SpecFile SpecHeader SpecOrder Macro SpecMacro MacroFacts MacroTokens MacroLines MacroRender SpecWords WordsFacts
  LangBase LangPython SpecPython PythonFacts HeaderFacts SpecOffside OffsideFacts PropsLang PropsMacro PropsHeader PropsNames PropsWords.

(** ** Source *)

Definition one_block (l : src_line) : line_of (list str) := mk_line_of (sl_empty l) (sl_col l) [line_text l] [].
Lemma source_one_blocks ind ls : Forall (fun l => plain (line_text l)) ls -> forall before,
  output_lines ind before ls = block_lines ind (map sl_col before) (map one_block ls).
Proof.
  induction 1 as [|l ls P F IH]; intros before; [reflexivity|]. cbn [output_lines map block_lines one_block ln_empty ln_col ln_word ln_more side_by_side fold_left].
  rewrite IH, map_app. cbn [map app]. destruct P as [(c & s & E & _) _]. rewrite E. cbn [indent_line app].
  destruct before; reflexivity.
Qed.
Lemma one_proper ind ls : Forall (fun l => plain (line_text l)) ls ->
  Forall (fun l => proper_block ind (side_by_side (ln_word l) (ln_more l))) (map one_block ls).
Proof.
  intros F. apply Forall_map. eapply Forall_impl; [|exact F]. intros l P. exists (line_text l), []. auto.
Qed.
Lemma python_one s : plain s -> python_lines [s] = Some [Statement s].
Proof. intros P. unfold python_lines. cbn [map]. rewrite columns_plain by exact P. cbn [blocks]. rewrite plain_counts by exact P. reflexivity. Qed.
Lemma one_followed ls : Forall (fun l => plain (line_text l)) ls -> followed (at_columns (map one_block ls)).
Proof.
  induction 1 as [|l ls P F IH]; [exact I|]. cbn [at_columns map followed]. fold (at_columns (map one_block ls)). split; [|exact IH].
  destruct (at_columns (map one_block ls)) as [|[c b] xs]; [exact I|]. intros (es & H). exfalso. cbn [one_block ln_word ln_more side_by_side fold_left] in H.
  rewrite python_one in H by exact P. destruct es as [|x [|y es]]; discriminate.
Qed.
Lemma one_nested ls : Forall (fun l => plain (line_text l)) ls -> forall open,
  nested open (at_columns (map one_block ls)) = blocks open (map (fun l => (sl_col l, line_text l)) ls).
Proof.
  induction 1 as [|l ls P F IH]; intros open; [reflexivity|]. cbn [at_columns map nested blocks one_block ln_col ln_word ln_more side_by_side fold_left].
  fold (at_columns (map one_block ls)). rewrite python_one, plain_counts by exact P. destruct (start_line _ _) as [[es o]|]; [|reflexivity]. rewrite IH. reflexivity.
Qed.
Lemma one_source ls : Forall (fun l => plain (line_text l)) ls -> nested_blocks (at_columns (map one_block ls)) = source_blocks ls.
Proof. intros F. destruct ls as [|l ls]; [reflexivity|]. exact (one_nested (l :: ls) F [sl_col l]). Qed.

Lemma source_python ind nl ls es : indents ind -> line_end nl -> Forall (fun l => plain (line_text l)) ls -> source_blocks ls = Some es ->
  python (join nl (output_lines ind [] ls)) = Some es.
Proof.
  intros I NL F H. rewrite (source_one_blocks ind ls F []). cbn [map]. rewrite python_of_lines by (auto using one_proper).
  apply blocks_of_lines; auto using one_proper, one_followed. rewrite one_source; auto.
Qed.
Lemma source_fit ls es : Forall (fun l => plain (line_text l)) ls -> source_blocks ls = Some es ->
  forall before c after, map sl_col ls = before ++ c :: after -> before <> [] -> may_start before c.
Proof.
  intros F H. rewrite <- one_source in H by exact F. apply nested_lines_fit in H. unfold lines_fit in H. rewrite map_map in H. exact H.
Qed.

(** The output of a quote has the block structure of its source, relative to the
    first line, whatever the configured indentation and line terminator. *)
Theorem C70_source : forall LI E (ops : lang_ops LI) cfg (qs : list (quoted_item LI E)) row ls es,
  indents (c_indentation cfg) -> line_end (c_newline cfg) ->
  all_tokens qs = source_tokens row ls -> Forall words_ok ls -> Forall (fun l => plain (line_text l)) ls ->
  source_blocks ls = Some es -> forall e,
  exists t out, quote qs e = Some (e, t) /\
  outcome (format_items ops cfg string_writer (items t) (formatter_new [])) = (out, true) /\
  python out = Some es.
Proof.
  intros LI E ops cfg qs row ls es I NL T W P S e. assert (L : laid_out ls).
  { intros before l after -> N. apply (source_fit _ _ P S (map sl_col before) (sl_col l) (map sl_col after)); [rewrite map_app; reflexivity|destruct before; [congruence|discriminate]]. }
  destruct (C54_source LI E ops cfg qs row ls T W L e) as (t & Q & O). exists t, (join (c_newline cfg) (output_lines (c_indentation cfg) [] ls)).
  split; [exact Q|]. split; [exact O|]. apply source_python; auto.
Qed.
Print Assumptions C70_source.

Lemma more_rows LI E row more : forall col, Forall (fun ct => p_line (c_start (fst ct)) = row /\ p_line (c_end (fst ct)) = row) (@more_tokens LI E row col more).
Proof. induction more as [|[g w] more IH]; intros col; constructor; auto. Qed.
Lemma source_split LI E ls1 ls2 : forall row, exists row',
  @source_tokens LI E row (ls1 ++ ls2) = source_tokens row ls1 ++ source_tokens row' ls2 /\ row <= row' /\
  Forall (fun ct => p_line (c_end (fst ct)) < row') (@source_tokens LI E row ls1).
Proof.
  induction ls1 as [|l ls1 IH]; intros row; [exists row; cbn; auto with arith|]. cbn [app source_tokens]. cbv zeta.
  destruct (IH (S (row + sl_empty l))) as (row' & E1 & L & F). exists row'. rewrite E1. split; [rewrite <- app_assoc; reflexivity|]. split; [lia|].
  constructor; [cbn; lia|]. apply Forall_app. split; [|exact F]. eapply Forall_impl; [|apply more_rows]. intros ct [_ ->]. lia.
Qed.
Lemma starts_same row cs rest : Forall (fun c => p_line (c_start c) = row /\ p_line (c_end c) = row) cs ->
  starts_after row (cs ++ rest) = starts_after row rest.
Proof.
  induction 1 as [|c cs [S1 S2] _ IH]; [reflexivity|]. cbn [app starts_after]. rewrite S1, Nat.eqb_refl, S2. exact IH.
Qed.
Lemma starts_source LI E ls : forall prev row, prev < row -> starts_after prev (map fst (@source_tokens LI E row ls)) = map sl_col ls.
Proof.
  induction ls as [|l ls IH]; intros prev row L; [reflexivity|]. cbn [source_tokens map fst]. cbv zeta. cbn [starts_after word_cursor c_start c_end p_line p_col].
  destruct (Nat.eqb_spec prev (row + sl_empty l)); [lia|]. cbn [app]. f_equal. rewrite map_app, starts_same; [apply IH; lia|].
  apply Forall_map. apply more_rows.
Qed.
Lemma line_starts_source LI E row ls : line_starts (map fst (@source_tokens LI E row ls)) = map sl_col ls.
Proof.
  destruct ls as [|l ls]; [reflexivity|]. cbn [source_tokens map fst line_starts]. cbv zeta. cbn [word_cursor c_start c_end p_line p_col]. f_equal.
  rewrite map_app, starts_same; [apply starts_source; lia|]. apply Forall_map. apply more_rows.
Qed.
Lemma first_misfit ls : Forall (fun l => plain (line_text l)) ls -> forall ss, ss <> [] ->
  blocks (enclosing ss) (map (fun l => (sl_col l, line_text l)) ls) = None ->
  exists ls1 l ls2, ls = ls1 ++ l :: ls2 /\ ~ may_start (ss ++ map sl_col ls1) (sl_col l).
Proof.
  induction 1 as [|l ls P F IH]; intros ss N H; [discriminate|]. cbn [map blocks] in H. rewrite plain_counts in H by exact P.
  pose proof (start_enclosing ss (sl_col l) N) as ST. destruct (start_line (sl_col l) (enclosing ss)) as [[es o]|].
  - destruct ST as (_ & -> & _). destruct (blocks _ _) eqn:B; [discriminate|].
    destruct (IH (ss ++ [sl_col l]) ltac:(destruct ss; discriminate) B) as (ls1 & l' & ls2 & -> & M).
    exists (l :: ls1), l', ls2. split; [reflexivity|]. rewrite <- app_assoc in M. exact M.
  - exists [], l, ls. split; [reflexivity|]. cbn [map]. rewrite app_nil_r. exact ST.
Qed.
Lemma level_zero c ss : Forall (fun d => c <= d) ss -> level (c :: ss) = 0 -> last (c :: ss) 0 = c.
Proof.
  intros F L. destruct ss as [|d ss] using rev_ind; [reflexivity|]. clear IHss. apply Forall_app in F as [F1 F2]. inversion F2 as [|? ? D _]; subst.
  rewrite app_comm_cons, last_last. destruct (Nat.eq_dec c d) as [->|N]; [reflexivity|exfalso].
  assert (E0 : length (enclosing ((c :: ss) ++ [d])) = 1) by (rewrite level_enclosing by (destruct ss; discriminate); cbn [app]; lia).
  rewrite enclosing_snoc in E0. cbn [length] in E0. 
  assert (X : forall e, In e (enclosing (c :: ss)) -> d <= e).
  { intros e I. destruct (Nat.le_gt_cases d e); [auto|exfalso]. assert (J : In e (filter (fun x => x <? d) (enclosing (c :: ss)))) by (apply filter_In; split; [exact I|apply Nat.ltb_lt; lia]).
    destruct (filter _ _); [destruct J|cbn in E0; lia]. }
  assert (M : forall ss', (forall e, In e (enclosing (c :: ss')) -> d <= e) -> Forall (fun x => c <= x) ss' -> exists m, In m (enclosing (c :: ss')) /\ m <= c).
  { clear. intros ss' _ F. induction ss' as [|x ss IH] using rev_ind; [exists c; split; [left; reflexivity|lia]|].
    apply Forall_app in F as [F1 F2]. inversion F2 as [|? ? G _]; subst. destruct (IH F1) as (m & I & L). rewrite app_comm_cons, enclosing_snoc.
    destruct (Nat.eq_dec x m) as [->|N]; [exists m; split; [left; reflexivity|exact L]|]. destruct (Nat.ltb_spec m x).
    - exists m. split; [right; apply filter_In; split; [exact I|apply Nat.ltb_lt; lia]|exact L].
    - exists x. split; [left; reflexivity|lia]. }
  destruct (M ss X F1) as (m & I & L'). specialize (X m I). lia.
Qed.

(** If the indentation of the source is inconsistent and no line is further left
    than the first, the quote is rejected. *)
Theorem C70_inconsistent : forall LI E (qs : list (quoted_item LI E)) row l ls,
  all_tokens qs = source_tokens row (l :: ls) -> Forall (fun l => plain (line_text l)) (l :: ls) ->
  Forall (fun l' => sl_col l <= sl_col l') ls ->
  source_blocks (l :: ls) = None -> quote_code qs = None.
Proof.
  intros LI E qs row l ls T P C SB. cbn [source_blocks map blocks] in SB. inversion P as [|? ? P1 P2]; subst. rewrite plain_counts in SB by exact P1.
  unfold start_line in SB. rewrite Nat.ltb_irrefl in SB. cbn [close_blocks] in SB. rewrite Nat.eqb_refl in SB. cbn [option_map repeat app] in SB.
  destruct (blocks _ _) eqn:B; [discriminate|]. change [sl_col l] with (enclosing [sl_col l]) in B.
  destruct (first_misfit ls P2 [sl_col l] ltac:(discriminate) B) as (ls1 & x & ls2 & -> & M). cbn [app] in M.
  apply C53_rejected. right. rewrite app_comm_cons in T. destruct (source_split LI E (l :: ls1) (x :: ls2) row) as (row' & E1 & L & F).
  rewrite E1 in T. set (ts := source_tokens row (l :: ls1)) in *.
  assert (NE : map fst ts <> []) by discriminate. destruct (exists_last NE) as (pre & a & PA).
  exists pre, a, (word_cursor (row' + sl_empty x) (sl_col x) (sl_word x)). split; [|right].
  - exists (map fst (more_tokens (row' + sl_empty x) (sl_col x + length (sl_word x)) (sl_more x) ++ @source_tokens LI E (S (row' + sl_empty x)) ls2)).
    rewrite T, map_app, PA, <- app_assoc. reflexivity.
  - assert (LS : line_starts (pre ++ [a]) = sl_col l :: map sl_col ls1) by (rewrite <- PA; unfold ts; rewrite line_starts_source; reflexivity).
    rewrite LS. cbn [word_cursor c_start p_line p_col]. split; [|split; [exact M|]].
    + assert (I : In a (map fst ts)) by (rewrite PA; apply in_app_iff; right; left; reflexivity). apply in_map_iff in I as (ct & <- & I).
      rewrite Forall_forall in F. specialize (F ct I). lia.
    + intros Z. apply M. apply Forall_app in C as [C1 C2]. inversion C2 as [|? ? C3 _]; subst. left. cbn [app]. rewrite level_zero; [exact C3| |exact Z].
      apply Forall_map. exact C1.
Qed.
Print Assumptions C70_inconsistent.

(** ** Values *)

Lemma same_columns {A B} (ls : list (line_of A)) (ds : list (line_of B)) :
  map (map_line (fun _ => tt)) ls = map (map_line (fun _ => tt)) ds -> map ln_col ls = map ln_col ds.
Proof.
  intros H. assert (C : forall T (xs : list (line_of T)), map ln_col xs = map ln_col (map (map_line (fun _ => tt)) xs)) by (intros; rewrite map_map; reflexivity).
  rewrite (C _ ls), H, <- C. reflexivity.
Qed.
Lemma shown_fit {LI E} (ops : lang_ops LI) cfg ls (e : E) ds e' es : lines_show ops cfg ls e ds e' ->
  nested_blocks (at_columns (map (map_line (block_of ops cfg)) ds)) = Some es -> lines_fit ls.
Proof.
  intros (H & _) N. apply same_columns in H. apply nested_lines_fit in N. unfold lines_fit in *. rewrite map_map in N. cbn [map_line ln_col] in N. rewrite H. exact N.
Qed.

(** With interpolated values the output has the structure of the source, each value
    standing for the blocks of its own lines. *)
Theorem C70_values : forall LI E (ops : lang_ops LI) cfg (qs : list (quoted_item LI E)) row ls e ds e' es,
  indents (c_indentation cfg) -> line_end (c_newline cfg) ->
  all_tokens qs = word_tokens row ls -> lines_show ops cfg ls e ds e' ->
  Forall (steady ops cfg) (flat_map words_of ds) ->
  let shown := map (map_line (block_of ops cfg)) ds in
  Forall (fun l => proper_block (c_indentation cfg) (side_by_side (ln_word l) (ln_more l))) shown ->
  followed (at_columns shown) -> nested_blocks (at_columns shown) = Some es ->
  exists t out, quote qs e = Some (e', t) /\
  outcome (format_items ops cfg string_writer (items t) (formatter_new [])) = (out, true) /\
  python out = Some es.
Proof.
  intros LI E ops cfg qs row ls e ds e' es I NL A S U shown P F N.
  destruct (C69_blocks LI E ops cfg qs row ls e ds e' A (shown_fit _ _ _ _ _ _ _ S N) S U) as (t & Q & O).
  eexists t, _. split; [exact Q|]. split; [exact O|]. fold shown. rewrite python_of_lines by auto. apply blocks_of_lines; auto.
Qed.
Print Assumptions C70_values.

(** So it is if each value is on one line, where the source is that with the values
    in place. *)
Theorem C70_inline : forall LI E (ops : lang_ops LI) cfg (qs : list (quoted_item LI E)) row ls e ds e' es,
  indents (c_indentation cfg) -> line_end (c_newline cfg) ->
  all_tokens qs = word_tokens row ls -> lines_show ops cfg ls e ds e' ->
  Forall (inline ops cfg) (flat_map words_of ds) ->
  Forall (fun l => plain (line_text l)) (map (as_source ops cfg) ds) ->
  source_blocks (map (as_source ops cfg) ds) = Some es ->
  exists t out, quote qs e = Some (e', t) /\
  outcome (format_items ops cfg string_writer (items t) (formatter_new [])) = (out, true) /\
  python out = Some es.
Proof.
  intros LI E ops cfg qs row ls e ds e' es I NL A S U P N.
  assert (F : lines_fit ls).
  { pose proof (source_fit _ _ P N) as F. rewrite map_map in F. cbn [as_source sl_col] in F. destruct S as (H & _). apply same_columns in H.
    unfold lines_fit. rewrite H. exact F. }
  destruct (C69_inline LI E ops cfg qs row ls e ds e' A F S U) as (t & Q & O). eexists t, _. split; [exact Q|]. split; [exact O|]. apply source_python; auto.
Qed.
Print Assumptions C70_inline.

(** A quote interpolated in another quote stands for its own blocks; so the values
    above may be such quotes, to any depth. *)
Theorem C70_nested : forall LI E (ops : lang_ops LI) cfg (qs : list (quoted_item LI E)) row ls e ds e' es t,
  indents (c_indentation cfg) ->
  all_tokens qs = word_tokens row ls -> lines_show ops cfg ls e ds e' -> ds <> [] ->
  Forall (steady ops cfg) (flat_map words_of ds) ->
  let shown := map (map_line (block_of ops cfg)) ds in
  Forall (fun l => proper_block (c_indentation cfg) (side_by_side (ln_word l) (ln_more l))) shown ->
  followed (at_columns shown) -> nested_blocks (at_columns shown) = Some es ->
  quote qs e = Some (e', t) ->
  exists ns,
    (forall E' c (v : E' -> value LI * E') e1 e2, v e1 = (VTokens t, e2) -> shows ops cfg (LOther (QEval c v)) e1 ns e2) /\
    steady ops cfg ns /\ proper_block (c_indentation cfg) (block_of ops cfg ns) /\
    python_lines (block_of ops cfg ns) = Some es.
Proof.
  intros LI E ops cfg qs row ls e ds e' es t I A S N U shown P F NE Q.
  destruct (C69_nested LI E ops cfg qs row ls e ds e' t A (shown_fit _ _ _ _ _ _ _ S NE) S U N Q) as (ns & H1 & H2 & H3 & _).
  exists ns. split; [exact H1|]. split; [exact H2|]. rewrite H3. fold shown. split.
  - destruct ds as [|d ds]; [congruence|]. unfold shown in *. cbn [map] in *. apply block_lines_proper; auto.
  - apply blocks_of_lines; auto.
Qed.
Print Assumptions C70_nested.

(** ** Python files *)

Definition one_line (s : item_str) : Prop := ~ In 10%N (content s) /\ ~ In 13%N (content s).
Definition opt_one_line (a : option item_str) : Prop := match a with Some s => one_line s | None => True end.
Definition py_one_line (i : py_import) : Prop :=
  match i with
  | PyImport (Unqualified m) n a => one_line m /\ one_line n /\ opt_one_line a
  | PyImport (Qualified m ma) _ _ => one_line m /\ opt_one_line ma
  | PyModule m a => one_line m /\ opt_one_line a
  end.
Definition unbroken (s : str) : Prop := ~ In 10%N s /\ ~ In 13%N s.
Lemma unbroken_app a b : unbroken a -> unbroken b -> unbroken (a ++ b).
Proof. intros [A1 A2] [B1 B2]. split; intros I; apply in_app_iff in I as [I|I]; auto. Qed.
Lemma unbroken_as k : one_line (fst k) -> opt_one_line (snd k) -> unbroken (py_as_text k).
Proof.
  destruct k as [n [a|]]; unfold py_as_text; cbn [fst snd opt_one_line]; intros O1 O2; [|rewrite app_nil_r; exact O1].
  apply unbroken_app; [exact O1|]. apply unbroken_app; [split; vm_compute; intuition discriminate|exact O2].
Qed.
Lemma unbroken_join l : Forall unbroken l -> unbroken (join $", " l).
Proof.
  induction 1 as [|x l H F IH]; [split; intros []|]. destruct l as [|y l]; [exact H|]. change (unbroken (x ++ $", " ++ join $", " (y :: l))).
  apply unbroken_app; [exact H|]. apply unbroken_app; [split; vm_compute; intuition discriminate|exact IH].
Qed.
Lemma plain_from m : one_line (fst m) -> Forall (fun k => one_line (fst k) /\ opt_one_line (snd k)) (snd m) -> plain (py_from_line m).
Proof.
  intros O F. split; [exists 102%N; eexists; split; [reflexivity|repeat split; discriminate]|].
  change (unbroken (py_from_line m)). unfold py_from_line. repeat (apply unbroken_app; [first [exact O|split; vm_compute; intuition discriminate]|]).
  apply unbroken_join. apply Forall_map. eapply Forall_impl; [|exact F]. intros k [K1 K2]. apply unbroken_as; auto.
Qed.
Lemma plain_import k : one_line (fst k) -> opt_one_line (snd k) -> plain (py_import_line k).
Proof.
  intros O1 O2. split; [exists 105%N; eexists; split; [reflexivity|repeat split; discriminate]|].
  change (unbroken (py_import_line k)). unfold py_import_line. apply unbroken_app; [split; vm_compute; intuition discriminate|apply unbroken_as; auto].
Qed.
Lemma python_header ls rest es : Forall plain ls -> python_lines rest = Some es ->
  python_lines (ls ++ rest) = Some (map Statement ls ++ es).
Proof.
  intros F H. induction F as [|l ls P F IH]; [exact H|]. unfold python_lines in *. cbn [app map]. rewrite columns_plain by exact P. cbn [blocks]. rewrite plain_counts by exact P.
  cbn [start_line close_blocks Nat.ltb Nat.leb Nat.eqb option_map repeat app]. rewrite IH. reflexivity.
Qed.
Lemma python_blank (ls : list str) : python_lines (ls ++ [[]]) = python_lines ls.
Proof.
  unfold python_lines. rewrite map_app, run_blocks, run_all. destruct (run [0] (map (columns 0) ls)) as [[es o]|]; reflexivity.
Qed.
Lemma join_more nl a b : a <> [] -> b <> [] -> join nl (a ++ b) = join nl a ++ nl ++ join nl b.
Proof.
  induction a as [|x a IH]; intros N1 N2; [congruence|]. destruct a as [|y a].
  - destruct b; [congruence|]. reflexivity.
  - change (x ++ nl ++ join nl ((y :: a) ++ b) = (x ++ nl ++ join nl (y :: a)) ++ nl ++ join nl b). rewrite IH by (discriminate || auto). rewrite <- !app_assoc. reflexivity.
Qed.
Lemma python_file nl header ls es : line_end nl -> Forall plain header -> Forall unbroken ls -> join nl ls <> [] -> python_lines ls = Some es ->
  python (file_text nl header (join nl ls)) = Some (map Statement header ++ es).
Proof.
  intros NL FH FL N H. assert (NE : ls <> []) by (intros ->; apply N; reflexivity).
  assert (FT : file_text nl header (join nl ls) = join nl (match header with [] => [] | _ => header ++ [[]] end ++ ls ++ [[]])).
  { unfold file_text. destruct header as [|h header].
    - cbn [app]. rewrite join_more by (auto; discriminate). cbn [join]. rewrite app_nil_r. reflexivity.
    - assert (J : forall b, b <> [] -> match b with [] => stack nl (h :: header) | _ => stack nl (h :: header) ++ nl ++ nl ++ b end ++ nl = (join nl (h :: header) ++ nl ++ nl ++ b) ++ nl)
        by (intros [|c b] NB; [congruence|reflexivity]).
      etransitivity; [apply J; exact N|]. rewrite join_more; [|destruct header; discriminate|destruct ls; discriminate].
      rewrite join_more by discriminate. rewrite (join_more nl ls) by (auto; discriminate). cbn [join]. rewrite !app_nil_r, <- !app_assoc. reflexivity. }
  rewrite FT. unfold python. rewrite physical_join; [|exact NL| |].
  - destruct header as [|h header]; cbn [app map]; [rewrite python_blank; exact H|].
    change (h :: (header ++ [[]]) ++ ls ++ [[]]) with (((h :: header) ++ [[]]) ++ ls ++ [[]]). rewrite <- app_assoc.
    change (Statement h :: map Statement header ++ es) with (map Statement (h :: header) ++ es). apply python_header; [exact FH|].
    change ([[]] ++ ls ++ [[]]) with ([] :: ls ++ [[]] : list str). change (python_lines (ls ++ [[]]) = Some es). rewrite python_blank. exact H.
  - assert (FU : Forall (fun l => ~ In 10%N l /\ ~ In 13%N l) header) by (eapply Forall_impl; [|exact FH]; intros l [_ X]; exact X).
    apply Forall_app. split; [destruct header; [constructor|apply Forall_app; split; [exact FU|repeat constructor; intros []]]|].
    apply Forall_app. split; [exact FL|repeat constructor; intros []].
  - destruct ls; [congruence|]. destruct header; discriminate.
Qed.

(** In a Python file the import statements come first, none of them in a block. *)
Theorem C70_file : forall E cfg (qs : list (quoted_item py_import E)) row ls e d ds e' es t,
  let ops := ld_ops python_lang tt tt in
  indents (c_indentation cfg) -> line_end (c_newline cfg) ->
  all_tokens qs = word_tokens row ls -> lines_show ops cfg ls e (d :: ds) e' ->
  Forall (steady ops cfg) (flat_map words_of (d :: ds)) ->
  (exists y r, doc_items (ln_word d) = y :: r /\ begins_text (l_format_item ops) y) ->
  let shown := map (map_line (block_of ops cfg)) (d :: ds) in
  Forall (fun l => proper_block (c_indentation cfg) (side_by_side (ln_word l) (ln_more l))) shown ->
  followed (at_columns shown) -> nested_blocks (at_columns shown) = Some es ->
  quote qs e = Some (e', t) -> Forall py_named (uses t) -> Forall py_one_line (uses t) ->
  exists froms imports out,
    (forall m n a, (exists names, In (m, names) froms /\ In (n, a) names) <->
       In (PyImport (Unqualified m) n a) (uses t)) /\
    (forall m a, In (m, a) imports <->
       (exists n al, In (PyImport (Qualified m a) n al) (uses t)) \/ In (PyModule m a) (uses t)) /\
    file_renders python_lang cfg tt t out /\
    python out = Some (map Statement (map py_from_line froms ++ map py_import_line imports) ++ es).
Proof.
  intros E cfg qs row ls e d ds e' es t ops I NL A S U B shown P F N Q NM OL.
  pose proof (shown_fit _ _ _ _ _ _ _ S N) as FI.
  destruct (words_render ops cfg qs row ls (d :: ds) e e' A FI S) as (t1 & Q1 & _ & CS & _). rewrite Q in Q1. injection Q1 as <-.
  destruct (C69_blocks _ E ops cfg qs row ls e (d :: ds) e' A FI S U) as (t1 & Q1 & O). rewrite Q in Q1. injection Q1 as <-. fold shown in O.
  destruct (C69_built _ _ qs e e' t Q) as (cs & ->).
  destruct (C43_python_imports cfg cs _ NM (conj O (fun _ => text_first_clean _ _ (CS B)))) as (froms & imports & _ & H1 & H2 & _ & H3 & H4).
  exists froms, imports. eexists. split; [exact H2|]. split; [exact H3|]. split; [exact H4|].
  rewrite Forall_forall in OL.
  apply python_file; auto.
  - apply Forall_app. split.
    + apply Forall_map, Forall_forall. intros [m names] I0. destruct (H1 m names I0) as [NN _].
      assert (K : forall k, In k names -> one_line m /\ one_line (fst k) /\ opt_one_line (snd k)).
      { intros [n a] I1. assert (X : In (PyImport (Unqualified m) n a) (uses (build cs))) by (apply H2; exists names; auto). apply OL in X. exact X. }
      apply plain_from; cbn [fst snd].
      * destruct names as [|k names]; [congruence|]. exact (proj1 (K k (or_introl eq_refl))).
      * apply Forall_forall. intros k I1. exact (proj2 (K k I1)).
    + apply Forall_map, Forall_forall. intros [m a] I0. apply H3 in I0 as [(n & al & I0)|I0]; apply OL in I0; destruct I0; apply plain_import; auto.
  - eapply Forall_impl; [|apply block_lines_indented; auto]. intros l. apply indented_no_break; auto.
  - unfold shown in *. cbn [map] in P. destruct (block_lines_proper _ I _ _ P) as (s & b & E0 & PS & _). cbn [map]. rewrite E0.
    destruct PS as [(c & s' & -> & _) _]. destruct b; discriminate.
  - apply blocks_of_lines; auto.
Qed.
Print Assumptions C70_file.

(** ** Where the structure is lost *)

(** A line further left than the first: Python rejects the source, the macro runs
    the lines together. *)
Theorem C70_left_refuted : forall LI (ops : lang_ops LI),
  let ls := [mk_src_line 0 4 $"a" []; mk_src_line 0 0 $"b" []] in
  let qs : list (quoted_item LI unit) := [tok 1 4 $"a"; tok 2 0 $"b"] in
  all_tokens qs = source_tokens 1 ls /\ source_blocks ls = None /\
  exists t, quote qs tt = Some (tt, t) /\
  outcome (format_items ops ex_cfg string_writer (items t) (formatter_new [])) = ($"ab", true) /\
  python $"ab" = Some [Statement $"ab"].
Proof.
  intros LI ops ls qs. split; [reflexivity|]. split; [reflexivity|]. eexists. split; [vm_compute; reflexivity|]. split; vm_compute; reflexivity.
Qed.
Print Assumptions C70_left_refuted.

(** A line further right directly after a value that ends one level deeper than it
    starts continues the last line of the value. *)
Theorem C70_deeper_refuted : forall LI (ops : lang_ops LI),
  let v : list (call LI) := [CItem (Literal (Static $"if x:")); CIndent; CItem (Literal (Static $"pass")); CUnindent] in
  let qs : list (quoted_item LI unit) :=
    [QEval (mk_cursor (mk_pos 1 0) (mk_pos 1 2)) (fun e => (VTokens (build v), e)); tok 2 4 $"y"] in
  exists t out, quote qs tt = Some (tt, t) /\
  outcome (format_items ops ex_cfg string_writer (items t) (formatter_new [])) = (out, true) /\
  python out = Some [Statement $"if x:"; Indent; Statement $"passy"; Dedent].
Proof.
  intros LI ops v qs. eexists _, _. split; [vm_compute; reflexivity|]. split; vm_compute; reflexivity.
Qed.
Print Assumptions C70_deeper_refuted.

(** A comment further left ends blocks for the macro, not for Python. *)
Theorem C70_comment_refuted : forall LI (ops : lang_ops LI),
  let ls := [mk_src_line 0 0 $"if" [(1, $"a"); (0, $":")]; mk_src_line 0 4 $"if" [(1, $"b"); (0, $":")];
             mk_src_line 0 0 $"#" [(1, $"note")]; mk_src_line 0 8 $"c" []] in
  let qs : list (quoted_item LI unit) :=
    [tok 1 0 $"if"; tok 1 3 $"a"; tok 1 4 $":"; tok 2 4 $"if"; tok 2 7 $"b"; tok 2 8 $":";
     tok 3 0 $"#"; tok 3 2 $"note"; tok 4 8 $"c"] in
  all_tokens qs = source_tokens 1 ls /\
  source_blocks ls = Some [Statement $"if a:"; Indent; Statement $"if b:"; Indent; Statement $"c"; Dedent; Dedent] /\
  exists t out, quote qs tt = Some (tt, t) /\
  outcome (format_items ops ex_cfg string_writer (items t) (formatter_new [])) = (out, true) /\
  python out = Some [Statement $"if a:"; Indent; Statement $"if b:"; Statement $"c"; Dedent].
Proof.
  intros LI ops ls qs. split; [reflexivity|]. split; [reflexivity|]. eexists _, _. split; [vm_compute; reflexivity|]. split; vm_compute; reflexivity.
Qed.
Print Assumptions C70_comment_refuted.

(** ** Examples *)

(** <<
    class $name:
        def f():
            $body           (if x:, and return one level deeper)

        y = $dict
    >> *)
Definition dict_item : py_import := PyImport (Qualified (Static $"collections") None) (Static $"OrderedDict") None.
Definition py_body : list (call py_import) :=
  [CItem (Literal (Static $"if x:")); CIndent; CItem (Literal (Static $"return")); CUnindent].
Definition p_name : quoted_item py_import unit := QEval (at_ 1 6 1 11) (fun e => (VStr $"A", e)).
Definition p_body : quoted_item py_import unit := QEval (at_ 3 8 3 13) (fun e => (VTokens (build py_body), e)).
Definition p_dict : quoted_item py_import unit := QEval (at_ 5 8 5 13) (fun e => (VLang dict_item, e)).
Definition py_words : list (quoted_item py_import unit) :=
  [tok 1 0 $"class"; p_name; tok 1 11 $":"; tok 2 4 $"def"; tok 2 8 $"f"; QGroup (at_ 2 9 2 11) Parenthesis []; tok 2 11 $":";
   p_body; tok 5 4 $"y"; tok 5 6 $"="; p_dict].
Definition py_static (s : str) : src_word py_import unit := mk_src_word (LText s) 0 (length s).
Definition py_value (x : quoted_item py_import unit) : src_word py_import unit := mk_src_word (LOther x) 0 5.
Definition py_lines : list (line_of (src_word py_import unit)) :=
  [mk_line_of 0 0 (py_static $"class") [(1, py_value p_name); (0, py_static $":")];
   mk_line_of 0 4 (py_static $"def") [(1, py_static $"f"); (0, py_static $"("); (0, py_static $")"); (0, py_static $":")];
   mk_line_of 0 8 (py_value p_body) [];
   mk_line_of 1 4 (py_static $"y") [(1, py_static $"="); (1, py_value p_dict)]].
Definition py_doc (s : str) : list (node py_import) := [NItem (Literal (Static s))].
Definition py_docs : list (line_of (list (node py_import))) :=
  [mk_line_of 0 0 (py_doc $"class") [(1, [NItem (Literal (Box $"A"))]); (0, py_doc $":")];
   mk_line_of 0 4 (py_doc $"def") [(1, py_doc $"f"); (0, py_doc $"("); (0, py_doc $")"); (0, py_doc $":")];
   mk_line_of 0 8 (map NItem [Literal (Static $"if x:"); Indentation 1; Literal (Static $"return")]) [];
   mk_line_of 1 4 (py_doc $"y") [(1, py_doc $"="); (1, [NItem (Lang 0 dict_item)])]].
Definition py_events : list event :=
  [Statement $"class A:"; Indent; Statement $"def f():"; Indent; Statement $"if x:"; Indent; Statement $"return"; Dedent; Dedent;
   Statement $"y = collections.OrderedDict"; Dedent].
Ltac plainly := split; [eexists _, _; split; [reflexivity|repeat split; discriminate]|split; vm_compute; intuition discriminate].
Example C70_hypotheses : let ops := ld_ops python_lang tt tt in
  let shown := map (map_line (block_of ops ex_cfg)) py_docs in
  indents (c_indentation ex_cfg) /\ line_end (c_newline ex_cfg) /\
  all_tokens py_words = word_tokens 1 py_lines /\ lines_show ops ex_cfg py_lines tt py_docs tt /\
  Forall (steady ops ex_cfg) (flat_map words_of py_docs) /\
  Forall (fun l => proper_block (c_indentation ex_cfg) (side_by_side (ln_word l) (ln_more l))) shown /\
  followed (at_columns shown) /\ nested_blocks (at_columns shown) = Some py_events.
Proof.
  intros ops shown. subst ops shown. split; [discriminate|]. split; [left; reflexivity|]. split; [vm_compute; reflexivity|]. split; [|split; [|split; [|split]]].
  - split; [reflexivity|]. cbn [py_lines flat_map words_of map ln_word ln_more snd app sw_leaf py_static py_value py_docs all_show].
    split; [repeat (eexists; split; [shown|]); reflexivity|]. repeat split; try (unfold line_closed; repeat constructor; fail).
    all: intros X Y; (vm_compute in X; discriminate) || (vm_compute in Y; discriminate) || (cbn; lia).
  - cbn [py_docs flat_map words_of map ln_word ln_more snd app].
    repeat constructor; (apply C69_steady; [ends|]); intros p q H; vm_compute in H;
    repeat (destruct p as [|? p]; [cbn; lia|injection H as <- H]); destruct p; discriminate.
  - repeat constructor; [eexists _, []; split; [vm_compute; reflexivity|split; [plainly|constructor]]|
      eexists _, []; split; [vm_compute; reflexivity|split; [plainly|constructor]]| |eexists _, []; split; [vm_compute; reflexivity|split; [plainly|constructor]]].
    eexists $"if x:", [$"    return"]. split; [vm_compute; reflexivity|]. split; [plainly|]. constructor; [|constructor]. right. exists 1, $"return".
    split; [reflexivity|plainly].
  - repeat split; intros (es & X); vm_compute in X; try (cbn; lia); destruct es as [|? [|? es]]; discriminate.
  - vm_compute. reflexivity.
Qed.
(** The file of that quote. *)
Example C70_output : exists t, quote py_words tt = Some (tt, t) /\
  Forall py_named (uses t) /\ Forall py_one_line (uses t) /\
  exists out, file_renders python_lang ex_cfg tt t out /\ python out = Some (Statement $"import collections" :: py_events).
Proof.
  eexists. split; [vm_compute; reflexivity|]. split; [|split].
  - vm_compute. repeat constructor; discriminate.
  - vm_compute. repeat constructor; intuition discriminate.
  - eexists. split; [vm_compute; reflexivity|vm_compute; reflexivity].
Qed.
(** Source alone. *)
Example C70_source_structure :
  source_blocks [mk_src_line 0 2 $"a" []; mk_src_line 1 5 $"b" []; mk_src_line 0 5 $"c" []; mk_src_line 0 7 $"d" []; mk_src_line 3 2 $"e" []] =
  Some [Statement $"a"; Indent; Statement $"b"; Statement $"c"; Indent; Statement $"d"; Dedent; Dedent; Statement $"e"] /\
  source_blocks [mk_src_line 0 2 $"a" []; mk_src_line 1 5 $"b" []; mk_src_line 0 3 $"c" []] = None.
Proof. split; vm_compute; reflexivity. Qed.
