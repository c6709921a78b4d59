(** * The layout of quotes (C50 - C55).

    Vocabulary: [SpecMacro.v] (tokens of a quote, layout rules, source text),
    [SpecQuote.v] (separation rules, balance). *)
From Verif Require Import Str Tokens SpecTokens TokensRun TokensFacts Values Fmt SpecFmt RenderFacts OutputFacts
  Macro SpecMacro SpecQuote MacroFacts MacroSem MacroTokens MacroLines MacroRender MacroControl MacroStrings MacroMerge LangDart.

(** ** C50: indentation is balanced *)

(** Every block of the generated code unindents as often as it indents. *)
Theorem C50_code : forall LI E (qs : list (quoted_item LI E)) r code,
  quote_code qs = Some (r, code) -> balanced (fun _ => True) (fun _ => True) code.
Proof. exact @quote_balanced_triv. Qed.
Print Assumptions C50_code.

(** Quoting leaves the net indentation of any stream as it is, provided the values
    and scopes of the quote do. *)
Theorem C50_net : forall LI E (qs : list (quoted_item LI E)) e t e' t',
  Forall (every_value neutral_value neutral_scope neutral_value) qs ->
  quote_in qs e t = Some (e', t') ->
  net_indentation (items t') = net_indentation (items t).
Proof. exact @quote_in_net. Qed.
Print Assumptions C50_net.

Notation word := word_cursor.
Definition tok {LI E} (row col : nat) (s : str) : quoted_item LI E := QText (word_cursor row col s) s.
(** <<
    fn $x {          (a value at column 3)
        a
            b c
    }
    >> where the group spans lines 1 to 4. *)
Definition demo : list (quoted_item nat nat) :=
  [tok 1 0 $"fn";
   QEval (mk_cursor (mk_pos 1 3) (mk_pos 1 5)) (fun e => (VStr $"main", S e));
   QGroup (mk_cursor (mk_pos 1 6) (mk_pos 5 1)) Brace
     [tok 2 4 $"a"; tok 3 8 $"b"; tok 3 12 $"c"]].
Example C50_example : exists r code, quote_code demo = Some (r, code) /\
  code = [SStatic $"fn"; SSpace; SAppend (fun e => (VStr $"main", S e)); SSpace; SStatic $"{"; SIndent; SStatic $"a";
          SIndent; SStatic $"b"; SSpace; SStatic $"c"; SUnindent; SLine; SUnindent; SLine; SStatic $"}"].
Proof. eexists _, _. split; vm_compute; reflexivity. Qed.
Example C50_net_example : Forall (every_value neutral_value neutral_scope neutral_value) demo.
Proof.
  constructor; [exact I|]. constructor; [|repeat constructor].
  cbn [every_value]. unfold neutral_value. intros e t. change (net_indentation (items (add_item (Literal (Box $"main")) t)) = net_indentation (items t)).
  rewrite add_net. cbn [indentation_of]. lia.
Qed.

(** ** C51, C52, C53: separations *)

Section Rules.
Context {LI E : Type}.
Lemma nth_forall2 {A B} (R : A -> B -> Prop) l l' : Forall2 R l l' -> forall n a, nth_error l n = Some a -> exists b, nth_error l' n = Some b /\ R a b.
Proof. induction 1; intros [|n] x0 H1; cbn in *; try discriminate; [injection H1 as <-; eauto|auto]. Qed.
Lemma rules (qs : list (quoted_item LI E)) r code : quote_code qs = Some (r, code) ->
  exists seps closing, assembled qs seps closing code /\
  first_rule seps /\ space_rule qs seps /\ line_rule qs seps /\ level_rule qs seps closing.
Proof.
  intros Q. pose proof (code_by_tokens qs) as C. rewrite Q in C. destruct C as (ps & w & seps & G & F & A).
  exists seps, (depth w). split; [exact A|].
  assert (N : forall pre a b, neighbours qs pre a b -> exists adj p sep, separated seps pre sep /\ separation pre a b adj p /\ sep_ok (adj, p) sep).
  { intros pre a b [post E0]. rewrite E0 in G. destruct (gaps_between _ _ _ _ _ _ G) as (adj & p & E1 & E2).
    destruct (nth_forall2 _ _ _ F _ _ E1) as (sep & E3 & E4). exists adj, p, sep. auto. }
  split; [|split; [|split; [|split]]].
  - intros sep H. destruct (map fst (all_tokens qs)) as [|c cs] eqn:ET.
    + cbn in G. injection G as <- <-. inversion F; subst. discriminate.
    + pose proof (gaps_first _ _ _ _ G) as G0. destruct (nth_forall2 _ _ _ F _ _ G0) as (sep' & E3 & E4). rewrite H in E3. injection E3 as <-. exact E4.
  - intros pre a b NB L. destruct (N _ _ _ NB) as (adj & p & sep & S1 & S2 & S3). unfold separation in S2. rewrite L, Nat.eqb_refl in S2. destruct S2 as [-> ->].
    unfold sep_ok in S3. cbn [fst snd] in S3. destruct (_ <? _); cbn [negb] in S3.
    + destruct S3 as (h & -> & AM). destruct AM as (_ & _ & AM & _). specialize (AM eq_refl). cbn in AM. subst h. exact S1.
    + subst sep. exact S1.
  - intros pre a b NB L MS. destruct (N _ _ _ NB) as (adj & p & sep & S1 & S2 & S3). unfold separation in S2. apply Nat.eqb_neq in L. rewrite L in S2.
    destruct S2 as (LT & -> & [[_ ->]|[NM _]]); [|contradiction]. destruct S3 as (h & -> & (_ & AM & _)). split; [exact LT|]. exists h. rewrite AM. auto.
  - intros pre a b NB L MS. destruct (N _ _ _ NB) as (adj & p & sep & S1 & S2 & S3). unfold separation in S2. apply Nat.eqb_neq in L. rewrite L in S2.
    destruct S2 as (LT & -> & [[_ ->]|[NM _]]); [|contradiction]. destruct S3 as (h & -> & (_ & AM & _)). exists h. split; [exact S1|]. rewrite AM. cbn [p_indent snd].
    change (pre ++ [a; b]) with (pre ++ [a] ++ [b]). rewrite app_assoc, line_starts_snoc, L. reflexivity.
  - rewrite (gaps_after _ _ _ G). apply depth_after.
Qed.
End Rules.

(** The code of a quote consists of the tokens in order with separations between
    them: on the same line a space if and only if the columns leave room. *)
Theorem C51_spaces : forall LI E (qs : list (quoted_item LI E)) r code,
  quote_code qs = Some (r, code) ->
  exists seps closing, assembled qs seps closing code /\ first_rule seps /\ space_rule qs seps.
Proof. intros LI E qs r code Q. destruct (rules qs r code Q) as (seps & closing & H). exists seps, closing. tauto. Qed.
Print Assumptions C51_spaces.

(** On different lines a line break, and one empty line if there are any in the
    source; for lines that may start where they do (see C53). *)
Theorem C52_lines_partial : forall LI E (qs : list (quoted_item LI E)) r code,
  quote_code qs = Some (r, code) ->
  exists seps closing, assembled qs seps closing code /\ line_rule qs seps.
Proof. intros LI E qs r code Q. destruct (rules qs r code Q) as (seps & closing & H). exists seps, closing. tauto. Qed.
Print Assumptions C52_lines_partial.

(** The indentation changes with the levels of the lines, and at the end all levels
    are closed.  All rules at once. *)
Theorem C53_levels : forall LI E (qs : list (quoted_item LI E)) r code,
  quote_code qs = Some (r, code) ->
  exists seps closing, assembled qs seps closing code /\
  first_rule seps /\ space_rule qs seps /\ line_rule qs seps /\ level_rule qs seps closing.
Proof. exact @rules. Qed.
Print Assumptions C53_levels.

(** What levels are: one deeper than the previous line if further right, the same
    in the same column, and back to that of an enclosing line in the same column
    otherwise. *)
Theorem C53_deeper : forall ss c d, c < d -> level (ss ++ [c; d]) = S (level (ss ++ [c])).
Proof.
  intros ss c d L. assert (G : length (enclosing (ss ++ [c; d])) = S (length (enclosing (ss ++ [c])))).
  { change [c; d] with ([c] ++ [d]). rewrite app_assoc, !enclosing_snoc. cbn [filter length]. apply Nat.ltb_lt in L. rewrite L. cbn [length]. f_equal. f_equal.
    apply Nat.ltb_lt in L. f_equal. induction (enclosing ss) as [|x l IH]; [reflexivity|]. cbn [filter]. destruct (Nat.ltb_spec x c); cbn [filter]; [|exact IH].
    destruct (Nat.ltb_spec x d); [|lia]. rewrite IH. reflexivity. }
  rewrite !level_enclosing in G by (destruct ss; discriminate). lia.
Qed.
Print Assumptions C53_deeper.
Theorem C53_aligned : forall ss c mid, Forall (fun d => c <= d) mid ->
  level (ss ++ c :: mid ++ [c]) = level (ss ++ [c]).
Proof.
  intros ss c mid F. assert (G : enclosing (ss ++ c :: mid ++ [c]) = enclosing (ss ++ [c])).
  { replace (ss ++ c :: mid ++ [c]) with ((ss ++ c :: mid) ++ [c]) by (rewrite <- app_assoc; reflexivity). rewrite !enclosing_snoc. f_equal.
    induction mid as [|d mid IH] using rev_ind.
    - replace (ss ++ [c]) with (ss ++ [c]) by reflexivity. rewrite enclosing_snoc. cbn [filter]. rewrite Nat.ltb_irrefl.
      induction (enclosing ss) as [|x l IH]; [reflexivity|]. cbn [filter]. destruct (x <? c) eqn:X; cbn [filter]; [rewrite X|]; rewrite IH; reflexivity.
    - apply Forall_app in F as [F1 F2]. inversion F2; subst. rewrite app_comm_cons, app_assoc, enclosing_snoc. cbn [filter]. destruct (Nat.ltb_spec d c); [lia|].
      rewrite <- (IH F1). clear IH. induction (enclosing (ss ++ c :: mid)) as [|x l IH2]; [reflexivity|]. cbn [filter]. destruct (Nat.ltb_spec x d); cbn [filter]; [destruct (x <? c); rewrite IH2; reflexivity|].
      destruct (Nat.ltb_spec x c); [lia|exact IH2]. }
  pose proof (level_enclosing (ss ++ c :: mid ++ [c])) as A. pose proof (level_enclosing (ss ++ [c])) as B. rewrite G in A.
  rewrite B in A by (destruct ss; discriminate). specialize (A ltac:(destruct ss; discriminate)). lia.
Qed.
Print Assumptions C53_aligned.
Theorem C53_first : forall c, level [c] = 0.
Proof. reflexivity. Qed.

(** Which quotes are rejected: those with an element that is rejected by itself,
    with tokens out of order, or with a line that is neither further right nor
    aligned with an enclosing line, unless the line before is at level 0. *)
Theorem C53_rejected : forall LI E (qs : list (quoted_item LI E)),
  quote_code qs = None <->
  (exists x, In (LOther x) (map snd (all_tokens qs)) /\ quote_code [x] = None) \/
  (exists pre a b, neighbours qs pre a b /\
    (p_line (c_start b) < p_line (c_end a) \/
     p_line (c_end a) < p_line (c_start b) /\
     ~ may_start (line_starts (pre ++ [a])) (p_col (c_start b)) /\
     level (line_starts (pre ++ [a])) <> 0)).
Proof.
  intros LI E qs. pose proof (code_by_tokens qs) as C. split.
  - intros Q. rewrite Q in C. destruct C as [C|C].
    + right. apply gaps_none in C as (pre & a & b & post & E0 & H). exists pre, a, b. split; [exists post; exact E0|exact H].
    + left. apply Exists_exists in C as ([s|x] & I & NA); [exfalso; apply NA; exists (CText s); reflexivity|]. exists x. split; [exact I|].
      destruct (quote_code [x]) as [[r code]|] eqn:QC; [|reflexivity]. exfalso. apply NA. 
      destruct x; try (exists (CCode code); exists r, code; auto; fail). exists (CEffect f). reflexivity.
  - intros H. destruct (quote_code qs) as [[r code]|]; [|reflexivity]. destruct C as (ps & w & seps & G & F & ks & L & _). exfalso. destruct H as [(x & I & NA)|(pre & a & b & (post & E0) & H)].
    + apply In_nth_error in I as [n I]. destruct (nth_forall2 _ _ _ L _ _ I) as (k & _ & K). cbn in K.
      destruct x; try (destruct K as (? & ? & K & _); congruence). unfold quote_code, block_with in NA. cbn in NA. discriminate.
    + assert (X : gaps (map fst (all_tokens qs)) None = None) by (apply gaps_none; exists pre, a, b, post; auto). congruence.
Qed.
Print Assumptions C53_rejected.

(** The quote above: separations and closing levels. *)
Example C53_example :
  map fst (all_tokens demo) =
    [word 1 0 $"fn"; mk_cursor (mk_pos 1 3) (mk_pos 1 5); word 1 6 $"{"; word 2 4 $"a"; word 3 8 $"b"; word 3 12 $"c";
     mk_cursor (mk_pos 5 0) (mk_pos 5 1)] /\
  line_starts (map fst (all_tokens demo)) = [0; 4; 8; 0] /\
  map (fun n => level (firstn n [0; 4; 8; 0])) [1; 2; 3; 4] = [0; 1; 2; 0] /\
  neighbours demo [word 1 0 $"fn"; mk_cursor (mk_pos 1 3) (mk_pos 1 5); word 1 6 $"{"] (word 2 4 $"a") (word 3 8 $"b") /\
  may_start [0; 4] 8 /\ may_start [0; 4; 8] 0.
Proof.
  repeat split; try (vm_compute; reflexivity).
  - exists [word 3 12 $"c"; mk_cursor (mk_pos 5 0) (mk_pos 5 1)]. vm_compute. reflexivity.
  - left. cbn. lia.
  - right. exists [], [4; 8]. split; [reflexivity|]. repeat constructor; lia.
Qed.
(** Rejected: the third line is further left than the second but not aligned. *)
Example C53_rejected_example : quote_code [@tok nat nat 1 0 $"a"; tok 2 8 $"b"; tok 3 4 $"c"] = None.
Proof. vm_compute. reflexivity. Qed.

(** Finding: a line further left than the first line is not rejected, and the line
    break is dropped: the words are joined. *)
Theorem C53_left_refuted : forall LI E row1 row2 col1 col2 s1 s2, s1 <> [] -> s2 <> [] ->
  row1 < row2 -> col2 < col1 ->
  quote_code [@tok LI E row1 col1 s1; tok row2 col2 s2] = Some (false, [SStatic s1; SStatic s2]).
Proof.
  intros LI E row1 row2 col1 col2 s1 s2 N1 N2 L1 L2. destruct s1 as [|a s1]; [congruence|]. destruct s2 as [|b s2]; [congruence|].
  unfold quote_code, block_with, tok. cbn -[Nat.ltb Nat.eqb Nat.sub tokenize_whitespace]. unfold tokenize_whitespace.
  cbn -[Nat.ltb Nat.eqb Nat.sub]. destruct (Nat.eqb_spec row1 row2); [lia|]. destruct (Nat.ltb_spec row2 row1); [lia|].
  destruct (Nat.ltb_spec col1 col2); [lia|]. destruct (Nat.ltb_spec col2 col1); [reflexivity|lia].
Qed.
Print Assumptions C53_left_refuted.
Theorem C52_left_refuted : exists (qs : list (quoted_item nat nat)) t,
  qs = [tok 1 4 $"foo"; tok 2 0 $"bar"] /\ quote qs 0 = Some (0, t) /\
  outcome (format_items (default_ops (fun _ => [])) (mk_config (ISpace 4) [10%N]) string_writer (items t) (formatter_new [])) = ($"foobar", true).
Proof. eexists _, _. split; [reflexivity|]. split; [vm_compute; reflexivity|vm_compute; reflexivity]. Qed.
Print Assumptions C52_left_refuted.

(** Finding: an element that turns out to be empty on an indented line of its own
    takes the line break with it. *)
Theorem C52_absent_refuted : exists (qs : list (quoted_item nat nat)) t,
  qs = [tok 1 0 $"a"; QIf (word 2 4 $"$(if false => b)") (fun e => (false, e)) [tok 2 15 $"b"] None; tok 3 0 $"c"] /\
  quote qs 0 = Some (0, t) /\
  outcome (format_items (default_ops (fun _ => [])) (mk_config (ISpace 4) [10%N]) string_writer (items t) (formatter_new [])) = ($"ac", true).
Proof. eexists _, _. split; [reflexivity|]. split; [vm_compute; reflexivity|vm_compute; reflexivity]. Qed.
Print Assumptions C52_absent_refuted.

(** ** C54: the source layout is reproduced *)

(** A quote whose tokens are words laid out in lines renders those lines: one per
    line of source, single spaces for blanks, indented by level, one empty line for
    any number of empty lines. *)
Theorem C54_source : forall LI E (ops : lang_ops LI) cfg (qs : list (quoted_item LI E)) row ls,
  all_tokens qs = source_tokens row ls -> Forall words_ok ls -> laid_out ls -> forall e,
  exists t, quote qs e = Some (e, t) /\
  outcome (format_items ops cfg string_writer (items t) (formatter_new [])) =
    (join (c_newline cfg) (output_lines (c_indentation cfg) [] ls), true).
Proof.
  intros LI E ops cfg qs row ls T W L e. destruct (source_renders ops cfg qs row ls T W L) as (r & code & Q & H). destruct (H e) as (t & X & O).
  exists t. split; [|exact O]. unfold quote. rewrite Q. cbn [option_map snd]. rewrite X. reflexivity.
Qed.
Print Assumptions C54_source.

Definition demo_source : list src_line :=
  [mk_src_line 0 0 $"fn" [(1, $"main"); (0, $"("); (0, $")"); (3, $"{")];
   mk_src_line 0 4 $"a" [];
   mk_src_line 2 8 $"b" [(3, $"c")];
   mk_src_line 1 4 $"d" [];
   mk_src_line 0 0 $"}" []].
Definition demo_quote : list (quoted_item nat nat) :=
  [tok 1 0 $"fn"; tok 1 3 $"main"; QGroup (mk_cursor (mk_pos 1 7) (mk_pos 1 9)) Parenthesis [];
   QGroup (mk_cursor (mk_pos 1 12) (mk_pos 8 1)) Brace
     [tok 2 4 $"a"; tok 5 8 $"b"; tok 5 12 $"c"; tok 7 4 $"d"]].
Example C54_hypotheses :
  all_tokens demo_quote = source_tokens 1 demo_source /\ Forall words_ok demo_source /\ laid_out demo_source.
Proof.
  split; [vm_compute; reflexivity|]. split.
  - repeat constructor; discriminate.
  - intros before l after E0 N.
    destruct before as [|b1 before]; [congruence|]. injection E0 as <- E0.
    destruct before as [|b2 before]; [injection E0 as <- _; left; cbn; lia|]. injection E0 as <- E0.
    destruct before as [|b3 before]; [injection E0 as <- _; left; cbn; lia|]. injection E0 as <- E0.
    destruct before as [|b4 before]; [injection E0 as <- _; right; exists [0], [8]; split; [reflexivity|repeat constructor; cbn; lia]|]. injection E0 as <- E0.
    destruct before as [|b5 before]; [injection E0 as <- _; right; exists [], [4; 8; 4]; split; [reflexivity|repeat constructor; cbn; lia]|].
    injection E0 as _ E0. destruct before; discriminate.
Qed.
Example C54_example : output_lines (ISpace 2) [] demo_source =
  [$"fn main() {"; $"  a"; []; $"    b c"; []; $"  d"; $"}"].
Proof. vm_compute. reflexivity. Qed.

(** ** C55: joining static text *)

(** The code of a quote is that of its tokens and separations in order, adjacent
    static texts joined.  With each token by itself the output is the same, in any
    language, for any target that is a well-formed document so far. *)
Theorem C55_merge : forall LI E (qs : list (quoted_item LI E)) r code,
  quote_code qs = Some (r, code) ->
  Forall (every_value document_value document_scope constant_value) qs ->
  exists seps ks closing,
  Forall2 leaf_code (map snd (all_tokens qs)) ks /\
  code = coalesce [] (interleave seps ks) ++ repeat SUnindent closing /\
  forall (ops : lang_ops LI) cfg before e, documents (items (build before)) ->
  let merged := execs code (e, build before) in
  let apart := execs (one_by_one (interleave seps ks) ++ repeat SUnindent closing) (e, build before) in
  fst merged = fst apart /\
  outcome (format_items ops cfg string_writer (items (snd merged)) (formatter_new [])) =
  outcome (format_items ops cfg string_writer (items (snd apart)) (formatter_new [])).
Proof.
  intros LI E qs r code Q D. destruct (rules qs r code Q) as (seps & closing & (ks & L & LN & R & ->) & _). exists seps, ks, closing.
  split; [exact L|]. split; [reflexivity|]. intros ops cfg before e DB. exact (merged ops cfg qs seps ks closing D L LN R before DB e).
Qed.
Print Assumptions C55_merge.

(** Joining keeps order and text: the static texts and other statements of the
    joined code, read in order, are those of the tokens. *)
Theorem C55_order : forall LI E (ks : list (cchunk LI E)) before,
  let written := flat_map (fun c => match c with SStatic s => s | _ => [] end) in
  let others := filter (fun c : stmt LI E => match c with SStatic _ => false | _ => true end) in
  written (coalesce before ks) = before ++ written (one_by_one ks) /\
  others (coalesce before ks) = others (one_by_one ks).
Proof.
  intros LI E ks. induction ks as [|k ks IH]; intros before written others.
  - destruct before; cbn; rewrite ?app_nil_r; auto.
  - assert (T : forall s, written (text_code s) = s) by (intros []; [reflexivity|]; unfold written, text_code; cbn [flat_map]; apply app_nil_r).
    assert (O : forall s, others (text_code s) = []) by (intros []; reflexivity).
    unfold written in *. unfold others in *.
    destruct k; cbn [coalesce one_by_one flat_map]; change (flat_map _ ks) with (one_by_one ks).
    + destruct (IH (before ++ s)) as [A B]. rewrite A, B, flat_map_app, filter_app, T, O, app_assoc. auto.
    + destruct (IH []) as [A B]. rewrite !flat_map_app, !filter_app, A, B, T, O. auto.
    + destruct (IH before) as [A B]. cbn [flat_map filter app]. rewrite A, B. auto.
Qed.
Print Assumptions C55_order.

Example C55_hypotheses :
  Forall (every_value document_value document_scope constant_value) demo /\
  documents (items (@build nat [CItem (Literal (Box $"a")); CPush])).
Proof.
  split; [|apply documents_plain; reflexivity].
  constructor; [exact I|]. constructor; [|repeat constructor]. cbn [every_value]. intros e. apply documents_plain. reflexivity.
Qed.
(** "a", "(", ")" and ";" are joined. *)
Example C55_example :
  let qs := [@tok nat nat 1 0 $"a"; QGroup (mk_cursor (mk_pos 1 1) (mk_pos 1 3)) Parenthesis []; tok 1 3 $";"; tok 1 5 $"b"] in
  quote_code qs = Some (false, [SStatic $"a();"; SSpace; SStatic $"b"]) /\
  map snd (all_tokens qs) = [LText $"a"; LText $"("; LText $")"; LText $";"; LText $"b"].
Proof. split; vm_compute; reflexivity. Qed.

(** Finding: inside an interpolation joining does change the output.  A single
    literal is written in the short form, which in Dart ends at the dot:
    [$foo.bar] instead of [${foo.bar}]. *)
Theorem C55_interpolation_refuted :
  let c := mk_cursor (mk_pos 1 7) (mk_pos 1 17) in
  let inside := [@tok dart_import nat 1 9 $"foo"; tok 1 12 $"."; tok 1 13 $"bar"] in
  let qs := [QString (mk_cursor (mk_pos 1 0) (mk_pos 1 18)) (mk_cursor (mk_pos 1 6) (mk_pos 1 18)) [PEval c inside]] in
  (exists t, quote qs 0 = Some (0, t) /\ to_string dart_lang t = Some ([34%N] ++ $"$foo.bar" ++ [34%N])) /\
  to_string dart_lang (from_iter [OpenQuote true; OpenEval; Literal (Static $"foo"); Literal (Static $"."); Literal (Static $"bar"); CloseEval; CloseQuote]) =
    Some ([34%N] ++ $"${foo.bar}" ++ [34%N]).
Proof. split; [|vm_compute; reflexivity]. eexists. split; [vm_compute; reflexivity|]. vm_compute. reflexivity. Qed.
Print Assumptions C55_interpolation_refuted.
