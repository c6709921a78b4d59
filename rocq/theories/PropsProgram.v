(** * Quoted files are the programs that are meant (C84).

    Vocabulary: [SpecProgram.v] (programs with interpolations, use declarations),
    [SpecReread.v] (a reader of code), [SpecRust.v] (what names denote), [SpecFile.v]. *)
From Verif Require Import Str SpecStr StrFacts Quote SpecLex LexFacts QuoteFacts Tokens SpecTokens TokensRun Values Fmt SpecFmt SpecFile RenderFacts StringFacts
  LayoutFacts OutputFacts Order OrderFacts FileFacts ImportFacts GroupFacts PickFacts JavaFacts Macro SpecMacro MacroFacts MacroSem MacroTokens MacroRender SpecWords WordsFacts Parse SpecParse ParseFacts SpecReread RereadFacts RespaceFacts
  RoundsFacts LangBase SpecLang LangRust SpecRust RustFacts SpecProgram ProgramFacts UseFacts PropsQuote PropsParse PropsWords PropsReread PropsNames PropsResolve PropsClash.

(** ** What the tokens show *)
Lemma filled_spelled p s l s' K : filled rg p s l s' K ->
  Forall (fun x => match snd (snd x) with Code k => is_string k = false -> fst (snd x) = spelling k | Value _ => True end) l.
Proof.
  induction 1 as [p|p c s l s' K W H IH|p w k s l s' K NE RT H IH|p w v s l s' Kv K OV H IH]; auto; (constructor; [|exact IH]); [|exact I].
  cbn [fst snd]. intros S. destruct (read_local rg rg _ _ _ RT S) as (Q & _). apply app_inv_tail in Q. exact Q.
Qed.
Section Show.
Context {LI E : Type} (ops : lang_ops LI) (cfg : config).
Hypothesis OQ : l_open_quote ops false = [[34%N]].
Hypothesis CQ : l_close_quote ops false = [[34%N]].
Definition begins (d : list (node LI)) : Prop := exists y r, doc_items d = y :: r /\ begins_text (l_format_item ops) y.
Lemma code_shows c k w (e : E) : starts_dark w -> (is_string k = false -> w = spelling k) ->
  exists d, shows ops cfg (@code_leaf LI E c k) e d e /\ inline ops cfg d /\
    string_of ops cfg d = out_word (written_literal ops) (w, Code k) /\ begins d.
Proof.
  intros D S. destruct (is_string k) eqn:T.
  - destruct k; try discriminate. exists (literal_doc v). pose proof (literal_string ops cfg v OQ CQ) as AT. pose proof (texts_inline _ _ _ _ AT) as [I1 I2].
    split; [apply literal_shows; assumption|]. split; [exact I1|]. split; [|eexists _, _; split; [reflexivity|exact I]].
    rewrite I2. unfold written_literal. cbn. rewrite concat_app. cbn. reflexivity.
  - specialize (S eq_refl). assert (NE : w <> []) by (destruct w; [contradiction|discriminate]). destruct (text_string ops cfg w) as [I1 I2].
    exists [NItem (Literal (Static w))]. split; [|split; [exact I1|]].
    + pose proof (text_shows ops cfg w e NE) as SH. rewrite S in SH |- *. destruct k; try discriminate; exact SH.
    + split; [rewrite I2; destruct k; try discriminate; reflexivity|]. eexists _, _. split; [reflexivity|exact NE].
Qed.
Lemma fills_show l : forall (ts : list (cursor * leaf LI E)) e e', fills ops cfg ts e l e' ->
  Forall (fun x => starts_dark (fst (snd x))) l ->
  Forall (fun x => match snd (snd x) with Code k => is_string k = false -> fst (snd x) = spelling k | Value _ => True end) l ->
  map fst ts = map fst l /\ exists ds, all_show ops cfg (map snd ts) e ds e' /\ Forall (inline ops cfg) ds /\
    map (string_of ops cfg) ds = map (fun x => out_word (written_literal ops) (snd x)) l.
Proof.
  induction l as [|[c' [w [k|v]]] l IH]; intros [|[c x] ts] e e' F D S; try contradiction F.
  - split; [reflexivity|]. exists []. split; [exact F|]. split; [constructor|reflexivity].
  - cbn in F. destruct F as (-> & -> & F). inversion D as [|? ? D1 D2]; inversion S as [|? ? S1 S2]; subst. cbn [fst snd] in *.
    destruct (IH ts e e' F D2 S2) as (M & ds & A & I2 & R). destruct (code_shows c' k w e D1 S1) as (d & SH & I1 & R1 & _).
    split; [cbn; rewrite M; reflexivity|]. exists (d :: ds). split; [cbn; eauto|]. split; [constructor; auto|]. cbn [map snd]. rewrite R, R1. reflexivity.
  - cbn in F. destruct F as (-> & ns & e1 & SH & I1 & R1 & F). inversion D as [|? ? D1 D2]; inversion S as [|? ? S1 S2]; subst.
    destruct (IH ts e1 e' F D2 S2) as (M & ds & A & I2 & R).
    split; [cbn; rewrite M; reflexivity|]. exists (ns :: ds). split; [cbn; eauto|]. split; [constructor; auto|]. cbn [map snd]. rewrite R. reflexivity.
Qed.

(** The output of a quote that is a program. *)
Lemma program_output (qs : list (quoted_item LI E)) p s l s' K e e' ds :
  all_white (c_newline cfg) -> c_newline cfg <> [] ->
  writes_literals ops rg valid (fun v => v) -> filled rg p s l s' K -> starts_fit (map fst l) ->
  (forall c w v, In (c, (w, Code (WString v))) l -> valid v) ->
  map fst (all_tokens qs) = map fst l -> all_show ops cfg (map snd (all_tokens qs)) e ds e' -> Forall (inline ops cfg) ds ->
  map (string_of ops cfg) ds = map (fun x => out_word (written_literal ops) (snd x)) l ->
  exists t out, quote qs e = Some (e', t) /\
    outcome (format_items ops cfg string_writer (items t) (formatter_new [])) = (out, true) /\
    (exists L, consists rg out L /\ map fst L = K) /\
    (match ds with d :: _ => begins d | [] => False end -> clean_start (l_format_item ops) t) /\ (ds = [] -> out = []).
Proof.
  intros W N (_ & _ & DN) F FIT OK M A I2 R.
  assert (LEN : length (all_tokens qs) = length l) by (rewrite <- (map_length fst (all_tokens qs)), M; apply map_length).
  assert (CM : combine (map fst l) (map (fun x => fst (snd x)) l) = map (fun x => (fst x, fst (snd x))) l).
  { clear. induction l as [|x l IH]; [reflexivity|]. cbn. rewrite IH. reflexivity. }
  destruct (quote_respaces_clean ops cfg W N qs p s (map (fun x => fst (snd x)) l) e ds e') as (t & out & b & s1 & Q & OUT & -> & B & RS & CS).
  - rewrite M, CM. eapply filled_written; eauto.
  - rewrite map_length. symmetry. exact LEN.
  - rewrite M. exact FIT.
  - exact A.
  - exact I2.
  - exists t, out. split; [exact Q|]. split; [exact OUT|]. destruct (filled_strip _ _ _ _ _ _ B F) as (q & s2 & -> & F').
    split; [|split].
    + apply (filled_same (written_literal ops) valid ltac:(unfold written_literal; eauto) ltac:(intros v rest V; apply DN; exact V) l q s1 s2 K out F').
      * apply Forall_forall. intros [c [w x]] H. destruct x as [[]|]; cbn; eauto.
      * rewrite R in RS. replace (map (fun x => (fst (snd x), out_word (written_literal ops) (snd x))) l)
          with (combine (map (fun x => fst (snd x)) l) (map (fun x => out_word (written_literal ops) (snd x)) l)); [exact RS|].
        clear. induction l as [|x l IH]; [reflexivity|]. cbn. rewrite IH. reflexivity.
    + exact CS.
    + intros ->. destruct l as [|x l]; [|discriminate R]. destruct (all_tokens qs) as [|y ts] eqn:AT; [|discriminate LEN].
      cbn in A. subst e'. destruct (words_render ops cfg qs 0 [] [] e e) as (t' & Q' & O & _); [exact AT|intros ? ? ? X; destruct before; discriminate|split; [reflexivity|split; reflexivity]|].
      rewrite Q in Q'. injection Q' as <-. rewrite OUT in O. injection O as ->. reflexivity.
Qed.
End Show.

(** ** Code *)

(** The output is the program that is meant: it has the tokens the source has with
    each interpolation replaced by what it stands for. *)
Theorem C84_code : forall LI E (ops : lang_ops LI) cfg (qs : list (quoted_item LI E)) p s l s' K e e',
  all_white (c_newline cfg) -> c_newline cfg <> [] ->
  writes_literals ops rust_grammar valid (fun v => v) ->
  filled rust_grammar p s l s' K -> fills ops cfg (all_tokens qs) e l e' ->
  starts_fit (map fst l) -> (forall c w v, In (c, (w, Code (WString v))) l -> valid v) ->
  read_code rust_grammar s' = Some K /\
  exists t out, quote qs e = Some (e', t) /\
    outcome (format_items ops cfg string_writer (items t) (formatter_new [])) = (out, true) /\
    read_code rust_grammar out = Some K.
Proof.
  intros LI E ops cfg qs p s l s' K e e' W N WL F FL FIT OK. split.
  - destruct (filled_consists _ _ _ _ _ F) as (L & C & <-). apply consists_code. exact C.
  - destruct (fills_show ops cfg (proj1 WL) (proj1 (proj2 WL)) l _ _ _ FL (filled_dark _ _ _ _ _ F) (filled_spelled _ _ _ _ _ F)) as (M & ds & A & I2 & R).
    destruct (program_output ops cfg qs p s l s' K e e' ds W N WL F FIT OK M A I2 R) as (t & out & Q & OUT & (L & C & <-) & _).
    exists t, out. split; [exact Q|]. split; [exact OUT|]. apply consists_code. exact C.
Qed.
Print Assumptions C84_code.

(** ** Rust files *)
Lemma ident_colon s : rust_ident s -> no_colon s.
Proof.
  destruct s as [|c s]; [contradiction|]. intros [F C] [H|H]; [subst; discriminate F|]. rewrite forallb_forall in C. specialize (C _ H). discriminate C.
Qed.
Lemma ident_named s : rust_ident s -> s <> [].
Proof. destruct s; [contradiction|discriminate]. Qed.
Lemma path_last m before x : rust_path m (before ++ [x]) -> last_segment $"::" m x.
Proof.
  intros (_ & F & ->). apply Forall_app in F as [F1 F2]. inversion F2 as [|? ? I _]; subst. clear F2.
  assert (NC : forall p' e', x <> p' ++ $"::" ++ e').
  { intros p' e' E. apply (ident_colon x I). rewrite E. apply in_app_iff. right. left. reflexivity. }
  assert (J : before = [] \/ exists p, join $"::" (before ++ [x]) = p ++ $"::" ++ x).
  { clear. induction before as [|a before [->|[p IH]]]; [auto| |].
    - right. exists a. reflexivity.
    - right. exists (a ++ $"::" ++ p). destruct before as [|b before]; [cbn in IH|].
      + exfalso. apply (f_equal (@length N)) in IH. rewrite !app_length in IH. cbn in IH. lia.
      + change (join $"::" ((a :: b :: before) ++ [x])) with (a ++ $"::" ++ join $"::" ((b :: before) ++ [x])). rewrite IH, <- !app_assoc. reflexivity. }
  destruct J as [->|[p J]].
  - right. split; [reflexivity|]. exact NC.
  - left. exists p. split; [exact J|]. intros p' e' E. rewrite J in E.
    destruct (Nat.le_gt_cases (length x) (length e')) as [L|L]; [exact L|]. exfalso.
    (* the separator in [x], or one colon in front of it *)
    assert (LE : length e' < length x) by lia. clear L. apply (ident_colon x I).
    assert (T : exists q, x = q ++ e' /\ In 58%N q).
    { assert (SP : forall n (a b : str), a = b -> skipn n a = skipn n b) by (intros; subst; reflexivity).
      exists (firstn (length x - length e') x). assert (E1 : skipn (length x - length e') x = e').
      { assert (X : skipn (length (p ++ $"::" ++ x) - length e') (p ++ $"::" ++ x) = skipn (length x - length e') x).
        { rewrite app_assoc, skipn_app, app_length. replace (length (p ++ $"::") + length x - length e' - length (p ++ $"::")) with (length x - length e') by lia.
          rewrite skipn_all2 by lia. reflexivity. }
        rewrite <- X, E. rewrite app_assoc, skipn_app, app_length. replace (length (p' ++ $"::") + length e' - length e' - length (p' ++ $"::")) with 0 by lia.
        rewrite skipn_all2 by lia. reflexivity. }
      split; [rewrite <- E1 at 2; symmetry; apply firstn_skipn|].
      assert (X : p ++ $"::" ++ firstn (length x - length e') x = p' ++ $"::").
      { apply (app_inv_tail e'). rewrite <- !app_assoc. rewrite <- E1 at 2. rewrite firstn_skipn. rewrite E. reflexivity. }
      assert (NQ : firstn (length x - length e') x <> []).
      { intros Q. apply (f_equal (@length N)) in Q. rewrite firstn_length in Q. cbn in Q. lia. }
      destruct (exists_last NQ) as (q & c & Q). rewrite Q in *. change (p' ++ $"::") with (p' ++ [58%N] ++ [58%N]) in X.
      rewrite !app_assoc in X. apply app_inj_tail in X as [_ ->]. apply in_app_iff. right. left. reflexivity. }
    destruct T as (q & -> & H). apply in_app_iff. auto.
Qed.
Lemma rust_reference_text mode i expr : rust_reference mode i expr -> concat (rust_format_item mode i) = expr.
Proof.
  unfold rust_reference, rust_format_item. destruct (ru_module i) as [md m|m a].
  - assert (D : expr = content (match ru_alias i with Some a => a | None => ru_name i end) -> concat (rust_write_direct i) = expr).
    { intros ->. unfold rust_write_direct. destruct (ru_alias i); apply app_nil_r. }
    assert (Q : (exists before x, rust_path (content m) (before ++ [x]) /\ expr = x ++ $"::" ++ content (ru_name i)) -> concat (rust_write_prefixed i m) = expr).
    { intros (before & x & P & ->). unfold rust_write_prefixed. cbn [concat]. rewrite app_nil_r.
      rewrite (last_segment_unique $"::" (content m) (after_last_sep rust_sep (content m)) x ltac:(discriminate)); [reflexivity|apply after_last_sep_spec; discriminate|].
      eapply path_last; eauto. }
    destruct md as [[|]|]; [| |destruct mode]; cbn [rust_effective]; assumption.
  - intros ->. cbn. rewrite app_nil_r. reflexivity.
Qed.
Lemma path_named m segs : rust_path m segs -> m <> [].
Proof.
  intros (NE & F & ->) E. destruct segs as [|a segs]; [congruence|]. inversion F as [|? ? I _]; subst. apply (ident_named a I).
  destruct segs; [exact E|]. cbn in E. destruct a; [reflexivity|discriminate].
Qed.
Lemma path_front m segs : rust_path m segs -> exists before x, segs = before ++ [x] /\ rust_ident x /\ last_segment $"::" m x.
Proof.
  intros P. destruct (exists_last (proj1 P)) as (before & x & ->). exists before, x. split; [reflexivity|]. split; [|eapply path_last; eauto].
  destruct P as (_ & F & _). apply Forall_app in F as [_ F]. inversion F; auto.
Qed.
Lemma names_named i : rust_names_ok i -> rust_named i.
Proof.
  intros (N1 & N2 & N3). split; [apply ident_named; exact N1|]. split; [destruct (ru_alias i); [apply ident_named; exact N2|exact I]|].
  destruct (ru_module i) as [md m|m a].
  - destruct N3 as [segs P]. eapply path_named; eauto.
  - destruct N3 as [[segs P] A]. split; [eapply path_named; eauto|apply ident_named; exact A].
Qed.
Lemma names_simple i : rust_names_ok i -> rust_simple_names i.
Proof.
  intros (N1 & N2 & N3). split; [apply ident_colon; exact N1|]. split; [destruct (ru_alias i); [apply ident_colon; exact N2|exact I]|].
  destruct (ru_module i) as [md m|m a].
  - destruct N3 as [segs P]. destruct (path_front _ _ P) as (before & x & -> & I & L). intros e H.
    rewrite (last_segment_unique $"::" _ _ _ ltac:(discriminate) H L). apply ident_colon. exact I.
  - apply ident_colon. apply N3.
Qed.
Lemma names_text mode i : rust_names_ok i -> concat (rust_format_item mode i) <> [] /\ visible_ends (texts (rust_format_item mode i)).
Proof.
  intros (N1 & N2 & N3). pose proof (ident_named _ N1) as NN.
  assert (V1 : forall s : str, s <> [] -> concat [s] <> [] /\ visible_ends (texts [s])).
  { intros s NE. split; [cbn; rewrite app_nil_r; exact NE|]. split; [exists (AText s), []|exists [], (AText s)]; (split; [reflexivity|]); destruct s; [congruence|reflexivity|congruence|reflexivity]. }
  assert (V3 : forall a b c : str, a <> [] -> c <> [] -> concat [a; b; c] <> [] /\ visible_ends (texts [a; b; c])).
  { intros a b c NA NC. split; [cbn; destruct a; [congruence|discriminate]|]. split; [exists (AText a), [AText b; AText c]|exists [AText a; AText b], (AText c)];
      (split; [reflexivity|]); [destruct a; [congruence|reflexivity]|destruct c; [congruence|reflexivity]]. }
  assert (DI : concat (rust_write_direct i) <> [] /\ visible_ends (texts (rust_write_direct i))).
  { unfold rust_write_direct. destruct (ru_alias i); apply V1; [apply ident_named; exact N2|exact NN]. }
  unfold rust_format_item. destruct (ru_module i) as [md m|m a].
  - assert (PR : concat (rust_write_prefixed i m) <> [] /\ visible_ends (texts (rust_write_prefixed i m))).
    { destruct N3 as [segs P]. destruct (path_front _ _ P) as (before & x & -> & IX & L). apply V3; [|exact NN].
      rewrite (last_segment_unique $"::" _ _ _ ltac:(discriminate) (after_last_sep_spec rust_sep (content m) ltac:(discriminate)) L). apply ident_named. exact IX. }
    destruct md as [[|]|]; [| |destruct mode]; assumption.
  - apply V3; [apply ident_named; apply N3|exact NN].
Qed.

(** What the tokens of a program show, and which imports there are. *)
Lemma program_shows {E} mode cfg l : forall (ts : list (cursor * leaf rust_import E)) e e', is_program mode ts e l e' ->
  Forall rust_names_ok (imported l) ->
  Forall (fun x => starts_dark (fst (snd x))) (slots l) ->
  Forall (fun x => match snd (snd x) with Code k => is_string k = false -> fst (snd x) = spelling k | Value _ => True end) (slots l) ->
  let ops := ld_ops rust_lang mode tt in
  map fst ts = map fst (slots l) /\ leaves_imports ts e = (imported l, e') /\ exists ds, all_show ops cfg (map snd ts) e ds e' /\ Forall (inline ops cfg) ds /\
    map (string_of ops cfg) ds = map (fun x => out_word (written_literal ops) (snd x)) (slots l) /\ Forall (begins ops) ds.
Proof.
  intros ts e e' P NO D S ops. revert ts e e' P NO D S.
  induction l as [|[c' [w [k|i expr]]] l IH]; intros [|[c x] ts] e e' F NO D S; try contradiction F.
  - split; [reflexivity|]. split; [cbn in *; subst; reflexivity|]. exists []. split; [exact F|]. split; [constructor|]. split; [reflexivity|constructor].
  - cbn in F. destruct F as (-> & -> & F). inversion D as [|? ? D1 D2]; inversion S as [|? ? S1 S2]; subst. cbn [fst snd slot_of] in *.
    destruct (IH ts e e' F NO D2 S2) as (M & LI & ds & A & I2 & R & B). destruct (code_shows ops cfg eq_refl eq_refl c' k w e D1 S1) as (d & SH & I1 & R1 & B1).
    split; [cbn; rewrite M; reflexivity|]. split.
    + cbn [leaves_imports]. assert (X : leaf_imports (@code_leaf rust_import E c' k) e = ([], e)) by (destruct k; reflexivity). rewrite X, LI. reflexivity.
    + exists (d :: ds). split; [cbn; eauto|]. split; [constructor; auto|]. split; [|constructor; auto]. cbn [slots map snd slot_of]. fold (slots l). rewrite R, R1. reflexivity.
  - cbn in F. destruct F as (-> & RE & code & e1 & -> & CE & F). inversion D as [|? ? D1 D2]; inversion S as [|? ? S1 S2]; subst.
    change (imported ((c', (w, Import i expr)) :: l)) with (i :: imported l) in *. inversion NO as [|? ? N1 N2]; subst.
    destruct (IH ts e1 e' F N2 D2 S2) as (M & LI & ds & A & I2 & R & B). destruct (names_text mode i N1) as [NT VE].
    split; [cbn; rewrite M; reflexivity|]. split.
    + cbn [leaves_imports]. assert (X : leaf_imports (LOther (QEval c' code)) e = ([i], e1)).
      { unfold leaf_imports. assert (Q : quote_mean [QEval c' code] e = ([Lang 0 i], e1)).
        { unfold quote_mean, block_mean, block_mean_with. cbn [fold_left mean start_of enter_chunks enter m_place m_env m_chunks put_items fst snd]. rewrite CE. reflexivity. }
        rewrite Q. reflexivity. }
      rewrite X, LI. reflexivity.
    + exists ([NItem (Lang 0 i)] :: ds).
      assert (AT : doc_atoms ops cfg [NItem (Lang 0 i)] = texts (rust_format_item mode i)) by (unfold doc_atoms; cbn; rewrite app_nil_r; reflexivity).
      destruct (texts_inline ops cfg _ _ AT) as [I1 R1].
      split; [cbn [map snd all_show]; exists e1; split; [apply C69_reference; [exact CE|exact VE]|exact A]|]. split; [constructor; auto|].
      split; [|constructor; auto; eexists _, _; split; [reflexivity|exact NT]].
      cbn [slots map snd slot_of]. fold (slots l). rewrite R, R1. cbn [out_word snd]. rewrite (rust_reference_text mode i expr RE). reflexivity.
Qed.

(** The file generated for a quoted program has the tokens of a use declaration for
    each module some import needs, and then the tokens of the program, with the
    references in their places.  A reference denotes what its import is meant to
    denote exactly if the imports under its first segment agree. *)
Theorem C84_rust_file : forall E mode cfg (qs : list (quoted_item rust_import E)) p s l s' K e e',
  all_white (c_newline cfg) -> c_newline cfg <> [] ->
  filled rust_grammar p s (slots l) s' K -> is_program mode (all_tokens qs) e l e' ->
  starts_fit (map fst l) -> (forall c w v, In (c, (w, Written (WString v))) l -> valid v) ->
  Forall rust_names_ok (imported l) ->
  exists t mods uses file,
    quote qs e = Some (e', t) /\
    file_renders rust_lang cfg mode t file /\
    read_code rust_grammar file = Some (concat uses ++ K) /\
    Forall2 use_tokens mods uses /\ sorted name_before (map fst mods) /\
    (forall m leaves, In (m, leaves) mods -> leaves <> [] /\ NoDup leaves) /\
    (forall m x, (exists leaves, In (m, leaves) mods /\ In x leaves) <->
       exists i, In i (imported l) /\ rust_asks mode i m x) /\
    forall c w i expr, In (c, (w, Import i expr)) l ->
      (rust_denotes (rust_entries mods) expr (rust_object i) <->
       (forall j m x q j' m' x' q', In j (imported l) -> In j' (imported l) ->
          rust_asks mode j m x -> rust_binds (m, x) (rust_root expr) q ->
          rust_asks mode j' m' x' -> rust_binds (m', x') (rust_root expr) q' -> (m, x) = (m', x')) /\
       (forall j m x q, In j (imported l) -> rust_asks mode j m x -> rust_binds (m, x) (rust_root expr) q ->
          rust_object i = q ++ rust_rest expr)).
Proof.
  intros E mode cfg qs p s l s' K e e' W N F P FIT OK NO. set (ops := ld_ops rust_lang mode tt).
  assert (MF : map fst (slots l) = map fst l) by (unfold slots; rewrite map_map; apply map_ext; intros [c [w x]]; reflexivity).
  destruct (program_shows mode cfg l _ _ _ P NO (filled_dark _ _ _ _ _ F) (filled_spelled _ _ _ _ _ F)) as (M & LI & ds & A & I2 & R & B).
  fold ops in A, I2, R, B.
  assert (WL : writes_literals ops rg valid (fun v => v)).
  { split; [reflexivity|]. split; [reflexivity|]. intros v V. destruct (C22_rust_round_trip v V) as (src & S & D).
    rewrite (literal_source rust_lang _ v eq_refl eq_refl (fun s => eq_refl)) in S. injection S as <-. rewrite <- concat_map_flat in D. exact D. }
  destruct (program_output ops cfg qs p s (slots l) s' K e e' ds W N WL F) as (t & out & Q & OUT & (L & C & MK) & CS & OE).
  { rewrite MF. exact FIT. }
  { intros c w v H. unfold slots in H. apply in_map_iff in H as ([c' [w' [k|i expr]]] & X & H); injection X as -> -> X; [subst k; eauto|discriminate X]. }
  { exact M. } { exact A. } { exact I2. } { exact R. }
  pose proof (quote_imports _ _ _ _ Q) as UI. rewrite LI in UI. cbn [fst] in UI.
  destruct (quote_runs qs e e' t Q) as (its & QM & TE & _). assert (TB : t = build [CExtend its]) by (rewrite TE; reflexivity). clear TE QM.
  assert (NN : Forall rust_named (uses t)) by (rewrite UI; eapply Forall_impl; [exact names_named|exact NO]).
  assert (BO : body_of rust_lang cfg mode tt t out).
  { split; [exact OUT|]. intros NE. apply CS. destruct ds as [|d ds]; [exfalso; apply NE; auto|]. inversion B; assumption. }
  set (mods := rust_mods mode t).
  assert (IA : forall m x, (exists leaves, In (m, leaves) mods /\ In x leaves) <-> exists i, In i (imported l) /\ rust_asks mode i m x).
  { intros m x. unfold mods. rewrite TB. rewrite <- UI, TB. apply in_rust_mods. }
  assert (LO : Forall line_ok mods).
  { rewrite Forall_forall in NO |- *. intros [m leaves] H. destruct (rust_leaves_ok mode t m leaves H) as [NE _].
    assert (X : forall x, In x leaves -> (exists segs, rust_path (content m) segs) /\ leaf_ok x).
    { intros x Hx. destruct (proj1 (IA m x)) as (i & Hi & AS); [eauto|]. destruct (NO i Hi) as (N1 & N2 & N3). unfold rust_asks in AS.
      destruct (ru_module i) as [md m'|m' a].
      - destruct AS as [-> AS]. split; [exact N3|]. destruct (rust_effective mode md); [subst x; split; assumption|destruct AS as [-> _]; exact I].
      - destruct AS as [-> ->]. split; apply N3. }
    split; [destruct leaves as [|x leaves]; [congruence|]; apply (X x); left; reflexivity|]. apply Forall_forall. intros x Hx. apply (X x Hx). }
  destruct (file_consists (c_newline cfg) mods out L W N LO C) as (kss & L' & U & C' & ML).
  exists t, mods, kss, (file_text (c_newline cfg) (map rust_use_line mods) out).
  split; [exact Q|]. split.
  { unfold mods. rewrite TB in *. apply rust_file; [exact NN|apply BO|apply BO]. }
  split; [rewrite (consists_code _ _ _ C'), ML, MK; reflexivity|]. split; [exact U|].
  split; [eapply increasing_sorted; [apply name_before_cmp|apply rust_mods_sorted]|].
  split; [intros m leaves H; destruct (rust_leaves_ok mode t m leaves H) as [H1 H2]; split; [exact H1|]; eapply sorted_nodup; [apply leaf_before_irrefl|exact H2]|].
  split; [exact IA|].
  intros c w i expr H.
  assert (HI : In i (imported l)) by (apply in_flat_map; exists (c, (w, Import i expr)); split; [exact H|left; reflexivity]).
  assert (RX : rust_reference mode i expr).
  { clear -P H. revert e P H. generalize (all_tokens qs) as ts. induction l as [|[c' [w' [k|j expr']]] l IH]; intros [|[c0 x] ts] e P H; try contradiction.
    - cbn in P. destruct P as (_ & _ & P). destruct H as [H|H]; [discriminate H|eauto].
    - cbn in P. destruct P as (_ & RX & code & e1 & _ & _ & P). destruct H as [H|H]; [injection H as _ _ -> ->; exact RX|eauto]. }
  rewrite Forall_forall in NO.
  destruct (rust_resolution cfg mode [CExtend its] i) as (expr' & RN & EX).
  { rewrite <- TB, UI. exact HI. } { apply names_simple. auto. }
  pose proof (only_renders rust_lang cfg mode tt i) as RO. unfold renders in RN, RO. rewrite RN in RO. injection RO as RO.
  assert (EE : expr' = expr) by (rewrite RO; apply rust_reference_text; exact RX). clear RO. subst expr'.
  rewrite <- TB, UI in EX. exact EX.
Qed.
Print Assumptions C84_rust_file.

(** ** Reading the source *)

(** The tokens of the quote that the macro reads from such token trees. *)
Theorem C84_parsed : forall LI E P X (R : rust LI E P X), consuming R ->
  forall ts l, pieces R ts l ->
  exists qs, parse R ts = Some qs /\ all_tokens qs = map (piece_leaf R) l.
Proof.
  intros LI E P X R C ts l H.
  assert (F : in_front R ts (map (piece_leaf R) l)).
  { induction H as [|t c k ts l G D T _ IH|c d inner i ts l _ IH1 _ IH2|a j b name ts l N _ IH|a j p code x ts l N V _ IH].
    - apply front_nil.
    - apply (front_app R [t] ts [piece_leaf R (c, Bare k)]); [|exact IH]. destruct t; try contradiction; injection T as <- <-.
      + apply (front_plain R (TIdent _ _)); [exact I|exact D].
      + apply (front_plain R (TPunct _ _ _)); [exact I|exact D].
      + apply (front_plain R (TLit _ _)); [exact I|exact D].
      + intros rest qs W. eexists. split; [apply reads_quoted; exact W|reflexivity].
      + apply (front_plain R (TChar _ _ _)); [exact I|exact D].
    - cbn [map]. rewrite map_app. cbn [map].
      change (piece_leaf R (opener_at c, Bare (WOpen d)) :: map (piece_leaf R) i ++ piece_leaf R (closer_at c, Bare (WClose d)) :: map (piece_leaf R) l)
        with (((opener_at c, @LText LI E (opener d)) :: map (piece_leaf R) i) ++ [(closer_at c, LText (closer d))] ++ map (piece_leaf R) l).
      rewrite app_assoc. apply (front_app R [TGroup c d inner] ts); [|exact IH2]. apply (front_group R c d inner _ IH1).
    - apply (front_app R [TPunct a 36 j; TIdent b name] ts [piece_leaf R (spanning a b, Named name)]); [|exact IH]. apply front_variable. exact N.
    - apply (front_app R [TPunct a 36 j; TGroup p Parenthesis code] ts [piece_leaf R (spanning a p, Computed x)]); [|exact IH].
      intros rest qs W. eexists. split; [apply reads_paren; [apply form_expression; [exact N|exact V]|exact W]|reflexivity]. }
  destruct (F [] [] ltac:(constructor)) as (qs & W & T). rewrite !app_nil_r in *. exists qs. split; [apply C61_grammar; assumption|exact T].
Qed.
Print Assumptions C84_parsed.

(** ** Examples *)

(** Words with the white space in front of them, laid out from a position. *)
Fixpoint laid_out (p : pos) (ws : list (str * str * part)) : list (cursor * (str * part)) :=
  match ws with
  | [] => []
  | (b, w, x) :: ws' => let q := advance p b in (mk_cursor q (advance q w), (w, x)) :: laid_out (advance q w) ws'
  end.
(** The quote with these tokens. *)
Fixpoint quote_with (done : list (quoted_item rust_import nat)) (stack : list (cursor * delimiter * list (quoted_item rust_import nat)))
    (l : list (cursor * (str * part))) : list (quoted_item rust_import nat) :=
  match l with
  | [] => rev done
  | (c, (w, x)) :: l =>
      match x with
      | Import i _ => quote_with (QEval c (fun e => (VLang i, S e)) :: done) stack l
      | Written (WString v) => quote_with (QQuoted c v :: done) stack l
      | Written (WOpen d) => quote_with [] ((c, d, done) :: stack) l
      | Written (WClose _) =>
          match stack with
          | (c', d, outer) :: stack => quote_with (QGroup (mk_cursor (c_start c') (c_end c)) d (rev done) :: outer) stack l
          | [] => rev done
          end
      | Written _ => quote_with (QText c w :: done) stack l
      end
  end.
Definition x_map : rust_import := rust_new (Static $"std::collections") (Static $"HashMap").
Definition x_fmt : rust_import := rust_qualified (rust_new (Static $"std::fmt") (Static $"Debug")).
Definition x_hash : rust_import := rust_with_alias (Static $"Hash") (rust_new (Static $"std::collections") (Static $"HashMap")).
Definition x_words : list (str * str * part) :=
  let nm b s := (b, s, Written (WName s)) in let pt b c j := (b, [c], Written (WPunct c j)) in
  [nm $"  " $"fn"; nm $" " $"f"; ([], $"(", Written (WOpen Parenthesis)); nm $"" $"m"; pt $"" 58%N false;
   ($" ", $"$map", Import x_map $"HashMap"); pt $"" 60%N false; ($"", $"$(fmt(1))", Import x_fmt $"fmt::Debug"); pt $"" 62%N false;
   ([], $")", Written (WClose Parenthesis)); ($" ", $"{", Written (WOpen Brace));
   ([10%N] ++ $"      ", $"$hash", Import x_hash $"Hash"); pt $"" 58%N true; pt $"" 58%N false; nm $"" $"from";
   ([], $"(", Written (WOpen Parenthesis)); ([], $"""a\tb""", Written (WString (97 :: 9 :: [98])%N)); ([], $")", Written (WClose Parenthesis)); pt $"" 59%N false;
   ([10%N] ++ $"  ", $"}", Written (WClose Brace))].
Definition x_parts : list (cursor * (str * part)) := laid_out (mk_pos 3 0) x_words.
Definition source_of (ws : list (str * str * part)) : str := flat_map (fun '(b, w, _) => b ++ w) ws.
Definition meant_by (ws : list (str * str * part)) : str :=
  flat_map (fun '(b, w, x) => b ++ match x with Import _ expr => expr | Written _ => w end) ws.
Definition x_source : str := source_of x_words.
Definition x_meant : str := meant_by x_words.
Definition x_tokens : list token := match read_code rust_grammar x_meant with Some K => K | None => [] end.
Example C84_source : x_source = $"  fn f(m: $map<$(fmt(1))>) {
      $hash::from(""a\tb"");
  }" /\ x_meant = $"  fn f(m: HashMap<fmt::Debug>) {
      Hash::from(""a\tb"");
  }".
Proof. split; vm_compute; reflexivity. Qed.

Lemma filled_blank b : forall p s l s' K, all_white b -> filled rg (advance p b) s l s' K -> filled rg p (b ++ s) l (b ++ s') K.
Proof. induction b as [|c b IH]; intros p s l s' K W F; [exact F|]. inversion W; subst. cbn [app]. apply filled_white; [assumption|]. apply IH; assumption. Qed.
Fixpoint laid_ok (ws : list (str * str * part)) (K : list token) : Prop :=
  match ws with
  | [] => K = []
  | (b, w, x) :: ws' =>
      all_white b /\
      match x, K with
      | Written k, k' :: K' => w <> [] /\ k = k' /\ read_token rg (w ++ meant_by ws') = Some (k, meant_by ws') /\ laid_ok ws' K'
      | Written _, [] => False
      | Import _ expr, _ => exists w' Kv K', w = 36%N :: w' /\ K = Kv ++ K' /\ reads_over rg expr (meant_by ws') Kv /\ laid_ok ws' K'
      end
  end.
Lemma laid_filled ws : forall p K, laid_ok ws K -> filled rg p (source_of ws) (slots (laid_out p ws)) (meant_by ws) K.
Proof.
  induction ws as [|[[b w] x] ws IH]; intros p K H; [cbn in H; subst; apply filled_end|].
  destruct H as [W H]. cbn [source_of meant_by flat_map laid_out slots map]. rewrite <- !app_assoc. fold (source_of ws) (meant_by ws). apply filled_blank; [exact W|].
  destruct x as [k|i expr].
  - destruct K as [|k' K]; [contradiction|]. destruct H as (NE & <- & RT & H). cbn [slot_of]. apply filled_code; [exact NE|exact RT|]. apply IH. exact H.
  - destruct H as (w' & Kv & K' & -> & -> & OV & H). cbn [slot_of]. apply filled_value; [exact OV|]. apply IH. exact H.
Qed.
Ltac is_over := repeat first [apply over_end | apply over_white; [reflexivity|] |
  match goal with |- reads_over _ ?v ?r (?k :: ?K) =>
    let o := eval vm_compute in (read_token rust_grammar (v ++ r)) in
    match o with Some (k, ?t) =>
      let n := eval vm_compute in (length v + length r - length t) in
      let w := eval vm_compute in (firstn n v) in let v' := eval vm_compute in (skipn n v) in
      apply (over_token _ w v' r k K); [discriminate|vm_compute; reflexivity|] end end].
Ltac is_white_all := repeat (apply Forall_cons; [reflexivity|]); apply Forall_nil.
Ltac is_laid :=
  match goal with
  | |- laid_ok [] _ => reflexivity
  | |- laid_ok ((?b, ?w, Written ?k) :: ?ws) (_ :: ?K) =>
      split; [is_white_all|]; split; [discriminate|]; split; [reflexivity|]; split; [vm_compute; reflexivity|]; is_laid
  | |- laid_ok ((?b, 36%N :: ?w, Import ?i ?expr) :: ?ws) ?K =>
      split; [is_white_all|];
      let o := eval vm_compute in (read_code rust_grammar expr) in
      match o with Some ?Kv =>
        let K' := eval vm_compute in (skipn (length Kv) K) in
        exists w, Kv, K'; split; [reflexivity|]; split; [reflexivity|]; split; [is_over|is_laid] end
  end.
Lemma x_filled : filled rg (mk_pos 3 0) x_source (slots x_parts) x_meant x_tokens.
Proof.
  apply laid_filled. let ws := eval vm_compute in x_words in let K := eval vm_compute in x_tokens in change (laid_ok ws K). is_laid.
Qed.
Lemma x_fits : starts_fit (map fst x_parts).
Proof.
  intros before c after E0 N. assert (L : line_starts (map fst x_parts) = [2; 6; 2]) by (vm_compute; reflexivity). rewrite L in E0. clear L.
  destruct before as [|b1 before]; [congruence|]. injection E0 as <- E0.
  destruct before as [|b2 before]; [injection E0 as <- _; left; cbn; lia|]. injection E0 as <- E0.
  destruct before as [|b3 before]; [injection E0 as <- _; right; exists [], [6]; split; [reflexivity|repeat constructor; cbn; lia]|].
  injection E0 as _ E0. destruct before; discriminate.
Qed.
Definition x_quote : list (quoted_item rust_import nat) := quote_with [] [] x_parts.
Example C84_hypotheses :
  filled rust_grammar (mk_pos 3 0) x_source (slots x_parts) x_meant x_tokens /\
  is_program Direct (all_tokens x_quote) 0 x_parts 3 /\
  starts_fit (map fst x_parts) /\ (forall c w v, In (c, (w, Written (WString v))) x_parts -> valid v) /\
  Forall rust_names_ok (imported x_parts) /\ length (imported x_parts) = 3.
Proof.
  split; [exact x_filled|]. split.
  - assert (P : rust_path $"std::fmt" [$"std"; $"fmt"]) by (split; [discriminate|]; split; [repeat constructor|reflexivity]).
    let ts := eval vm_compute in (all_tokens x_quote) in let l := eval vm_compute in x_parts in change (is_program Direct ts 0 l 3).
    repeat (cbn [is_program]; split; [reflexivity|]; first
      [ split; [reflexivity|]; match goal with |- exists _ _, _ => eexists _, _; split; [reflexivity|]; split; [reflexivity|] | |- _ => idtac end
      | split; [exists [$"std"], $"fmt"; split; [exact P|reflexivity]|]; eexists _, _; split; [reflexivity|]; split; [reflexivity|]]).
    reflexivity.
  - split; [exact x_fits|]. split.
    + intros c w v H. let l := eval vm_compute in x_parts in change (In (c, (w, Written (WString v))) l) in H.
      repeat (destruct H as [H|H]; [first [discriminate H | injection H as _ _ <-; repeat constructor]|]). contradiction.
    + split; [|reflexivity]. assert (PC : exists segs, rust_path $"std::collections" segs) by (exists [$"std"; $"collections"]; split; [discriminate|]; split; [repeat constructor|reflexivity]).
      assert (PF : exists segs, rust_path $"std::fmt" segs) by (exists [$"std"; $"fmt"]; split; [discriminate|]; split; [repeat constructor|reflexivity]).
      repeat (apply Forall_cons; [split; [split; reflexivity|]; split; [try exact I; split; reflexivity|assumption]|]). apply Forall_nil.
Qed.
Definition x_file : option (str * bool) :=
  option_map (fun '(_, t) => outcome (format_file rust_lang string_writer (mk_config (ISpace 4) [10%N]) t Direct (formatter_new []))) (quote x_quote 0).
Example C84_file : x_file = Some ($"use std::collections::{HashMap, HashMap as Hash};
use std::fmt;

fn f(m: HashMap<fmt::Debug>) {
    Hash::from(""a\tb"");
}
", true).
Proof. vm_compute. reflexivity. Qed.
Example C84_file_reads : forall file, x_file = Some (file, true) ->
  exists head, read_code rust_grammar file = Some (head ++ x_tokens) /\ length head = 21.
Proof.
  intros file H. vm_compute in H. injection H as <-. eexists (match read_code rust_grammar $"use std::collections::{HashMap, HashMap as Hash};use std::fmt;" with Some K => K | None => [] end).
  split; vm_compute; reflexivity.
Qed.
Lemma program_fills {E} mode cfg l : forall (ts : list (cursor * leaf rust_import E)) e e', is_program mode ts e l e' ->
  Forall rust_names_ok (imported l) -> fills (ld_ops rust_lang mode tt) cfg ts e (slots l) e'.
Proof.
  induction l as [|[c' [w [k|i expr]]] l IH]; intros [|[c x] ts] e e' F NO; try contradiction F.
  - exact F.
  - cbn in F. destruct F as (-> & -> & F). split; [reflexivity|]. split; [reflexivity|]. apply IH; auto.
  - cbn in F. destruct F as (-> & RE & code & e1 & -> & CE & F). inversion NO as [|? ? N1 N2]; subst. destruct (names_text mode i N1) as [NT VE].
    assert (AT : doc_atoms (ld_ops rust_lang mode tt) cfg [NItem (Lang 0 i)] = texts (rust_format_item mode i)) by (unfold doc_atoms; cbn; rewrite app_nil_r; reflexivity).
    destruct (texts_inline (ld_ops rust_lang mode tt) cfg _ _ AT) as [I1 R1].
    split; [reflexivity|]. exists [NItem (Lang 0 i)], e1. split; [apply C69_reference; [exact CE|exact VE]|]. split; [exact I1|].
    split; [rewrite R1; apply rust_reference_text; exact RE|]. apply IH; auto.
Qed.
Example C84_code_hypotheses : fills (ld_ops rust_lang Direct tt) (mk_config (ISpace 4) [10%N]) (all_tokens x_quote) 0 (slots x_parts) 3.
Proof. apply program_fills; apply C84_hypotheses. Qed.
(** [f(&$x, $(y)) "q"] *)
Example C84_parsed_example : exists ts l, Source.trees $"f(&$x, $(y)) ""q""" = Some ts /\ length l = 8 /\
  pieces (Source.table_rust demo_table) ts l /\ consuming (Source.table_rust demo_table).
Proof.
  assert (P : exists l, pieces (Source.table_rust demo_table) (match Source.trees $"f(&$x, $(y)) ""q""" with Some ts => ts | None => [] end) l /\ length l = 8).
  { let ts := eval vm_compute in (match Source.trees $"f(&$x, $(y)) ""q""" with Some ts => ts | None => [] end) in
      change (exists l, pieces (Source.table_rust demo_table) ts l /\ length l = 8).
    eexists. split.
    - eapply pieces_token; [exact I|intros []|reflexivity|]. eapply pieces_group.
      + eapply pieces_token; [exact I|intros H; discriminate H|reflexivity|].
        eapply pieces_variable; [intros H; cbn in H; repeat (destruct H as [H|H]; [discriminate H|]); exact H|].
        eapply pieces_token; [exact I|intros H; discriminate H|reflexivity|].
        eapply pieces_expression; [intros H; cbn in H; repeat (destruct H as [H|H]; [discriminate H|]); exact H|vm_compute; reflexivity|]. apply pieces_end.
      + eapply pieces_token; [exact I|intros []|reflexivity|]. apply pieces_end.
    - reflexivity. }
  destruct P as (l & P & L). exists (match Source.trees $"f(&$x, $(y)) ""q""" with Some ts => ts | None => [] end), l.
  split; [vm_compute; reflexivity|]. split; [exact L|]. split; [exact P|apply Source.table_consuming].
Qed.
