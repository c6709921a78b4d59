(** * Quoting what a quote has written gives the same text again (C80).

    Vocabulary: [SpecAgain.v], [SpecReread.v] (source text, a reader of code),
    [SpecWords.v] (what tokens show), [SpecParse.v] (token trees), [SpecLex.v]. *)
From Coq Require Import Lia.
From Verif Require Import Str SpecStr StrFacts Quote SpecLex LexFacts QuoteFacts Tokens SpecTokens TokensRun Values Fmt SpecFmt SpecFile RenderFacts StringFacts
  LayoutFacts OutputFacts Macro SpecMacro MacroFacts MacroSem MacroTokens MacroRender SpecWords WordsFacts Parse SpecParse ParseFacts SpecReread RereadFacts RespaceFacts
  LangBase LangRust SpecAgain AgainFacts PropsQuote PropsParse PropsWords PropsReread.
From Verif Require Source.

(** ** Any language, any words on one line *)

(** If the output of a quote is quoted, each word of it as one or several words that
    show themselves, the output is the same.  It is read at the start of a line. *)
Theorem C80_words : forall LI E (ops : lang_ops LI) cfg (qs : list (quoted_item LI E)) row ls e ds e',
  ends_lines (c_newline cfg) ->
  all_tokens qs = word_tokens row ls -> lines_fit ls -> lines_show ops cfg ls e ds e' ->
  Forall (inline ops cfg) (flat_map words_of ds) ->
  exists t out, quote qs e = Some (e', t) /\
    outcome (format_items ops cfg string_writer (items t) (formatter_new [])) = (out, true) /\
    forall (qs2 : list (quoted_item LI E)) row2 parts e2 ds2 e2',
    Forall2 pieces (map (string_of ops cfg) (flat_map words_of ds)) parts ->
    written (mk_pos row2 0) out (combine (map fst (all_tokens qs2)) (concat parts)) ->
    length (concat parts) = length (all_tokens qs2) ->
    all_show ops cfg (map snd (all_tokens qs2)) e2 ds2 e2' -> Forall (inline ops cfg) ds2 ->
    map (string_of ops cfg) ds2 = concat parts ->
    exists t2, quote qs2 e2 = Some (e2', t2) /\
      outcome (format_items ops cfg string_writer (items t2) (formatter_new [])) = (out, true).
Proof.
  intros LI E ops cfg qs row ls e ds e' NL A F S I. destruct (C69_inline _ _ ops cfg qs row ls e ds e' A F S I) as (t & Q & O).
  exists t. eexists. split; [exact Q|]. split; [exact O|]. intros qs2 row2 parts e2 ds2 e2' P W L A2 I2 SH.
  eapply quoted_again; eauto. unfold line_words. rewrite map_map, (map_ext _ _ (as_source_line ops cfg)), words_map. exact P.
Qed.
Print Assumptions C80_words.

(** The same for a text and its tokens. *)
Theorem C80_source : forall LI E (ops : lang_ops LI) cfg (qs : list (quoted_item LI E)) p s ws e ds e',
  ends_lines (c_newline cfg) ->
  written p s (combine (map fst (all_tokens qs)) ws) -> length ws = length (all_tokens qs) ->
  starts_fit (map fst (all_tokens qs)) ->
  all_show ops cfg (map snd (all_tokens qs)) e ds e' -> Forall (inline ops cfg) ds ->
  exists t out, quote qs e = Some (e', t) /\
    outcome (format_items ops cfg string_writer (items t) (formatter_new [])) = (out, true) /\
    forall (qs2 : list (quoted_item LI E)) row2 parts e2 ds2 e2',
    Forall2 pieces (map (string_of ops cfg) ds) parts ->
    written (mk_pos row2 0) out (combine (map fst (all_tokens qs2)) (concat parts)) ->
    length (concat parts) = length (all_tokens qs2) ->
    all_show ops cfg (map snd (all_tokens qs2)) e2 ds2 e2' -> Forall (inline ops cfg) ds2 ->
    map (string_of ops cfg) ds2 = concat parts ->
    exists t2, quote qs2 e2 = Some (e2', t2) /\
      outcome (format_items ops cfg string_writer (items t2) (formatter_new [])) = (out, true).
Proof.
  intros LI E ops cfg qs p s ws e ds e' NL W L F A I. destruct (quote_lines ops cfg qs p s ws e ds e' W L F A I) as (t & ls & Q & LW & O).
  exists t. eexists. split; [exact Q|]. split; [exact O|]. intros qs2 row2 parts e2 ds2 e2' P W2 L2 A2 I2 SH.
  eapply quoted_again; eauto. rewrite LW. exact P.
Qed.
Print Assumptions C80_source.

(** ** Plain code *)
Lemma combine_self (l : list (cursor * str)) : combine (map fst l) (map snd l) = l.
Proof. induction l as [|[a b] l IH]; [reflexivity|]. cbn. rewrite IH. reflexivity. Qed.
Lemma texts_show {LI E} (ops : lang_ops LI) cfg (e : E) l : Forall (fun x : cursor * str => snd x <> []) l ->
  all_show ops cfg (map (fun x => @LText LI E (snd x)) l) e (map (fun x => [NItem (Literal (Static (snd x)))]) l) e /\
  Forall (inline ops cfg) (map (fun x => [NItem (Literal (Static (snd x)))]) l) /\
  map (string_of ops cfg) (map (fun x => [NItem (Literal (Static (snd x)))]) l) = map snd l.
Proof.
  induction 1 as [|x l V _ (I1 & I2 & I3)]; [cbn; auto|]. cbn [map all_show]. rewrite I3. destruct (text_string ops cfg (snd x)) as [T1 T2].
  split; [exists e; split; [apply text_shows; exact V|exact I1]|]. split; [constructor; auto|]. rewrite T2. reflexivity.
Qed.
Lemma written_filled p s l : written p s l -> Forall (fun x => snd x <> []) l.
Proof. induction 1; auto. Qed.

(** Code without string literals, in any language: what is written for it is written
    again if it is quoted. *)
Theorem C80_code : forall LI E P X (R : rust LI E P X), consuming R ->
  forall (ops : lang_ops LI) cfg ts p s,
  ends_lines (c_newline cfg) ->
  forallb no_strings ts = true -> forallb no_dollars ts = true ->
  written p s (flats ts) -> starts_fit (map fst (flats ts)) -> Forall solid (map snd (flats ts)) ->
  exists qs, parse R ts = Some qs /\ forall e, exists t out, quote qs e = Some (e, t) /\
    outcome (format_items ops cfg string_writer (items t) (formatter_new [])) = (out, true) /\
    forall ts2 row2, forallb no_strings ts2 = true -> forallb no_dollars ts2 = true ->
    written (mk_pos row2 0) out (flats ts2) -> map snd (flats ts2) = map snd (flats ts) ->
    exists qs2, parse R ts2 = Some qs2 /\ forall e2, exists t2, quote qs2 e2 = Some (e2, t2) /\
      outcome (format_items ops cfg string_writer (items t2) (formatter_new [])) = (out, true).
Proof.
  intros LI E P X R C ops cfg ts p s NL NS ND WR F SO. destruct (C62_tokens _ _ _ _ R C ts NS ND) as (qs & Q & A).
  exists qs. split; [exact Q|]. intros e.
  assert (AF : map fst (all_tokens qs) = map fst (flats ts)) by (rewrite A, map_map; reflexivity).
  destruct (texts_show ops cfg e _ (written_filled _ _ _ WR)) as (S1 & S2 & S3).
  destruct (C80_source _ _ ops cfg qs p s (map snd (flats ts)) e (map (fun x => [NItem (Literal (Static (snd x)))]) (flats ts)) e NL)
    as (t & out & Q1 & OUT & AG).
  - rewrite AF, combine_self. exact WR.
  - rewrite A, !map_length. reflexivity.
  - rewrite AF. exact F.
  - rewrite A, map_map. exact S1.
  - exact S2.
  - exists t, out. split; [exact Q1|]. split; [exact OUT|]. intros ts2 row2 NS2 ND2 W2 SAME.
    destruct (C62_tokens _ _ _ _ R C ts2 NS2 ND2) as (qs2 & Q2 & A2). exists qs2. split; [exact Q2|]. intros e2.
    destruct (texts_show ops cfg e2 _ (written_filled _ _ _ W2)) as (T1 & T2 & T3).
    assert (CC : concat (map (fun w : str => [w]) (map snd (flats ts))) = map snd (flats ts2)).
    { rewrite SAME. clear. induction (map snd (flats ts)) as [|w l IH]; [reflexivity|]. cbn. rewrite IH. reflexivity. }
    apply (AG qs2 row2 (map (fun w => [w]) (map snd (flats ts))) e2 (map (fun x => [NItem (Literal (Static (snd x)))]) (flats ts2)) e2).
    + rewrite S3. clear -SO. induction SO as [|w l S _ IH]; constructor; [constructor; exact S|exact IH].
    + rewrite CC, A2, map_map. cbn [fst]. rewrite combine_self. exact W2.
    + rewrite CC, A2, !map_length. reflexivity.
    + rewrite A2, map_map. exact T1.
    + exact T2.
    + rewrite CC. exact T3.
Qed.
Print Assumptions C80_code.

(** ** Rust *)
Lemma combine_split {A B} (a : list A) (b : list B) : forall a' b', length a = length b -> length a' = length b' -> combine a b = combine a' b' -> a = a' /\ b = b'.
Proof.
  revert b. induction a as [|x a IH]; intros [|y b] [|x' a'] [|y' b'] L L' H; try discriminate; [auto|]. cbn in H. injection H as -> -> H.
  destruct (IH b a' b') as [-> ->]; auto.
Qed.
Lemma dollars_tokens : forall t, no_dollars t = true <-> Forall (fun k => match k with WPunct c _ => c <> 36%N | _ => True end) (map snd (tree_tokens t)).
Proof.
  intros t. induction t as [t A|c d ts IH] using tree_ind'.
  - destruct t; try contradiction; cbn; (split; [intros H; repeat constructor|intros H; try reflexivity]).
    + intros ->. discriminate.
    + inversion H; subst. destruct (N.eqb_spec ch 36); [contradiction|reflexivity].
  - cbn [no_dollars tree_tokens map snd]. rewrite map_app. rewrite forallb_forall. split.
    + intros H. constructor; [exact I|]. apply Forall_app. split; [|repeat constructor]. rewrite Forall_forall in IH |- *. intros k K.
      apply in_map_iff in K as (x & <- & K). apply in_flat_map in K as (t & T & K). specialize (proj1 (IH t T) (H t T)). rewrite Forall_forall. intros G. apply G. apply in_map. exact K.
    + intros H. inversion H as [|? ? _ H2]; subst. apply Forall_app in H2 as [H2 _]. intros t T. rewrite Forall_forall in IH. apply (IH t T). rewrite Forall_forall in H2 |- *.
      intros k K. apply H2. apply in_map_iff in K as (x & <- & K). apply in_map. apply in_flat_map. eauto.
Qed.
Lemma dollars_all ts : forallb no_dollars ts = true <-> Forall (fun k => match k with WPunct c _ => c <> 36%N | _ => True end) (map snd (trees_tokens ts)).
Proof.
  unfold trees_tokens. induction ts as [|t ts IH]; [cbn; split; auto|]. cbn [forallb flat_map]. rewrite map_app, Forall_app, andb_true_iff, dollars_tokens, IH. reflexivity.
Qed.
(** Tokens of the same kinds make trees. *)
Definition wide_one (x : cursor * token) : Prop :=
  match snd x with WOpen _ | WClose _ => c_end (fst x) = mk_pos (p_line (c_start (fst x))) (p_col (c_start (fst x)) + 1) | _ => True end.
Lemma regroup_all ts : Forall (fun t => forall l, map snd l = map snd (tree_tokens t) -> Forall wide_one l -> exists t2, tree_tokens t2 = l) ts ->
  forall l, map snd l = map snd (trees_tokens ts) -> Forall wide_one l -> exists ts2, trees_tokens ts2 = l.
Proof.
  induction 1 as [|t ts T _ IH]; intros l M W; [destruct l; [exists []; reflexivity|discriminate]|].
  unfold trees_tokens in M. cbn [flat_map] in M. rewrite map_app in M.
  apply map_eq_app in M as (l1 & l2 & -> & M1 & M2). apply Forall_app in W as [W1 W2].
  destruct (T _ M1 W1) as (t2 & <-). destruct (IH _ M2 W2) as (ts2 & <-). exists (t2 :: ts2). reflexivity.
Qed.
Lemma regroup_tree : forall t l, map snd l = map snd (tree_tokens t) -> Forall wide_one l -> exists t2, tree_tokens t2 = l.
Proof.
  intros t. induction t as [t A|c d ts IH] using tree_ind'; intros l M W.
  - assert (K : exists c k, l = [(c, k)] /\ map snd (tree_tokens t) = [k]).
    { destruct t; try contradiction; cbn in M; destruct l as [|[c0 k0] [|? ?]]; try discriminate; cbn in M; injection M as ->; eauto. }
    destruct K as (c & k & -> & K). destruct t; try contradiction; cbn in K; injection K as <-.
    + exists (TIdent c s); reflexivity.
    + exists (TPunct c ch joint); reflexivity.
    + exists (TLit c s); reflexivity.
    + exists (TStr c s value); reflexivity.
    + exists (TChar c s value); reflexivity.
  - cbn [tree_tokens map snd] in M. destruct l as [|[c1 k1] l]; [discriminate|]. cbn [map snd] in M. injection M as -> M. rewrite map_app in M.
    apply map_eq_app in M as (l1 & l2 & -> & M1 & M2). destruct l2 as [|[c2 k2] [|? ?]]; try discriminate. cbn in M2. injection M2 as ->.
    inversion W as [|? ? W1 W2]; subst. apply Forall_app in W2 as [W2 W3]. inversion W3 as [|? ? W4 _]; subst.
    destruct (regroup_all ts IH l1 M1 W2) as (ts2 & <-). exists (TGroup (mk_cursor (c_start c1) (c_end c2)) d ts2).
    cbn [tree_tokens]. unfold wide_one in W1, W4. cbn [fst snd] in W1, W4. unfold trees_tokens.
    assert (O : opener_at (mk_cursor (c_start c1) (c_end c2)) = c1) by (unfold opener_at; cbn [c_start]; rewrite <- W1; destruct c1; reflexivity).
    assert (C : closer_at (mk_cursor (c_start c1) (c_end c2)) = c2).
    { unfold closer_at. cbn [c_end]. rewrite W4. cbn [p_line p_col]. rewrite Nat.add_sub. destruct c2 as [[a b] e2]. cbn in *. rewrite W4. reflexivity. }
    rewrite O, C. reflexivity.
Qed.
Lemma regroup ts l : map snd l = map snd (trees_tokens ts) -> Forall wide_one l -> exists ts2, trees_tokens ts2 = l.
Proof. apply regroup_all. apply Forall_forall. intros t _. apply regroup_tree. Qed.
Lemma read_wide g f : forall p s l, read_from g f p s = Some l -> Forall wide_one l.
Proof.
  induction f as [|f IH]; intros p s l H; destruct s as [|c s]; try discriminate; [injection H as <-; constructor|injection H as <-; constructor|].
  cbn [read_from] in H. destruct (is_white c) eqn:W; [eapply IH; exact H|].
  destruct (read_token g (c :: s)) as [[k r]|] eqn:R; [|discriminate]. destruct (read_token_splits _ _ _ _ R) as (w & E & _).
  cbv zeta in H. rewrite E, firstn_consumed in H. rewrite E in R. destruct (read_from g f _ r) as [l'|] eqn:L; [|discriminate].
  assert (H' : l = (mk_cursor p (advance p w), k) :: l') by congruence. subst l.
  constructor; [|eapply IH; exact L]. destruct (is_string k) eqn:S; [destruct k; try discriminate; exact I|].
  destruct (read_local g g _ _ _ R S) as (E' & _). apply app_inv_tail in E' as ->. unfold wide_one. cbn [fst snd c_start c_end].
  destruct k; try exact I; destruct p, d; cbn; f_equal; lia.
Qed.

(** Words that read as tokens are on one line. *)
Lemma take_solid f s a b : (forall c, is_white c = true -> f c = false) -> take_while f s = (a, b) -> ~ In 10%N a.
Proof. intros W T X. apply take_split in T as (_ & F & _). rewrite forallb_forall in F. specialize (F _ X). rewrite (W 10%N eq_refl) in F. discriminate. Qed.
Lemma number_solid s a b : number s = (a, b) -> ~ In 10%N a.
Proof.
  unfold number. destruct (take_while name_char s) as [x r] eqn:T.
  assert (NW : forall c, is_white c = true -> name_char c = false) by (intros c H; apply white_cases in H as [->|[->|[->| ->]]]; reflexivity).
  pose proof (take_solid _ _ _ _ NW T) as X.
  assert (D : (x, r) = (a, b) -> ~ In 10%N a) by (intros H; injection H as <- _; exact X).
  destruct r as [|d r']; [exact D|]. destruct (N.eq_dec d 46) as [->|NE].
  - destruct (next_satisfies digit_char r').
    + destruct (take_while name_char r') as [y r''] eqn:T2. intros H. injection H as <- _. pose proof (take_solid _ _ _ _ NW T2) as Y. intros Z.
      apply in_app_iff in Z as [Z|[Z|Z]]; [exact (X Z)|discriminate|exact (Y Z)].
    + destruct (next_satisfies _ r'); [exact D|]. intros H. injection H as <- _. intros Z. apply in_app_iff in Z as [Z|[Z|[]]]; [exact (X Z)|discriminate].
  - intros H. apply D. rewrite <- H. destruct d as [|p]; [reflexivity|]. do 6 (destruct p as [p|p|]; try reflexivity). congruence.
Qed.
Lemma char_end_solid s : forall a b, char_end s = Some (a, b) -> ~ In 10%N a.
Proof.
  induction s as [|c s IH]; intros a b H; [discriminate|]. cbn in H. destruct (N.eqb c 39) eqn:Q; [injection H as <- _; apply N.eqb_eq in Q as ->; intros [X|[]]; discriminate|].
  destruct (is_white c) eqn:W; [discriminate|]. destruct (char_end s) as [[x y]|]; [|discriminate]. injection H as <- _.
  intros [->|X]; [discriminate|exact (IH _ _ eq_refl X)].
Qed.
Lemma char_solid s a b : char_literal s = Some (a, b) -> ~ In 10%N a.
Proof.
  destruct s as [|c r]; [discriminate|]. cbn [char_literal]. destruct (N.eqb c 92) eqn:C.
  - apply N.eqb_eq in C as ->. destruct r as [|d r]; [discriminate|]. destruct (is_white d) eqn:W; [discriminate|].
    destruct (char_end r) as [[x y]|] eqn:E; [|discriminate]. intros H. injection H as <- _. intros [X|[->|X]]; [discriminate|discriminate|exact (char_end_solid _ _ _ E X)].
  - destruct (existsb (N.eqb c) [39; 9; 10; 13]%N) eqn:Q; [discriminate|]. destruct r as [|d r]; [discriminate|]. destruct (N.eqb d 39) eqn:D; [|discriminate].
    intros H. injection H as <- _. apply N.eqb_eq in D as ->. intros [->|[X|[]]]; discriminate.
Qed.
Lemma token_solid g s k b : read_token g s = Some (k, b) -> is_string k = false -> ~ In 10%N (spelling k).
Proof.
  destruct s as [|c r]; [discriminate|]. cbn [read_token]. destruct (N.eqb c 34) eqn:Q.
  { destruct (read_literal g (c :: r)) as [[v t]|]; [|discriminate]. intros H. injection H as <- <-. discriminate. }
  assert (NW : forall c, is_white c = true -> name_char c = false) by (clear; intros c H; apply white_cases in H as [->|[->|[->| ->]]]; reflexivity).
  destruct (N.eqb c 39) eqn:Q2.
  { apply N.eqb_eq in Q2 as ->. destruct (char_literal r) as [[x y]|] eqn:C.
    - intros H _. injection H as <- <-. cbn [spelling]. intros [X|X]; [discriminate|exact (char_solid _ _ _ C X)].
    - destruct (next_satisfies name_first r) eqn:N; [|discriminate]. intros H _. injection H as <- <-. cbn [spelling]. intros [X|[]]; discriminate. }
  destruct (name_first c) eqn:NF.
  { destruct (take_while name_char (c :: r)) as [x y] eqn:T. destruct (odd_name x y); [discriminate|]. intros H _. injection H as <- <-. exact (take_solid _ _ _ _ NW T). }
  destruct (digit_char c) eqn:DC.
  { destruct (number (c :: r)) as [x y] eqn:T. destruct (odd_number x y); [discriminate|]. intros H _. injection H as <- <-. exact (number_solid _ _ _ T). }
  destruct (punct_char c) eqn:PC.
  { destruct (_ && _); [discriminate|]. intros H _. injection H as <- <-. cbn [spelling]. intros [->|[]]. discriminate. }
  destruct (bracket c) as [k'|] eqn:B; [|discriminate]. intros H S. injection H as -> ->. destruct (bracket_spelling _ _ B) as [E _]. rewrite E. intros [->|[]]. discriminate.
Qed.
Lemma consists_solid g s L : consists g s L -> Forall (fun x => is_string (fst x) = false -> solid (snd x)) L.
Proof.
  induction 1 as [|c s l W C IH|k w r l D RT C IH]; auto. constructor; [|exact IH]. cbn [fst snd]. intros S.
  split; [exact D|]. pose proof (token_solid _ _ _ _ RT S) as T. destruct (read_local g g _ _ _ RT S) as (Q & _). apply app_inv_tail in Q as ->. exact T.
Qed.

(** Code with string literals, in a language that writes literals Rust reads as the
    same strings, each on one line. *)
Theorem C80_reads : forall LI E P X (R : rust LI E P X), consuming R ->
  forall (ops : lang_ops LI) cfg ok ts p s,
  ends_lines (c_newline cfg) -> writes_literals ops rust_grammar ok (fun v => v) ->
  (forall v, ok v -> ~ In 10%N (concat (l_write_quoted ops v))) ->
  read_at rust_grammar p s = Some (trees_tokens ts) ->
  forallb no_dollars ts = true -> starts_fit (map fst (trees_tokens ts)) ->
  Forall (string_ok ok) (map snd (trees_tokens ts)) ->
  exists qs, parse R ts = Some qs /\ forall e, exists t out, quote qs e = Some (e, t) /\
    outcome (format_items ops cfg string_writer (items t) (formatter_new [])) = (out, true) /\
    forall row2,
    (exists ts2, read_at rust_grammar (mk_pos row2 0) out = Some (trees_tokens ts2)) /\
    forall ts2, read_at rust_grammar (mk_pos row2 0) out = Some (trees_tokens ts2) ->
    exists qs2, parse R ts2 = Some qs2 /\ forall e2, exists t2, quote qs2 e2 = Some (e2, t2) /\
      outcome (format_items ops cfg string_writer (items t2) (formatter_new [])) = (out, true).
Proof.
  intros LI E P X R C ops cfg ok ts p s NL (O & CL & DN) LF RD ND F OK.
  assert (AW : all_white (c_newline cfg)) by (destruct NL as [-> | ->]; repeat constructor).
  assert (NE : c_newline cfg <> []) by (destruct NL as [-> | ->]; discriminate).
  destruct (trees_parse R C ts ND) as (qs & Q & A). exists qs. split; [exact Q|]. intros e.
  destruct (read_consists _ _ _ _ _ RD) as (ws & LW & WR & CS).
  assert (AF : map fst (all_tokens qs) = map fst (trees_tokens ts)) by (rewrite A, map_map; reflexivity).
  destruct (tokens_show (E := E) ops cfg O CL e (trees_tokens ts) ws LW (consists_spelled _ _ _ CS)) as (D1 & D2 & D3). rewrite <- A in D1.
  destruct (quote_respaces ops cfg AW NE qs p s ws e _ e ltac:(rewrite AF; exact WR) ltac:(rewrite A, map_length; exact LW) ltac:(rewrite AF; exact F) D1 D2)
    as (t & out & b & s1 & QT & OUT & -> & B & RS).
  destruct (C80_source _ _ ops cfg qs p (b ++ s1) ws e _ e NL ltac:(rewrite AF; exact WR) ltac:(rewrite A, map_length; exact LW) ltac:(rewrite AF; exact F) D1 D2)
    as (t' & out' & QT' & OUT' & AG).
  assert (t' = t) by congruence. subst t'. assert (out' = out) by congruence. subst out'.
  exists t, out. split; [exact QT|]. split; [exact OUT|]. rewrite D3 in RS, AG.
  set (K := trees_tokens ts) in *. assert (LK : length (map snd K) = length ws) by (rewrite map_length; congruence).
  set (lit := written_literal ops) in *.
  assert (RE : combine ws (map (fun x => rewritten lit (fst x) (snd x)) (combine (map snd K) ws)) =
               map (fun q => (snd q, rewritten lit (fst q) (snd q))) (combine (map snd K) ws)).
  { revert LK. generalize (map snd K) as ks, ws. clear. induction ks as [|k ks IH]; intros [|w ws] L; try discriminate; [reflexivity|].
    cbn. f_equal. apply IH. cbn in L; lia. }
  rewrite RE in RS. apply consists_strip in CS; [|exact B].
  assert (CO : consists rust_grammar out (map (fun p => (map_string (fun v => v) (fst p), rewritten lit (fst p) (snd p))) (combine (map snd K) ws))).
  { destruct (consists_same rust_grammar rust_grammar (fun v => v) lit ok) with (L := combine (map snd K) ws) (s := s1) (s' := out) as [_ CO]; [| |exact CS| |exact RS|exact CO].
    - intros v. unfold lit, written_literal. eauto.
    - intros v rest V. apply DN. exact V.
    - clear -OK LK. revert OK LK. generalize (map snd K) as ks, ws. induction ks as [|k ks IH]; intros [|w us] OK L; try discriminate; [constructor|].
      inversion OK; subst. constructor; [cbn; destruct k; auto|]. apply IH; [auto|cbn in L; lia]. }
  set (vs := map (fun x => rewritten lit (fst x) (snd x)) (combine (map snd K) ws)) in *.
  assert (CO' : consists rust_grammar out (combine (map snd K) vs)).
  { replace (combine (map snd K) vs) with (map (fun p => (map_string (fun v => v) (fst p), rewritten lit (fst p) (snd p))) (combine (map snd K) ws)); [exact CO|].
    unfold vs. revert LK. generalize (map snd K) as ks, ws. clear. induction ks as [|k ks IH]; intros [|w ws] L; try discriminate; [reflexivity|].
    cbn. f_equal; [destruct k; reflexivity|]. apply IH. cbn in L; lia. }
  clear CO RE RS. assert (LV : length (map snd K) = length vs) by (unfold vs; rewrite !map_length, combine_length, map_length in *; lia).
  assert (SV : Forall solid vs).
  { pose proof (consists_solid _ _ _ CS) as SC. unfold vs. apply Forall_map. apply Forall_forall. intros [k w] Z. rewrite Forall_forall in SC. specialize (SC _ Z). cbn [fst snd] in *.
    destruct (is_string k) eqn:S; [|specialize (SC eq_refl); destruct k; try discriminate; exact SC].
    destruct k; try discriminate. cbn [rewritten]. unfold lit, written_literal. split; [reflexivity|]. intros [Y|Y]; [discriminate|].
    apply in_app_iff in Y as [Y|[Y|[]]]; [|discriminate]. revert Y. apply LF. apply in_combine_l in Z. rewrite Forall_forall in OK. exact (OK _ Z). }
  intros row2. split.
  - destruct (consists_read _ _ _ CO' (length out) (mk_pos row2 0) (le_n _)) as (l & L1 & L2). rewrite (comb_fst _ _ LV) in L2.
    destruct (regroup ts l L2 (read_wide _ _ _ _ _ L1)) as (ts2 & <-). exists ts2. exact L1.
  - intros ts2 RD2. destruct (read_consists _ _ _ _ _ RD2) as (ws2 & LW2 & WR2 & CS2).
    pose proof (consists_once _ _ _ CO' _ CS2) as SAME.
    apply combine_split in SAME as [SK ->]; [|rewrite map_length; congruence|exact LV].
    assert (ND2 : forallb no_dollars ts2 = true) by (apply dollars_all; rewrite SK; apply dollars_all; exact ND).
    destruct (trees_parse R C ts2 ND2) as (qs2 & Q2 & A2). exists qs2. split; [exact Q2|]. intros e2.
    destruct (tokens_show (E := E) ops cfg O CL e2 (trees_tokens ts2) vs LW2 (consists_spelled _ _ _ CS2)) as (T1 & T2 & T3). rewrite <- A2 in T1.
    assert (CC : concat (map (fun w : str => [w]) vs) = vs) by (clear; induction vs as [|w l IH]; [reflexivity|]; cbn; rewrite IH; reflexivity).
    apply (AG qs2 row2 (map (fun w => [w]) vs) e2 _ e2) in T1; [exact T1| | | |exact T2|].
    + clear -SV. induction SV as [|w l S _ IH]; constructor; [constructor; exact S|exact IH].
    + rewrite CC, A2, map_map. cbn [fst]. exact WR2.
    + rewrite CC, A2, map_length. exact LW2.
    + rewrite CC, T3, SK. unfold vs. revert LK. generalize (map snd K) as ks, ws. clear. induction ks as [|k ks IH]; intros [|w ws] L; try discriminate; [reflexivity|].
      cbn. f_equal; [destruct k; reflexivity|]. apply IH. cbn in L; lia.
Qed.
Print Assumptions C80_reads.

Lemma rust_one_line v : ~ In 10%N (concat (rust_write_quoted v)).
Proof.
  unfold rust_write_quoted. intros H. rewrite <- flat_map_concat_map in H. apply in_flat_map in H as (c & _ & H). revert H. unfold rust_char.
  assert (HX : forall w n, ~ In 10%N (hex_pad w n)).
  { intros w n X. pose proof (hex_pad_chars w n) as F. rewrite Forall_forall in F. destruct (F _ X) as (d & D & Y). pose proof (hex_char_range d D). lia. }
  destruct (N.eqb_spec c 10) as [|NE]; [intros [Y|[Y|[]]]; discriminate|].
  do 5 (destruct (N.eqb _ _); [intros [Y|[Y|[]]]; discriminate|]).
  destruct (negb (is_control c)); [intros [Y|[]]; congruence|]. destruct (c <? 128)%N.
  - intros [Y|[Y|Y]]; [discriminate|discriminate|exact (HX _ _ Y)].
  - intros Y. apply in_app_iff in Y as [Y|Y]; [vm_compute in Y; intuition discriminate|]. apply in_app_iff in Y as [Y|Y]; [exact (HX _ _ Y)|vm_compute in Y; intuition discriminate].
Qed.

(** Rust code: what is written for it is Rust code that is written as it is. *)
Theorem C80_rust : forall E P X (R : rust rust_import E P X), consuming R ->
  forall config format cfg ts p s,
  ends_lines (c_newline cfg) ->
  read_at rust_grammar p s = Some (trees_tokens ts) ->
  forallb no_dollars ts = true -> starts_fit (map fst (trees_tokens ts)) ->
  Forall (string_ok valid) (map snd (trees_tokens ts)) ->
  exists qs, parse R ts = Some qs /\ forall e, exists t out, quote qs e = Some (e, t) /\
    outcome (format_items (ld_ops rust_lang config format) cfg string_writer (items t) (formatter_new [])) = (out, true) /\
    forall row2,
    (exists ts2, read_at rust_grammar (mk_pos row2 0) out = Some (trees_tokens ts2)) /\
    forall ts2, read_at rust_grammar (mk_pos row2 0) out = Some (trees_tokens ts2) ->
    exists qs2, parse R ts2 = Some qs2 /\ forall e2, exists t2, quote qs2 e2 = Some (e2, t2) /\
      outcome (format_items (ld_ops rust_lang config format) cfg string_writer (items t2) (formatter_new [])) = (out, true).
Proof.
  intros E P X R C config fm cfg ts p s NL RD ND F OK.
  apply (C80_reads _ E P X R C (ld_ops rust_lang config fm) cfg valid ts p s NL); auto.
  - split; [reflexivity|]. split; [reflexivity|]. intros v V.
    destruct (C22_rust_round_trip v V) as (src & S & D).
    rewrite (literal_source rust_lang _ v eq_refl eq_refl (fun s => eq_refl)) in S. injection S as <-. rewrite <- concat_map_flat in D. exact D.
  - intros v _. apply rust_one_line.
Qed.
Print Assumptions C80_rust.

(** ** Examples *)

(** The code of C76, whose hypotheses [C76_hypotheses] are those of [C80_rust], quoted
    twice. *)
Definition requoted (text : str) : option (str * bool) :=
  bind (read_at rust_grammar (mk_pos 9 0) text) (fun l =>
  bind (parse (Source.table_rust Source.no_table) (grouped [] [] l)) (fun qs =>
  bind (quote qs []) (fun '(_, t) =>
    Some (outcome (format_items (ld_ops rust_lang Direct tt) (mk_config (ISpace 4) [10%N]) string_writer (items t) (formatter_new [])))))).
Example C80_rust_example : exists out, code_out = Some (out, true) /\ requoted out = Some (out, true) /\ length out > 100 /\ requoted code = Some (out, true) /\ out <> code.
Proof. eexists. split; [vm_compute; reflexivity|]. split; [vm_compute; reflexivity|]. split; [vm_compute; lia|]. split; [vm_compute; reflexivity|]. vm_compute. discriminate. Qed.
(** The words of C76, quoted twice. *)
Example C80_code_hypotheses : Forall solid (map snd (flats words_trees)).
Proof. repeat constructor; cbn; intuition discriminate. Qed.
(** [a  $x(b)] is written as [a one two(b)], which is six words. *)
Definition demo_again : list (quoted_item rust_import nat) :=
  [QText (at_ 3 0 3 1) $"a"; QText (at_ 3 2 3 5) $"one"; QText (at_ 3 6 3 9) $"two";
   QGroup (at_ 3 9 3 12) Parenthesis [QText (at_ 3 10 3 11) $"b"]].
Example C80_source_example :
  (exists t, quote demo_quote 5 = Some (6, t) /\
    outcome (format_items (ld_ops rust_lang Direct tt) (mk_config (ISpace 4) [10%N]) string_writer (items t) (formatter_new [])) = ($"a one two(b)", true)) /\
  Forall2 pieces [$"a"; $"one two"; $"("; $"b"; $")"] [[$"a"]; [$"one"; $"two"]; [$"("]; [$"b"]; [$")"]] /\
  written (mk_pos 3 0) $"a one two(b)" (combine (map fst (all_tokens demo_again)) (concat [[$"a"]; [$"one"; $"two"]; [$"("]; [$"b"]; [$")"]])) /\
  (exists t, quote demo_again 5 = Some (5, t) /\
    outcome (format_items (ld_ops rust_lang Direct tt) (mk_config (ISpace 4) [10%N]) string_writer (items t) (formatter_new [])) = ($"a one two(b)", true)).
Proof.
  split; [eexists; split; [vm_compute; reflexivity|vm_compute; reflexivity]|]. split.
  - repeat constructor; try (cbn; intuition discriminate).
    apply (pieces_more $"one" $" " $"two" [$"two"]); [split; [reflexivity|cbn; intuition discriminate]|auto|]. constructor. split; [reflexivity|cbn; intuition discriminate].
  - split; [cbn -[advance]; is_written|]. eexists. split; vm_compute; reflexivity.
Qed.
(** Text that is interpolated with other white space in it is written as it is, but
    not if it is quoted then. *)
Example C80_spaces :
  (exists t, quote [QEval (at_ 3 0 3 2) (fun e => (VStr $"one  two", e))] 5 = Some (5, t) /\
    outcome (format_items (ld_ops rust_lang Direct tt) (mk_config (ISpace 4) [10%N]) string_writer (items t) (formatter_new [])) = ($"one  two", true)) /\
  (exists t, quote [QText (at_ 3 0 3 3) $"one"; QText (at_ 3 5 3 8) $"two"] 5 = Some (5, t) /\
    outcome (format_items (ld_ops rust_lang Direct tt) (mk_config (ISpace 4) [10%N]) string_writer (items t) (formatter_new [])) = ($"one two", true)).
Proof. split; eexists; (split; vm_compute; reflexivity). Qed.
