(** * Quoted code reads as itself (C76).

    Vocabulary: [SpecReread.v] (source text, white space, a reader of code),
    [SpecWords.v] (what tokens show), [SpecParse.v] (token trees), [SpecLex.v]. *)
From Verif Require Import Str SpecStr StrFacts Quote SpecLex LexFacts QuoteFacts Tokens SpecTokens TokensRun Values Fmt SpecFmt SpecFile RenderFacts StringFacts
  LayoutFacts OutputFacts Macro SpecMacro MacroFacts MacroSem MacroTokens MacroRender SpecWords WordsFacts Parse SpecParse ParseFacts SpecReread RereadFacts RespaceFacts
  LangBase LangRust LangSwift PropsQuote PropsParse PropsWords.
From Verif Require Source.

(** ** Any language, any words on one line *)

(** The output of a quote is its source, each word replaced by what it shows, with
    white space in the same places; leading white space is dropped. *)
Theorem C76_source : forall LI E (ops : lang_ops LI) cfg (qs : list (quoted_item LI E)) p s ws e ds e',
  all_white (c_newline cfg) -> c_newline cfg <> [] ->
  written p s (combine (map fst (all_tokens qs)) ws) -> length ws = length (all_tokens qs) ->
  starts_fit (map fst (all_tokens qs)) ->
  all_show ops cfg (map snd (all_tokens qs)) e ds e' -> Forall (inline ops cfg) ds ->
  exists t out b s1, quote qs e = Some (e', t) /\
    outcome (format_items ops cfg string_writer (items t) (formatter_new [])) = (out, true) /\
    s = b ++ s1 /\ all_white b /\ respaced (combine ws (map (string_of ops cfg) ds)) s1 out.
Proof. intros. eapply quote_respaces; eauto. Qed.
Print Assumptions C76_source.

(** ** Plain code *)

Lemma text_shows {LI E} (ops : lang_ops LI) cfg w (e : E) : w <> [] ->
  shows ops cfg (LText w) e [NItem (Literal (Static w))] e.
Proof.
  intros N. split; [auto|]. split; [reflexivity|]. cbn. split; [|lia].
  split; [exists (AText w), []|exists [], (AText w)]; (split; [reflexivity|]); destruct w; [congruence|reflexivity|congruence|reflexivity].
Qed.
Lemma texts_inline {LI} (ops : lang_ops LI) cfg ns ss : doc_atoms ops cfg ns = texts ss -> inline ops cfg ns /\ string_of ops cfg ns = concat ss.
Proof.
  intros A. unfold inline, string_of. rewrite A. split.
  - unfold texts. apply Forall_map. apply Forall_forall. reflexivity.
  - rewrite layout_texts, text_chars. reflexivity.
Qed.
Lemma text_string {LI} (ops : lang_ops LI) cfg w :
  inline ops cfg [NItem (Literal (Static w))] /\ string_of ops cfg [NItem (Literal (Static w))] = w.
Proof. destruct (texts_inline ops cfg [NItem (Literal (Static w))] [w] eq_refl) as [A B]. split; [exact A|]. rewrite B. apply app_nil_r. Qed.
Definition literal_doc {LI} (v : str) : list (node LI) := [NString false [PItem (Literal (Static v))]].
Lemma literal_string {LI} (ops : lang_ops LI) cfg v :
  l_open_quote ops false = [[34%N]] -> l_close_quote ops false = [[34%N]] ->
  doc_atoms ops cfg (literal_doc v) = texts ([[34%N]] ++ l_write_quoted ops v ++ [[34%N]]).
Proof. intros O C. cbn. rewrite O, C, !app_nil_r. cbn. f_equal. symmetry. apply map_app. Qed.
Lemma literal_shows {LI E} (ops : lang_ops LI) cfg c v (e : E) :
  l_open_quote ops false = [[34%N]] -> l_close_quote ops false = [[34%N]] ->
  shows ops cfg (LOther (QQuoted c v)) e (literal_doc v) e.
Proof.
  intros O C. pose proof (literal_string ops cfg v O C) as A. pose proof (texts_inline _ _ _ _ A) as [I _].
  pose proof (inline_closed _ _ _ I) as Z. split; [|split; [reflexivity|split; [|rewrite Z; lia]]].
  - rewrite Z. split.
    + eexists. split; reflexivity.
    + eexists _, _. split; reflexivity.
  - rewrite A. unfold texts. split.
    + eexists _, _. split; reflexivity.
    + exists (map AText ([[34%N]] ++ l_write_quoted ops v)), (AText [34%N]). split; [|reflexivity]. rewrite app_assoc, map_app. reflexivity.
Qed.

Section Trees.
Context {LI E P X : Type} (R : rust LI E P X).
Definition token_leaf (p : cursor * token) : cursor * leaf LI E :=
  (fst p, match snd p with WString v => LOther (QQuoted (fst p) v) | k => LText (spelling k) end).
Lemma front_tree : forall t, no_dollars t = true -> in_front R [t] (map token_leaf (tree_tokens t)).
Proof.
  intros t. induction t as [t A|c d ts IH] using tree_ind'; intros N.
  - destruct t; try contradiction.
    all: try (apply (front_plain R (TIdent _ _)) || apply (front_plain R (TLit _ _)) || apply (front_plain R (TChar _ _ _)); [exact I|intros []]).
    + intros rest qs W. eexists. split; [apply (reads_plain R (TPunct c ch joint)); [exact I| |exact W]|reflexivity]. cbn in *. intros ->. discriminate.
    + intros rest qs W. eexists. split; [apply reads_quoted; exact W|reflexivity].
  - cbn [no_dollars] in N. cbn [tree_tokens map]. rewrite map_app. apply front_group.
    assert (H : Forall (fun t => in_front R [t] (map token_leaf (tree_tokens t))) ts).
    { rewrite forallb_forall in N. rewrite Forall_forall in *. auto. }
    apply front_list in H. rewrite map_flat_map. replace ts with (flat_map (fun t => [t]) ts) at 1 by apply flat_map_singleton. exact H.
Qed.
Lemma front_trees ts : forallb no_dollars ts = true -> in_front R ts (map token_leaf (trees_tokens ts)).
Proof.
  intros N. assert (H : Forall (fun t => in_front R [t] (map token_leaf (tree_tokens t))) ts).
  { rewrite forallb_forall in N. rewrite Forall_forall in *. intros t T. apply front_tree. auto. }
  apply front_list in H. unfold trees_tokens. rewrite map_flat_map. replace ts with (flat_map (fun t => [t]) ts) at 1 by apply flat_map_singleton. exact H.
Qed.
Lemma trees_parse : consuming R -> forall ts, forallb no_dollars ts = true ->
  exists qs, parse R ts = Some qs /\ all_tokens qs = map token_leaf (trees_tokens ts).
Proof.
  intros C ts D. destruct (front_trees ts D [] [] ltac:(constructor)) as (qs & W & T). rewrite !app_nil_r in *.
  exists qs. split; [|exact T]. apply C61_grammar; assumption.
Qed.
End Trees.

(** In any language code without string literals comes out with the same words:
    what white space separates is the same, in the same order. *)
Theorem C76_words : forall LI E P X (R : rust LI E P X), consuming R ->
  forall (ops : lang_ops LI) cfg ts p s,
  all_white (c_newline cfg) -> c_newline cfg <> [] ->
  forallb no_strings ts = true -> forallb no_dollars ts = true ->
  written p s (flats ts) -> starts_fit (map fst (flats ts)) ->
  exists qs, parse R ts = Some qs /\ forall e, exists t out, quote qs e = Some (e, t) /\
    outcome (format_items ops cfg string_writer (items t) (formatter_new [])) = (out, true) /\
    words out = words s.
Proof.
  intros LI E P X R C ops cfg ts p s W N NS ND WR F. destruct (C62_tokens _ _ _ _ R C ts NS ND) as (qs & Q & A).
  exists qs. split; [exact Q|]. intros e.
  assert (AF : map fst (all_tokens qs) = map fst (flats ts)) by (rewrite A, map_map; reflexivity).
  assert (CM : forall l : list (cursor * str), combine (map fst l) (map snd l) = l).
  { clear. induction l as [|[a b] l IH]; [reflexivity|]. cbn. rewrite IH. reflexivity. }
  assert (NE : Forall (fun x => snd x <> []) (flats ts)) by (clear -WR; induction WR; auto).
  assert (SH : forall l, Forall (fun x : cursor * str => snd x <> []) l ->
    all_show ops cfg (map (fun x => @LText LI E (snd x)) l) e (map (fun x => [NItem (Literal (Static (snd x)))]) l) e /\
    Forall (inline ops cfg) (map (fun x => [NItem (Literal (Static (snd x)))]) l) /\
    map (string_of ops cfg) (map (fun x => [NItem (Literal (Static (snd x)))]) l) = map snd l).
  { clear. induction 1 as [|x l V _ (I1 & I2 & I3)]; [cbn; auto|]. cbn [map all_show]. rewrite I3. destruct (text_string ops cfg (snd x)) as [T1 T2].
    split; [exists e; split; [apply text_shows; exact V|exact I1]|]. split; [constructor; auto|]. rewrite T2. reflexivity. }
  destruct (SH _ NE) as (S1 & S2 & S3).
  destruct (quote_respaces ops cfg W N qs p s (map snd (flats ts)) e (map (fun x => [NItem (Literal (Static (snd x)))]) (flats ts)) e)
    as (t & out & b & s1 & Q1 & OUT & -> & B & RS).
  - rewrite AF, CM. exact WR.
  - rewrite A, !map_length. reflexivity.
  - rewrite AF. exact F.
  - rewrite A, map_map. exact S1.
  - exact S2.
  - exists t, out. split; [exact Q1|]. split; [exact OUT|]. rewrite S3 in RS. rewrite words_white by exact B. symmetry. apply (respaced_words (map snd (flats ts))).
    replace (map (fun w => (w, w)) (map snd (flats ts))) with (combine (map snd (flats ts)) (map snd (flats ts))); [exact RS|].
    generalize (map snd (flats ts)). clear. induction l as [|w l IH]; [reflexivity|]. cbn. f_equal. exact IH.
Qed.
Print Assumptions C76_words.

(** A language whose string literals denote, in the grammar [g], what [f] makes of
    their text if [ok]. *)
Definition writes_literals {LI} (ops : lang_ops LI) (g : grammar) (ok : str -> Prop) (f : str -> list N) : Prop :=
  l_open_quote ops false = [[34%N]] /\ l_close_quote ops false = [[34%N]] /\
  forall v, ok v -> denotes g (34%N :: concat (l_write_quoted ops v) ++ [34%N]) (f v).
Definition string_ok (ok : str -> Prop) (k : token) : Prop := match k with WString v => ok v | _ => True end.

(** What the tokens of code show. *)
Definition written_literal {LI} (ops : lang_ops LI) (v : str) : str := 34%N :: concat (l_write_quoted ops v) ++ [34%N].
Definition token_doc {LI} (k : token) (w : str) : list (node LI) := match k with WString v => literal_doc v | _ => [NItem (Literal (Static w))] end.
Definition spelled_so (x : token * str) : Prop := starts_dark (snd x) /\ (is_string (fst x) = false -> snd x = spelling (fst x)).
Lemma consists_spelled g s L : consists g s L -> Forall spelled_so L.
Proof.
  induction 1 as [|c s l W C IH|k w r l D RT C IH]; auto. constructor; [|exact IH].
  split; [exact D|]. cbn [fst snd]. intros S. destruct (read_local g g _ _ _ RT S) as (Q & _). apply app_inv_tail in Q. exact Q.
Qed.
Lemma tokens_show {LI E} (ops : lang_ops LI) cfg : l_open_quote ops false = [[34%N]] -> l_close_quote ops false = [[34%N]] ->
  forall (e : E) (K : list (cursor * token)) ws, length ws = length K -> Forall spelled_so (combine (map snd K) ws) ->
  all_show ops cfg (map snd (map (@token_leaf LI E) K)) e (map (fun x => token_doc (fst x) (snd x)) (combine (map snd K) ws)) e /\
  Forall (inline ops cfg) (map (fun x => token_doc (fst x) (snd x)) (combine (map snd K) ws)) /\
  map (string_of ops cfg) (map (fun x => token_doc (fst x) (snd x)) (combine (map snd K) ws)) =
    map (fun x => rewritten (written_literal ops) (fst x) (snd x)) (combine (map snd K) ws).
Proof.
  intros O CL e. induction K as [|[c k] K IH]; intros [|w ws] L F; try discriminate; [cbn; auto|].
  cbn [map snd combine] in F. inversion F as [|? ? [D S] F2]; subst. cbn [fst snd] in *. destruct (IH ws) as (A & B & C); [cbn in L; lia|exact F2|].
  cbn [map fst snd combine all_show]. rewrite C.
  assert (Q : shows ops cfg (snd (@token_leaf LI E (c, k))) e (token_doc k w) e /\ inline ops cfg (token_doc k w) /\ string_of ops cfg (token_doc k w) = rewritten (written_literal ops) k w).
  { destruct (is_string k) eqn:T.
    - destruct k; try discriminate. cbn [token_doc rewritten token_leaf snd fst]. pose proof (literal_string ops cfg v O CL) as AT. pose proof (texts_inline _ _ _ _ AT) as [I1 I2].
      split; [apply literal_shows; assumption|]. split; [exact I1|]. rewrite I2. unfold written_literal. cbn. rewrite concat_app. cbn. reflexivity.
    - specialize (S eq_refl). assert (NE : w <> []) by (destruct w; [contradiction|discriminate]). destruct (text_string ops cfg w) as [I1 I2].
      pose proof (text_shows ops cfg w e NE) as SH. rewrite S in SH |- * at 1.
      destruct k; try discriminate; cbn [token_leaf snd fst token_doc rewritten]; (split; [exact SH|split; [exact I1|exact I2]]). }
  destruct Q as (Q1 & Q2 & Q3). split; [exists e; auto|]. split; [constructor; auto|]. rewrite Q3. reflexivity.
Qed.

Theorem C76_reads : forall LI E P X (R : rust LI E P X), consuming R ->
  forall (ops : lang_ops LI) cfg g' ok f ts p s,
  all_white (c_newline cfg) -> c_newline cfg <> [] -> writes_literals ops g' ok f ->
  read_at rust_grammar p s = Some (trees_tokens ts) ->
  forallb no_dollars ts = true -> starts_fit (map fst (trees_tokens ts)) ->
  Forall (string_ok ok) (map snd (trees_tokens ts)) ->
  exists qs, parse R ts = Some qs /\ forall e, exists t out, quote qs e = Some (e, t) /\
    outcome (format_items ops cfg string_writer (items t) (formatter_new [])) = (out, true) /\
    read_code g' out = Some (map (map_string f) (map snd (trees_tokens ts))).
Proof.
  intros LI E P X R C ops cfg g' ok f ts p s W N (O & CL & DN) RD ND F OK.
  destruct (trees_parse R C ts ND) as (qs & Q & A). exists qs. split; [exact Q|]. intros e.
  destruct (read_consists _ _ _ _ _ RD) as (ws & LW & WR & CS).
  set (K := trees_tokens ts) in *. clearbody K. clear RD ND ts Q.
  assert (AF : map fst (all_tokens qs) = map fst K) by (rewrite A, map_map; reflexivity).
  pose proof (consists_spelled _ _ _ CS) as SP.
  destruct (tokens_show (E := E) ops cfg O CL e K ws LW SP) as (D1 & D2 & D3). clear SP.
  rewrite <- A in D1.
  destruct (quote_respaces ops cfg W N qs p s ws e _ e ltac:(rewrite AF; exact WR) ltac:(rewrite A, map_length; exact LW) ltac:(rewrite AF; exact F) D1 D2)
    as (t & out & b & s1 & Q & OUT & -> & B & RS).
  exists t, out. split; [exact Q|]. split; [exact OUT|]. rewrite D3 in RS. apply consists_strip in CS; [|exact B].
  assert (LK : length (map snd K) = length ws) by (rewrite map_length; congruence).
  assert (RE : combine ws (map (fun x => rewritten (written_literal ops) (fst x) (snd x)) (combine (map snd K) ws)) =
               map (fun q => (snd q, rewritten (written_literal ops) (fst q) (snd q))) (combine (map snd K) ws)).
  { revert LK. generalize (map snd K) as ks, ws. clear. induction ks as [|k ks IH]; intros [|w ws] L; try discriminate; [reflexivity|].
    cbn. f_equal. apply IH. cbn in L; lia. }
  rewrite RE in RS.
  destruct (consists_same rust_grammar g' f (written_literal ops) ok) with (L := combine (map snd K) ws) (s := s1) (s' := out) as [_ CO].
  - intros v. unfold written_literal. eauto.
  - intros v rest V. apply DN. exact V.
  - exact CS.
  - clear -OK LK. revert OK LK. generalize (map snd K) as ks, ws. induction ks as [|k ks IH]; intros [|w us] OK L; try discriminate; [constructor|].
    inversion OK; subst. constructor; [cbn; destruct k; auto|]. apply IH; [auto|cbn in L; lia].
  - exact RS.
  - destruct (consists_read _ _ _ CO (length out) (mk_pos 1 0) (le_n _)) as (l & L1 & L2). unfold read_code, read_at. rewrite L1. cbn [option_map]. f_equal. rewrite L2, map_map.
    cbn [fst]. rewrite <- (comb_fst (map snd K) ws LK) at 2. rewrite !map_map. reflexivity.
Qed.
Print Assumptions C76_reads.

(** ** Rust in Rust *)

(** Rust code, quoted, is the same Rust code: its tokens, in order, with the values
    of its string literals, whether they were written with escapes or on several
    lines. *)
Theorem C76_rust : forall E P X (R : rust rust_import E P X), consuming R ->
  forall config format cfg ts p s,
  all_white (c_newline cfg) -> c_newline cfg <> [] ->
  read_at rust_grammar p s = Some (trees_tokens ts) ->
  forallb no_dollars ts = true -> starts_fit (map fst (trees_tokens ts)) ->
  Forall (string_ok valid) (map snd (trees_tokens ts)) ->
  exists qs, parse R ts = Some qs /\ forall e, exists t out, quote qs e = Some (e, t) /\
    outcome (format_items (ld_ops rust_lang config format) cfg string_writer (items t) (formatter_new [])) = (out, true) /\
    read_code rust_grammar out = Some (map snd (trees_tokens ts)).
Proof.
  intros E P X R C config fm cfg ts p s W N RD ND F OK.
  destruct (C76_reads _ E P X R C (ld_ops rust_lang config fm) cfg rust_grammar valid (fun v => v) ts p s W N) as (qs & Q & H); auto.
  - split; [reflexivity|]. split; [reflexivity|]. intros v V. 
    destruct (C22_rust_round_trip v V) as (src & S & D).
    rewrite (literal_source rust_lang _ v eq_refl eq_refl (fun s => eq_refl)) in S. injection S as <-. rewrite <- concat_map_flat in D. exact D.
  - exists qs. split; [exact Q|]. intros e. destruct (H e) as (t & out & H1 & H2 & H3). exists t, out. split; [exact H1|]. split; [exact H2|]. rewrite H3. f_equal.
    rewrite <- (map_id (map snd (trees_tokens ts))) at 2. apply map_ext. intros []; reflexivity.
Qed.
Print Assumptions C76_rust.

(** The same in Swift, whose literals are written differently. *)
Theorem C76_swift : forall E P X (R : rust swift_import E P X), consuming R ->
  forall config format cfg ts p s,
  all_white (c_newline cfg) -> c_newline cfg <> [] ->
  read_at rust_grammar p s = Some (trees_tokens ts) ->
  forallb no_dollars ts = true -> starts_fit (map fst (trees_tokens ts)) ->
  Forall (string_ok valid) (map snd (trees_tokens ts)) ->
  exists qs, parse R ts = Some qs /\ forall e, exists t out, quote qs e = Some (e, t) /\
    outcome (format_items (ld_ops swift_lang config format) cfg string_writer (items t) (formatter_new [])) = (out, true) /\
    read_code swift_grammar out = Some (map snd (trees_tokens ts)).
Proof.
  intros E P X R C config fm cfg ts p s W N RD ND F OK.
  destruct (C76_reads _ E P X R C (ld_ops swift_lang config fm) cfg swift_grammar valid (fun v => v) ts p s W N) as (qs & Q & H); auto.
  - split; [reflexivity|]. split; [reflexivity|]. intros v V. 
    destruct (C23_swift_round_trip v V) as (src & S & D).
    rewrite (literal_source swift_lang _ v eq_refl eq_refl (fun s => eq_refl)) in S. injection S as <-. rewrite <- concat_map_flat in D. exact D.
  - exists qs. split; [exact Q|]. intros e. destruct (H e) as (t & out & H1 & H2 & H3). exists t, out. split; [exact H1|]. split; [exact H2|]. rewrite H3. f_equal.
    rewrite <- (map_id (map snd (trees_tokens ts))) at 2. apply map_ext. intros []; reflexivity.
Qed.
Print Assumptions C76_swift.

(** ** Examples *)

(** Token trees of tokens; [done] is what has been read of the innermost group, last
    first, [stack] are the groups around it. *)
Fixpoint grouped (done : list tree) (stack : list (cursor * delimiter * list tree)) (l : list (cursor * token)) : list tree :=
  match l with
  | [] => rev done
  | (c, k) :: l =>
      match k with
      | WName s => grouped (TIdent c s :: done) stack l
      | WNumber s => grouped (TLit c s :: done) stack l
      | WPunct ch j => grouped (TPunct c ch j :: done) stack l
      | WString v => grouped (TStr c [] v :: done) stack l
      | WChar s => grouped (TChar c s 0 :: done) stack l
      | WOpen d => grouped [] ((c, d, done) :: stack) l
      | WClose _ =>
          match stack with
          | (c', d, outer) :: stack =>
              grouped (TGroup (mk_cursor (c_start c') (c_end c)) d (rev done) :: outer) stack l
          | [] => rev done
          end
      end
  end.
Definition code : str := $"
  fn main<'a>() {
      let x: &'a str = ""one\t\""two
  three\u{e9}"";


      if x[0 .. 1 ] == 'q' &&y   !=0x1f{
          print!(""{}"",x)
      }
  }
".
Definition code_tokens : list (cursor * token) :=
  match read_at rust_grammar (mk_pos 4 20) code with Some l => l | None => [] end.
Definition code_trees : list tree := grouped [] [] code_tokens.
Lemma code_fits : starts_fit (map fst (trees_tokens code_trees)).
Proof.
  intros before c after E0 N.
  assert (L : line_starts (map fst (trees_tokens code_trees)) = [2; 6; 6; 10; 6; 2]) by (vm_compute; reflexivity). rewrite L in E0. clear L.
  destruct before as [|b1 before]; [congruence|]. injection E0 as <- E0.
  destruct before as [|b2 before]; [injection E0 as <- _; left; cbn; lia|]. injection E0 as <- E0.
  destruct before as [|b3 before]; [injection E0 as <- _; left; cbn; lia|]. injection E0 as <- E0.
  destruct before as [|b4 before]; [injection E0 as <- _; left; cbn; lia|]. injection E0 as <- E0.
  destruct before as [|b5 before]; [injection E0 as <- _; right; exists [2; 6], [10]; split; [reflexivity|repeat constructor; cbn; lia]|]. injection E0 as <- E0.
  destruct before as [|b6 before]; [injection E0 as <- _; right; exists [], [6; 6; 10; 6]; split; [reflexivity|repeat constructor; cbn; lia]|].
  injection E0 as _ E0. destruct before; discriminate.
Qed.
Example C76_hypotheses :
  read_at rust_grammar (mk_pos 4 20) code = Some (trees_tokens code_trees) /\ length (trees_tokens code_trees) = 46 /\
  forallb no_dollars code_trees = true /\ starts_fit (map fst (trees_tokens code_trees)) /\
  Forall (string_ok valid) (map snd (trees_tokens code_trees)).
Proof.
  split; [vm_compute; reflexivity|]. split; [vm_compute; reflexivity|]. split; [vm_compute; reflexivity|]. split; [exact code_fits|].
  let l := eval vm_compute in (map snd (trees_tokens code_trees)) in change (Forall (string_ok valid) l). repeat constructor.
Qed.
(** Indented by level, and with its strings on one line. *)
Definition code_out : option (str * bool) :=
  bind (parse (Source.table_rust Source.no_table) code_trees) (fun qs =>
  bind (quote qs []) (fun '(_, t) =>
    Some (outcome (format_items (ld_ops rust_lang Direct tt) (mk_config (ISpace 4) [10%N]) string_writer (items t) (formatter_new []))))).
Example C76_output : code_out = Some ($"fn main<'a>() {
    let x: &'a str = ""one\t\""two\n  three" ++ [233%N] ++ $""";

    if x[0 .. 1 ] == 'q' &&y !=0x1f{
        print!(""{}"",x)
    }
}", true).
Proof. vm_compute. reflexivity. Qed.
Example C76_output_reads : forall out, code_out = Some (out, true) ->
  read_code rust_grammar out = Some (map snd code_tokens).
Proof. intros out H. vm_compute in H. injection H as <-. vm_compute. reflexivity. Qed.
(** [a $x(b)], [x] being two words. *)
Ltac is_written := repeat first [apply written_end | apply written_white; [reflexivity|] |
  match goal with |- written ?p ?s ((_, ?w) :: ?l) =>
    let r := eval vm_compute in (skipn (length w) s) in apply (written_token p w r l); [discriminate|] end].
Definition demo_place (a b : nat) : cursor := mk_cursor (mk_pos 7 a) (mk_pos 7 b).
Definition demo_quote : list (quoted_item rust_import nat) :=
  [QText (demo_place 3 4) $"a"; QEval (demo_place 6 8) (fun e => (VStr $"one two", S e));
   QGroup (demo_place 8 11) Parenthesis [QText (demo_place 9 10) $"b"]].
Example C76_source_hypotheses :
  written (mk_pos 7 1) $"  a  $x(b)
" (combine (map fst (all_tokens demo_quote)) [$"a"; $"$x"; $"("; $"b"; $")"]) /\
  starts_fit (map fst (all_tokens demo_quote)) /\
  exists ds, all_show (ld_ops rust_lang Direct tt) (mk_config (ISpace 4) [10%N]) (map snd (all_tokens demo_quote)) 5 ds 6 /\
    Forall (inline (ld_ops rust_lang Direct tt) (mk_config (ISpace 4) [10%N])) ds /\
    map (string_of (ld_ops rust_lang Direct tt) (mk_config (ISpace 4) [10%N])) ds = [$"a"; $"one two"; $"("; $"b"; $")"].
Proof.
  split; [cbn -[advance]; is_written|]. split.
  - intros before c after E0 N. cbn in E0. destruct before as [|b before]; [congruence|]. injection E0 as _ E0. destruct before; discriminate.
  - exists [[NItem (Literal (Static $"a"))]; [NItem (Literal (Box $"one two"))]; [NItem (Literal (Static $"("))];
      [NItem (Literal (Static $"b"))]; [NItem (Literal (Static $")"))]].
    split; [|split; [repeat constructor|reflexivity]]. cbn [demo_quote all_tokens flat_map tokens_of app map snd all_show].
    repeat (eexists; split; [first [apply text_shows; discriminate|apply C69_string; [reflexivity|discriminate]]|]). reflexivity.
Qed.
(** Words. *)
Definition words_code : str := $"
a(b ) . c
   'x'".
Definition words_trees : list tree :=
  [TIdent (at_ 2 0 2 1) $"a"; TGroup (at_ 2 1 2 5) Parenthesis [TIdent (at_ 2 2 2 3) $"b"]; TPunct (at_ 2 6 2 7) 46%N false;
   TIdent (at_ 2 8 2 9) $"c"; TChar (at_ 3 3 3 6) $"'x'" 120%N].
Example C76_words_hypotheses :
  written (mk_pos 1 0) words_code (flats words_trees) /\ starts_fit (map fst (flats words_trees)) /\
  forallb no_strings words_trees = true /\ forallb no_dollars words_trees = true /\
  words words_code = [$"a(b"; $")"; $"."; $"c"; $"'x'"].
Proof.
  split; [|split; [|repeat split]].
  - cbn -[advance]. is_written.
  - intros before c after E0 N. cbn in E0. destruct before as [|b before]; [congruence|]. injection E0 as <- E0.
    destruct before; [|injection E0 as _ E0; destruct before; discriminate]. injection E0 as <- _. left. cbn. lia.
Qed.
