(** * The layout of quotes with interpolated values (C69).

    Vocabulary: [SpecWords.v] (lines of words, what tokens show, blocks),
    [SpecMacro.v] (tokens of a quote, levels, source text), [SpecFile.v]. *)
From Verif Require Import Str Tokens SpecTokens TokensRun TokensFacts AlgebraFacts Values ValuesFacts Fmt SpecFmt RenderFacts OutputFacts
  SpecFile SpecHeader BlockFacts Macro SpecMacro MacroFacts MacroSem MacroTokens MacroRender SpecWords WordsFacts
  LangBase LangRust SpecRust PropsLang PropsMacro PropsHeader.

(** ** What values show *)

Lemma eval_shows {LI E} (ops : lang_ops LI) cfg c (v : E -> value LI * E) e w e' ns y its :
  v e = (w, e') -> parts w = y :: its -> is_white y = false ->
  items (from_iter (parts w)) = doc_items ns ++ closing (open_levels ops cfg ns) ->
  doc_ok ns = true -> visible_ends (doc_atoms ops cfg ns) -> (0 <= open_levels ops cfg ns)%Z ->
  shows ops cfg (LOther (QEval c v)) e ns e'.
Proof.
  intros V P N I D VE NT. split; [|auto]. assert (M : quote_mean [QEval c v] e = (parts w, e')).
  { unfold quote_mean, block_mean, block_mean_with. cbn. rewrite V. cbn. rewrite !app_nil_r. reflexivity. }
  split; [|exists y, its; rewrite M; auto]. exists (from_iter (parts w)). split; [|exact I].
  destruct (quote_code [QEval c v]) as [[r code]|] eqn:Q; [|discriminate Q]. unfold quote. rewrite Q. cbn [option_map snd].
  rewrite (quote_supplies _ _ _ Q). rewrite M. reflexivity.
Qed.

(** A nonempty string shows itself. *)
Theorem C69_string : forall LI E (ops : lang_ops LI) cfg c (v : E -> value LI * E) e s e',
  v e = (VStr s, e') -> s <> [] ->
  shows ops cfg (LOther (QEval c v)) e [NItem (Literal (Box s))] e'.
Proof.
  intros LI E ops cfg c v e s e' V N. eapply eval_shows; try exact V; try reflexivity. cbn.
  split; [exists (AText s), []|exists [], (AText s)]; (split; [reflexivity|]); destruct s; [congruence|reflexivity|congruence|reflexivity].
Qed.
Print Assumptions C69_string.

(** A reference to a language item shows what the language writes for it. *)
Theorem C69_reference : forall LI E (ops : lang_ops LI) cfg c (v : E -> value LI * E) e l e',
  v e = (VLang l, e') -> visible_ends (texts (l_format_item ops l)) ->
  shows ops cfg (LOther (QEval c v)) e [NItem (Lang 0 l)] e'.
Proof.
  intros LI E ops cfg c v e l e' V N.
  assert (N0 : open_levels ops cfg [NItem (Lang 0 l)] = 0%Z).
  { unfold open_levels, doc_atoms. cbn [flat_map node_atoms atoms_of]. rewrite app_nil_r. clear.
    induction (l_format_item ops l) as [|s ss IH]; [reflexivity|]. cbn [map net a_indent]. rewrite IH. reflexivity. }
  eapply eval_shows; try exact V; try reflexivity.
  - rewrite N0. reflexivity.
  - unfold doc_atoms. cbn [flat_map node_atoms atoms_of]. rewrite app_nil_r. exact N.
  - rewrite N0. lia.
Qed.
Print Assumptions C69_reference.

(** A stream that was built, e.g. by another quote, shows itself; the levels it
    leaves open are closed after it. *)
Theorem C69_stream : forall LI E (ops : lang_ops LI) cfg c (v : E -> value LI * E) e cs e' ns,
  v e = (VTokens (build cs), e') -> items (build cs) = doc_items ns ++ closing (open_levels ops cfg ns) -> doc_ok ns = true ->
  visible_ends (doc_atoms ops cfg ns) -> (0 <= open_levels ops cfg ns)%Z ->
  shows ops cfg (LOther (QEval c v)) e ns e'.
Proof.
  intros LI E ops cfg c v e cs e' ns V I D VE NT. destruct (first_item ops cfg ns _ D eq_refl VE) as (y & r & H & N).
  eapply (eval_shows ops cfg c v e _ e' ns y (r ++ closing (open_levels ops cfg ns)) V); auto; cbn [parts]; [rewrite I, H; reflexivity|].
  rewrite (rebuild_tokens (build cs)) by (apply build_wf || apply build_canon). exact I.
Qed.
Print Assumptions C69_stream.

(** ** The layout *)

(** A quote whose tokens are words laid out in lines renders those lines, indented
    by level, each interpolation replaced by what it shows at that level. *)
Theorem C69_values : forall LI E (ops : lang_ops LI) cfg (qs : list (quoted_item LI E)) row ls e ds e',
  all_tokens qs = word_tokens row ls -> lines_fit ls -> lines_show ops cfg ls e ds e' ->
  exists t, quote qs e = Some (e', t) /\
  outcome (format_items ops cfg string_writer (items t) (formatter_new [])) =
    (text (c_newline cfg) (shown_lines ops cfg [] ds), true).
Proof.
  intros LI E ops cfg qs row ls e ds e' A F S. destruct (words_render ops cfg qs row ls ds e e' A F S) as (t & Q & O & _). exists t. auto.
Qed.
Print Assumptions C69_values.

(** If what they show is on one line each, the output is that of the source (C54)
    with the interpolations replaced by their strings. *)
Theorem C69_inline : forall LI E (ops : lang_ops LI) cfg (qs : list (quoted_item LI E)) row ls e ds e',
  all_tokens qs = word_tokens row ls -> lines_fit ls -> lines_show ops cfg ls e ds e' ->
  Forall (inline ops cfg) (flat_map words_of ds) ->
  exists t, quote qs e = Some (e', t) /\
  outcome (format_items ops cfg string_writer (items t) (formatter_new [])) =
    (join (c_newline cfg) (output_lines (c_indentation cfg) [] (map (as_source ops cfg) ds)), true).
Proof.
  intros LI E ops cfg qs row ls e ds e' A F S I. destruct (words_render ops cfg qs row ls ds e e' A F S) as (t & Q & O & _). exists t. split; [exact Q|].
  rewrite O. rewrite <- inline_lines; [reflexivity|]. destruct S as (_ & S & _). apply all_show_visible in S. unfold docs_ok. rewrite Forall_forall in *. auto.
Qed.
Print Assumptions C69_inline.

(** In general it consists of blocks: the lines of what each word shows, side by
    side, indented by the level of the line. *)
Theorem C69_blocks : forall LI E (ops : lang_ops LI) cfg (qs : list (quoted_item LI E)) row ls e ds e',
  all_tokens qs = word_tokens row ls -> lines_fit ls -> lines_show ops cfg ls e ds e' ->
  Forall (steady ops cfg) (flat_map words_of ds) ->
  exists t, quote qs e = Some (e', t) /\
  outcome (format_items ops cfg string_writer (items t) (formatter_new [])) =
    (join (c_newline cfg) (block_lines (c_indentation cfg) [] (map (map_line (block_of ops cfg)) ds)), true).
Proof.
  intros LI E ops cfg qs row ls e ds e' A F S U. destruct (words_render ops cfg qs row ls ds e e' A F S) as (t & Q & O & _). exists t. split; [exact Q|].
  rewrite O. f_equal. assert (ST : forall ls, join (c_newline cfg) ls = stack (c_newline cfg) ls).
  { clear. induction ls as [|x [|y ls] IH]; [reflexivity|reflexivity|]. change (x ++ c_newline cfg ++ join (c_newline cfg) (y :: ls) = x ++ c_newline cfg ++ stack (c_newline cfg) (y :: ls)).
    rewrite IH. reflexivity. }
  rewrite ST. destruct ds as [|d ds]; [reflexivity|]. rewrite <- blocks_lines; [apply text_lines_stack|discriminate|].
  destruct S as (_ & S & _). apply all_show_visible in S. unfold docs_ok. rewrite Forall_forall in *. auto.
Qed.
Print Assumptions C69_blocks.

(** That is how documents are shown that never go left of where they start. *)
Theorem C69_steady : forall LI (ops : lang_ops LI) cfg ns,
  visible_ends (doc_atoms ops cfg ns) -> upright ops cfg ns -> steady ops cfg ns.
Proof. intros LI ops cfg ns. apply upright_steady. Qed.
Print Assumptions C69_steady.

(** ** Quotes in quotes *)

(** What such a quote makes is, interpolated in another quote, shown as the block of
    its lines; and so on, to any depth.  It leaves open the level of its last line. *)
Theorem C69_nested : forall LI E (ops : lang_ops LI) cfg (qs : list (quoted_item LI E)) row ls e ds e' t,
  all_tokens qs = word_tokens row ls -> lines_fit ls -> lines_show ops cfg ls e ds e' ->
  Forall (steady ops cfg) (flat_map words_of ds) -> ds <> [] ->
  quote qs e = Some (e', t) ->
  exists ns,
    (forall E' c (v : E' -> value LI * E') e1 e2, v e1 = (VTokens t, e2) -> shows ops cfg (LOther (QEval c v)) e1 ns e2) /\
    steady ops cfg ns /\
    block_of ops cfg ns = block_lines (c_indentation cfg) [] (map (map_line (block_of ops cfg)) ds) /\
    open_levels ops cfg ns = (Z.of_nat (level (map ln_col ds)) + open_levels ops cfg (last (flat_map words_of ds) []))%Z.
Proof.
  intros LI E ops cfg qs row ls e ds e' t A F S U N Q. destruct (words_render ops cfg qs row ls ds e e' A F S) as (t1 & Q1 & _ & _ & D). rewrite Q in Q1. injection Q1 as <-.
  destruct ds as [|d ds]; [congruence|]. destruct D as (ns & N1 & N2 & N3 & N4 & N5 & N6). exists ns.
  assert (DO : docs_ok (fun d => visible_ends (doc_atoms ops cfg d) /\ steady ops cfg d) (d :: ds)).
  { destruct S as (_ & S & _). apply all_show_visible in S. unfold docs_ok. rewrite Forall_forall in *. auto. }
  destruct (nested_block ops cfg ns d ds DO N3 N6) as [B ST]. split; [|auto].
  intros E' c v e1 e2 V. unfold quote in Q. destruct (quote_code qs) as [[r code]|] eqn:QC; [|discriminate].
  assert (T : t = build [CExtend (fst (quote_mean qs e))]).
  { cbn [option_map snd] in Q. rewrite (quote_supplies qs r code QC e) in Q. injection Q as _ <-. reflexivity. }
  rewrite T in V, N1. exact (C69_stream LI E' ops cfg c v e1 _ e2 ns V N1 N2 N3 N4).
Qed.
Print Assumptions C69_nested.

(** The lines of a document by itself are those of its rendering. *)
Theorem C69_alone : forall LI (ops : lang_ops LI) cfg ns, doc_ok ns = true ->
  outcome (format_items ops cfg string_writer (doc_items ns) (formatter_new [])) = (string_of ops cfg ns, true) /\
  string_of ops cfg ns = stack (c_newline cfg) (block_of ops cfg ns).
Proof. intros LI ops cfg ns D. split; [apply doc_string; exact D|apply text_lines_stack]. Qed.
Print Assumptions C69_alone.

(** What a quote makes is made by calls of the API. *)
Theorem C69_built : forall LI E (qs : list (quoted_item LI E)) e e' t,
  quote qs e = Some (e', t) -> exists cs, t = build cs.
Proof.
  intros LI E qs e e' t Q. unfold quote in Q. destruct (quote_code qs) as [[r code]|] eqn:QC; [|discriminate].
  exists [CExtend (fst (quote_mean qs e))]. cbn [option_map snd] in Q. rewrite (quote_supplies qs r code QC e) in Q. injection Q as _ <-. reflexivity.
Qed.
Print Assumptions C69_built.

(** In a file the lines follow the header (C48), written as the language writes
    items in that file. *)
Theorem C69_file : forall LI C F E (L : lang_def LI C F) cfg c (qs : list (quoted_item LI E)) row ls e d ds e' t,
  all_tokens qs = word_tokens row ls -> lines_fit ls ->
  (forall f, lines_show (ld_ops L c f) cfg ls e (d :: ds) e') ->
  (forall f, exists y r, doc_items (ln_word d) = y :: r /\ begins_text (l_format_item (ld_ops L c f)) y) ->
  quote qs e = Some (e', t) -> header_then_body L cfg c t ->
  exists header f, (header <> [] -> last header [] <> []) /\
  file_renders L cfg c t
    (file_text (c_newline cfg) header (text (c_newline cfg) (shown_lines (ld_ops L c f) cfg [] (d :: ds)))).
Proof.
  intros LI C F E L cfg c qs row ls e d ds e' t A FI S B Q (header & f & LN & H). exists header, f. split; [exact LN|]. apply H.
  destruct (words_render (ld_ops L c f) cfg qs row ls (d :: ds) e e' A FI (S f)) as (t1 & Q1 & O & CS & _). rewrite Q in Q1. injection Q1 as <-.
  split; [exact O|]. intros _. apply text_first_clean. apply CS. exact (B f).
Qed.
Print Assumptions C69_file.

(** ** Examples *)

(** <<
    fn $name() -> $map {      ($map a Rust item, spanning four columns)
        $body                 (two lines: a, and b one level deeper)

        $(for _ in 0..2 {
            x
          });

    }
    >> *)
Definition at_ (r c r' c' : nat) : cursor := mk_cursor (mk_pos r c) (mk_pos r' c').
Definition map_item : rust_import := rust_new (Static $"std::collections") (Static $"HashMap").
Definition demo_body : list (call rust_import) :=
  [CItem (Literal (Box $"a")); CIndent; CItem (Literal (Box $"b")); CUnindent].
Definition e_name : quoted_item rust_import nat := QEval (at_ 1 3 1 8) (fun e => (VStr $"main", S e)).
Definition e_map : quoted_item rust_import nat := QEval (at_ 1 14 1 18) (fun e => (VLang map_item, e)).
Definition e_body : quoted_item rust_import nat := QEval (at_ 2 4 2 9) (fun e => (VTokens (build demo_body), e)).
Definition e_loop : quoted_item rust_import nat := QLoop (at_ 4 4 6 6) (fun e => ([S; S], e)) None [tok 5 8 $"x"].
Definition demo_words : list (quoted_item rust_import nat) :=
  [tok 1 0 $"fn"; e_name; QGroup (at_ 1 8 1 10) Parenthesis []; tok 1 11 $"->"; e_map;
   QGroup (at_ 1 19 8 1) Brace [e_body; e_loop; tok 6 6 $";"]].
Definition static_word (s : str) : src_word rust_import nat := mk_src_word (LText s) 0 (length s).
Definition value_word (x : quoted_item rust_import nat) (rows width : nat) := mk_src_word (LOther x) rows width.
Definition demo_lines : list (line_of (src_word rust_import nat)) :=
  [mk_line_of 0 0 (static_word $"fn")
     [(1, value_word e_name 0 5); (0, static_word $"("); (0, static_word $")"); (1, static_word $"->");
      (1, value_word e_map 0 4); (1, static_word $"{")];
   mk_line_of 0 4 (value_word e_body 0 5) [];
   mk_line_of 1 4 (value_word e_loop 2 6) [(0, static_word $";")];
   mk_line_of 1 0 (static_word $"}") []].
Definition static_doc (s : str) : list (node rust_import) := [NItem (Literal (Static s))].
Definition demo_docs : list (line_of (list (node rust_import))) :=
  [mk_line_of 0 0 (static_doc $"fn")
     [(1, [NItem (Literal (Box $"main"))]); (0, static_doc $"("); (0, static_doc $")"); (1, static_doc $"->");
      (1, [NItem (Lang 0 map_item)]); (1, static_doc $"{")];
   mk_line_of 0 4 (map NItem [Literal (Box $"a"); Indentation 1; Literal (Box $"b")]) [];
   mk_line_of 1 4 (static_doc $"x" ++ static_doc $"x") [(0, static_doc $";")];
   mk_line_of 1 0 (static_doc $"}") []].
Ltac ends := split; [eexists _, _; split; [reflexivity|reflexivity]|eexists _, _; split;
  [match goal with |- ?l = _ => let v := eval vm_compute in l in let r := eval vm_compute in (removelast v) in
     let z := eval vm_compute in (last v ASpace) in exact (eq_refl : v = r ++ [z]) end|reflexivity]].
Ltac shown := split; [first [split; reflexivity|split; [eexists; split; vm_compute; reflexivity|eexists _, _; split; vm_compute; reflexivity]]|
  split; [reflexivity|split; [ends|vm_compute; discriminate]]].
Example C69_hypotheses : forall f,
  all_tokens demo_words = word_tokens 1 demo_lines /\ lines_fit demo_lines /\
  lines_show (ld_ops rust_lang Direct f) ex_cfg demo_lines 0 demo_docs 3 /\
  Forall (steady (ld_ops rust_lang Direct f) ex_cfg) (flat_map words_of demo_docs).
Proof.
  intros f. split; [vm_compute; reflexivity|]. split; [|split].
  - intros before c after E0 N. cbn in E0.
    destruct before as [|b1 before]; [congruence|]. injection E0 as <- E0.
    destruct before as [|b2 before]; [injection E0 as <- _; left; cbn; lia|]. injection E0 as <- E0.
    destruct before as [|b3 before]; [injection E0 as <- _; left; cbn; lia|]. injection E0 as <- E0.
    destruct before as [|b4 before]; [injection E0 as <- _; right; exists [], [4; 4]; split; [reflexivity|repeat constructor; cbn; lia]|].
    injection E0 as _ E0. destruct before; discriminate.
  - split; [reflexivity|]. cbn [demo_lines flat_map words_of map ln_word ln_more snd app sw_leaf static_word value_word demo_docs all_show].
    split; [repeat (eexists; split; [shown|]); reflexivity|]. repeat split; try (vm_compute; repeat constructor; fail); intros X; vm_compute in X; discriminate.
  - cbn [demo_docs flat_map words_of map ln_word ln_more snd app].
    repeat constructor; (apply C69_steady; [ends|]); intros p q H; vm_compute in H;
    repeat (destruct p as [|? p]; [cbn; lia|injection H as <- H]); destruct p; discriminate.
Qed.
Example C69_output : 
  block_lines (c_indentation ex_cfg) [] (map (map_line (block_of (ld_ops rust_lang Direct tt) ex_cfg)) demo_docs) =
  [$"fn main() -> HashMap {"; $"    a"; $"        b"; []; $"    xx;"; []; $"}"].
Proof. vm_compute. reflexivity. Qed.
(** The file of that quote. *)
Example C69_file_output : exists t, quote demo_words 0 = Some (3, t) /\
  header_then_body rust_lang ex_cfg Direct t /\
  file_renders rust_lang ex_cfg Direct t
    (file_text [10%N] [$"use std::collections::HashMap;"]
      (stack [10%N] [$"fn main() -> HashMap {"; $"    a"; $"        b"; []; $"    xx;"; []; $"}"])).
Proof.
  exists (build [CExtend (fst (quote_mean demo_words 0))]). split; [vm_compute; reflexivity|]. split; [|vm_compute; reflexivity].
  apply C48_rust. vm_compute. repeat constructor; discriminate.
Qed.
