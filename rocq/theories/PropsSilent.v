(** * Interpolations that show nothing (C72).

    Vocabulary: [SpecSilent.v] (lines without some of their words), [SpecWords.v]
    (lines of words, what tokens show), [SpecMacro.v]. *)
From Verif Require Import Str Tokens SpecTokens TokensRun TokensFacts AlgebraFacts Values ValuesFacts Fmt SpecFmt RenderFacts OutputFacts
  SpecFile SpecHeader BlockFacts Macro SpecMacro SpecQuote MacroFacts MacroSem MacroTokens MacroRender MacroControl SpecWords WordsFacts SpecSilent SilentFacts
  LangBase LangRust SpecRust PropsLang PropsMacro PropsControl PropsHeader PropsWords.

(** ** What shows nothing *)

Lemma accepted_quote {LI E} (qs : list (quoted_item LI E)) e : accepted qs -> exists t, quote qs e = Some (snd (quote_mean qs e), t).
Proof. intros A. pose proof (C57_mean LI E qs A e new) as M. unfold quote_in in M. unfold quote. rewrite M. eauto. Qed.
Lemma mean_hides {LI E} (x : quoted_item LI E) e e' : accepted [x] -> quote_mean [x] e = ([], e') -> hides (LOther x) e e'.
Proof. intros A M. destruct (accepted_quote [x] e A) as (t & Q). rewrite M in Q. split; [eauto|rewrite M; reflexivity]. Qed.

(** An expression whose value adds nothing: [None], an empty stream, an empty
    collection. *)
Theorem C72_empty_value : forall LI E c (v : E -> value LI * E) e x e',
  v e = (x, e') -> x = VOption None \/ x = VTokens new \/ x = VVec [] ->
  hides (LOther (QEval c v)) e e'.
Proof.
  intros LI E c v e x e' V X. apply mean_hides; [discriminate|]. unfold quote_mean, block_mean, block_mean_with. cbn. rewrite V.
  destruct X as [->|[->| ->]]; reflexivity.
Qed.
Print Assumptions C72_empty_value.

(** A conditional whose condition is false, without alternative. *)
Theorem C72_false : forall LI E c (cond : E -> bool * E) (a : list (quoted_item LI E)) e e',
  accepted a -> cond e = (false, e') -> hides (LOther (QIf c cond a None)) e e'.
Proof.
  intros LI E c cond a e e' A V. apply mean_hides; [apply C57_if; auto|]. unfold quote_mean, block_mean, block_mean_with. cbn. rewrite V. reflexivity.
Qed.
Print Assumptions C72_false.

(** A loop over nothing. *)
Theorem C72_no_elements : forall LI E c (it : E -> list (E -> E) * E) join (body : list (quoted_item LI E)) e e',
  accepted [QLoop c it join body] -> it e = ([], e') -> hides (LOther (QLoop c it join body)) e e'.
Proof.
  intros LI E c it join body e e' A V. apply mean_hides; [exact A|]. unfold quote_mean, block_mean, block_mean_with. cbn. rewrite V. reflexivity.
Qed.
Print Assumptions C72_no_elements.

(** Bindings, and code that has no name for the stream. *)
Theorem C72_bindings : forall LI E c (f : E -> E) e, hides (LI:=LI) (LOther (QLet c f)) e (f e) /\ hides (LI:=LI) (LOther (QEffect c f)) e (f e).
Proof. intros LI E c f e. split; (apply mean_hides; [discriminate|reflexivity]). Qed.
Print Assumptions C72_bindings.

(** ** The layout *)

(** The quote renders what it renders without them: words that show nothing are as
    if they were not in the source, and so are lines of only such words. *)
Theorem C72_absent : forall LI E (ops : lang_ops LI) cfg (qs : list (quoted_item LI E)) row ls e ds e',
  all_tokens qs = word_tokens row ls -> lines_fit ls -> lines_may_show ops cfg ls e ds e' -> removable ds ->
  exists t, quote qs e = Some (e', t) /\
  outcome (format_items ops cfg string_writer (items t) (formatter_new [])) =
    (text (c_newline cfg) (shown_lines ops cfg [] (kept_lines 0 ds)), true).
Proof.
  intros LI E ops cfg qs row ls e ds e' A F S R. destruct (silent_render ops cfg qs row ls ds e e' A F S R) as (t & Q & O & _). exists t. auto.
Qed.
Print Assumptions C72_absent.

Lemma all_may_show_visible {LI E} (ops : lang_ops LI) cfg ws : forall e (ds : list (option (list (node LI)))) e', @all_may_show LI E ops cfg ws e ds e' ->
  Forall (fun d => forall ns, d = Some ns -> visible_ends (doc_atoms ops cfg ns)) ds.
Proof.
  induction ws as [|w ws IH]; intros e [|d ds] e' H; try contradiction; [constructor|]. destruct H as (e1 & S & H). constructor; [|eapply IH; exact H].
  intros ns ->. apply S.
Qed.
Lemma in_kept {W} (w : W) ws : forall g, In w (map snd (kept g ws)) -> In (Some w) (map snd ws).
Proof.
  induction ws as [|[g' [x|]] ws IH]; intros g H; [exact H| |].
  - cbn in *. destruct H as [->|H]; [left; reflexivity|right; eapply IH; exact H].
  - right. eapply IH. exact H.
Qed.
Lemma in_kept_lines {W} (w : W) ds : forall k, In w (flat_map words_of (kept_lines k ds)) -> In (Some w) (flat_map words_of ds).
Proof.
  induction ds as [|d ds IH]; intros k H; [exact H|]. cbn [kept_lines] in H. cbn [flat_map]. apply in_or_app.
  destruct (kept_line d) as [l|] eqn:K; [|right; eapply IH; exact H]. cbn [flat_map] in H. apply in_app_or in H as [H|H]; [left|right; eapply IH; exact H].
  unfold kept_line in K. destruct (kept 0 (line_words d)) as [|[g x] more] eqn:KE; [discriminate|]. injection K as <-.
  apply (in_kept w (line_words d) 0). rewrite KE. exact H.
Qed.
Lemma kept_docs_ok {LI} (P : list (node LI) -> Prop) (ds : list (line_of (option (list (node LI))))) k :
  Forall (fun d => forall ns, d = Some ns -> P ns) (flat_map words_of ds) -> docs_ok P (kept_lines k ds).
Proof. intros F. unfold docs_ok. rewrite Forall_forall in *. intros d H. apply in_kept_lines in H. exact (F _ H d eq_refl). Qed.

(** As blocks: the lines of what each word shows, side by side (C69). *)
Theorem C72_blocks : forall LI E (ops : lang_ops LI) cfg (qs : list (quoted_item LI E)) row ls e ds e',
  all_tokens qs = word_tokens row ls -> lines_fit ls -> lines_may_show ops cfg ls e ds e' -> removable ds ->
  Forall (fun d => forall ns, d = Some ns -> steady ops cfg ns) (flat_map words_of ds) ->
  exists t, quote qs e = Some (e', t) /\
  outcome (format_items ops cfg string_writer (items t) (formatter_new [])) =
    (join (c_newline cfg) (block_lines (c_indentation cfg) [] (map (map_line (block_of ops cfg)) (kept_lines 0 ds))), true).
Proof.
  intros LI E ops cfg qs row ls e ds e' A F S R U. destruct (silent_render ops cfg qs row ls ds e e' A F S R) as (t & Q & O & _). exists t. split; [exact Q|].
  rewrite O. f_equal. assert (ST : forall ls, join (c_newline cfg) ls = stack (c_newline cfg) ls).
  { clear. induction ls as [|x [|y ls] IH]; [reflexivity|reflexivity|]. change (x ++ c_newline cfg ++ join (c_newline cfg) (y :: ls) = x ++ c_newline cfg ++ stack (c_newline cfg) (y :: ls)).
    rewrite IH. reflexivity. }
  assert (DO : docs_ok (fun d => visible_ends (doc_atoms ops cfg d) /\ steady ops cfg d) (kept_lines 0 ds)).
  { apply kept_docs_ok. destruct S as (_ & S). apply all_may_show_visible in S. rewrite Forall_forall in *. intros d I ns EN. split; [exact (S d I ns EN)|exact (U d I ns EN)]. }
  rewrite ST. destruct (kept_lines 0 ds) as [|k ks]; [reflexivity|]. rewrite <- blocks_lines; [apply text_lines_stack|discriminate|exact DO].
Qed.
Print Assumptions C72_blocks.

(** Such a quote, if it starts and ends with something that is shown, shows that
    block when it is interpolated in another. *)
Theorem C72_nested : forall LI E (ops : lang_ops LI) cfg (qs : list (quoted_item LI E)) row ls e ds e' t d d',
  all_tokens qs = word_tokens row ls -> lines_fit ls -> lines_may_show ops cfg ls e ds e' -> removable ds ->
  Forall (fun d => forall ns, d = Some ns -> steady ops cfg ns) (flat_map words_of ds) ->
  hd None (flat_map words_of ds) = Some d -> last (flat_map words_of ds) None = Some d' ->
  quote qs e = Some (e', t) ->
  exists ns,
    (forall E' c (v : E' -> value LI * E') e1 e2, v e1 = (VTokens t, e2) -> shows ops cfg (LOther (QEval c v)) e1 ns e2) /\
    steady ops cfg ns /\
    block_of ops cfg ns = block_lines (c_indentation cfg) [] (map (map_line (block_of ops cfg)) (kept_lines 0 ds)) /\
    open_levels ops cfg ns = Z.of_nat (level (map ln_col ds)).
Proof.
  intros LI E ops cfg qs row ls e ds e' t d d' A F S R U H1 H2 Q. destruct (silent_render ops cfg qs row ls ds e e' A F S R) as (t1 & Q1 & _ & _ & D).
  rewrite Q in Q1. injection Q1 as <-. destruct (D d d' H1 H2) as (k & ks & KE & ns & N1 & N2 & N3 & N4 & N5 & N6). exists ns.
  assert (DO : docs_ok (fun d => visible_ends (doc_atoms ops cfg d) /\ steady ops cfg d) (kept_lines 0 ds)).
  { apply kept_docs_ok. destruct S as (_ & S). apply all_may_show_visible in S. rewrite Forall_forall in *. intros x I ns0 EN. split; [exact (S x I ns0 EN)|exact (U x I ns0 EN)]. }
  rewrite KE in DO |- *. destruct (nested_block ops cfg ns k ks DO N3 N6) as [B ST]. split; [|auto].
  intros E' c v e1 e2 V. destruct (C69_built LI E qs e e' t Q) as (cs & ->). exact (C69_stream LI E' ops cfg c v e1 _ e2 ns V N1 N2 N3 N4).
Qed.
Print Assumptions C72_nested.

(** In a file the lines follow the header (C48), if the quote starts with
    something that is shown. *)
Theorem C72_file : forall LI C F E (L : lang_def LI C F) cfg c (qs : list (quoted_item LI E)) row ls e ds e' t d,
  all_tokens qs = word_tokens row ls -> lines_fit ls ->
  (forall f, lines_may_show (ld_ops L c f) cfg ls e ds e') -> removable ds ->
  hd None (flat_map words_of ds) = Some d ->
  (forall f, exists y r, doc_items d = y :: r /\ begins_text (l_format_item (ld_ops L c f)) y) ->
  quote qs e = Some (e', t) -> header_then_body L cfg c t ->
  exists header f, (header <> [] -> last header [] <> []) /\
  file_renders L cfg c t
    (file_text (c_newline cfg) header (text (c_newline cfg) (shown_lines (ld_ops L c f) cfg [] (kept_lines 0 ds)))).
Proof.
  intros LI C F E L cfg c qs row ls e ds e' t d A FI S R HD B Q (header & f & LN & H). exists header, f. split; [exact LN|]. apply H.
  destruct (silent_render (ld_ops L c f) cfg qs row ls ds e e' A FI (S f) R) as (t1 & Q1 & O & CS & _). rewrite Q in Q1. injection Q1 as <-.
  split; [exact O|]. intros _. apply text_first_clean. exact (CS d HD (B f)).
Qed.
Print Assumptions C72_file.

(** ** Where the restrictions matter *)
Definition none_at (r c : nat) : quoted_item nat nat := QEval (word r c $"$x") (fun e => (VOption None, e)).
Definition shown_by (qs : list (quoted_item nat nat)) : option (str * bool) :=
  option_map (fun r => outcome (format_items (default_ops (fun _ => [])) (mk_config (ISpace 4) [10%N]) string_writer (items (snd r)) (formatter_new []))) (quote qs 0).

(** Finding: if a line starts with an interpolation that shows nothing, followed by
    blanks, then a space remains at the start of the line.
    <<
    a
    $x b
    >> *)
Theorem C72_leading_refuted : shown_by [tok 1 0 $"a"; none_at 2 0; tok 2 3 $"b"] = Some ($"a" ++ [10%N] ++ $" b", true) /\
  shown_by [tok 1 0 $"a"; tok 2 0 $"b"] = Some ($"a" ++ [10%N] ++ $"b", true).
Proof. split; vm_compute; reflexivity. Qed.
Print Assumptions C72_leading_refuted.
(** Finding: an empty line before an interpolation that shows nothing is lost if the
    next line is deeper; and the break itself, if the interpolation is deeper than
    both its neighbours (C52).
    <<
    a

    $x
        b
    >> *)
Theorem C72_level_refuted :
  shown_by [tok 1 0 $"a"; none_at 3 0; tok 4 4 $"b"] = Some ($"a" ++ [10%N] ++ $"    b", true) /\
  shown_by [tok 1 0 $"a"; tok 4 4 $"b"] = Some ($"a" ++ [10; 10]%N ++ $"    b", true) /\
  shown_by [tok 1 0 $"a"; none_at 2 4; tok 3 0 $"b"] = Some ($"ab", true).
Proof. split; [|split]; vm_compute; reflexivity. Qed.
Print Assumptions C72_level_refuted.

(** ** Examples *)

(** <<
    $(let x = 1)fn $none f($none) $none {
        $(if false => x)

        $(for _ in [] => x)
        y
    } $none
    >> *)
Definition s_let : quoted_item nat nat := QLet (at_ 1 0 1 12) S.
Definition s_none1 : quoted_item nat nat := QEval (at_ 1 15 1 20) (fun e => (VOption None, e)).
Definition s_none2 : quoted_item nat nat := QEval (at_ 1 23 1 28) (fun e => (VOption None, e)).
Definition s_none3 : quoted_item nat nat := QEval (at_ 1 30 1 35) (fun e => (VVec [], e)).
Definition s_if : quoted_item nat nat := QIf (at_ 2 4 2 20) (fun e => (e =? 0, e)) [tok 2 18 $"x"] None.
Definition s_for : quoted_item nat nat := QLoop (at_ 4 4 4 23) (fun e => ([], e)) None [tok 4 21 $"x"].
Definition s_none4 : quoted_item nat nat := QEval (at_ 6 2 6 7) (fun e => (VTokens new, e)).
Definition silent_demo : list (quoted_item nat nat) :=
  [s_let; tok 1 12 $"fn"; s_none1; tok 1 21 $"f"; QGroup (at_ 1 22 1 29) Parenthesis [s_none2]; s_none3;
   QGroup (at_ 1 36 6 1) Brace [s_if; s_for; tok 5 4 $"y"]; s_none4].
Definition st_word (s : str) : src_word nat nat := mk_src_word (LText s) 0 (length s).
Definition q_word (x : quoted_item nat nat) (width : nat) : src_word nat nat := mk_src_word (LOther x) 0 width.
Definition silent_lines : list (line_of (src_word nat nat)) :=
  [mk_line_of 0 0 (q_word s_let 12)
     [(0, st_word $"fn"); (1, q_word s_none1 5); (1, st_word $"f"); (0, st_word $"("); (0, q_word s_none2 5); (0, st_word $")");
      (1, q_word s_none3 5); (1, st_word $"{")];
   mk_line_of 0 4 (q_word s_if 16) [];
   mk_line_of 1 4 (q_word s_for 19) [];
   mk_line_of 0 4 (st_word $"y") [];
   mk_line_of 0 0 (st_word $"}") [(1, q_word s_none4 5)]].
Definition st_doc (s : str) : option (list (node nat)) := Some [NItem (Literal (Static s))].
Definition silent_docs : list (line_of (option (list (node nat)))) :=
  [mk_line_of 0 0 None
     [(0, st_doc $"fn"); (1, None); (1, st_doc $"f"); (0, st_doc $"("); (0, None); (0, st_doc $")"); (1, None); (1, st_doc $"{")];
   mk_line_of 0 4 None [];
   mk_line_of 1 4 None [];
   mk_line_of 0 4 (st_doc $"y") [];
   mk_line_of 0 0 (st_doc $"}") [(1, None)]].
Example C72_hypotheses :
  all_tokens silent_demo = word_tokens 1 silent_lines /\ lines_fit silent_lines /\
  lines_may_show (default_ops (fun _ => [])) ex_cfg silent_lines 0 silent_docs 1 /\ removable silent_docs.
Proof.
  split; [vm_compute; reflexivity|]. split; [|split].
  - intros before c after E0 N. cbn in E0.
    destruct before as [|b1 before]; [congruence|]. injection E0 as <- E0.
    destruct before as [|b2 before]; [injection E0 as <- _; left; cbn; lia|]. injection E0 as <- E0.
    destruct before as [|b3 before]; [injection E0 as <- _; left; cbn; lia|]. injection E0 as <- E0.
    destruct before as [|b4 before]; [injection E0 as <- _; left; cbn; lia|]. injection E0 as <- E0.
    destruct before as [|b5 before]; [injection E0 as <- _; right; exists [], [4; 4; 4]; split; [reflexivity|repeat constructor; cbn; lia]|].
    injection E0 as _ E0. destruct before; discriminate.
  - split; [reflexivity|]. cbn [silent_lines flat_map words_of map ln_word ln_more snd app sw_leaf st_word q_word silent_docs all_may_show st_doc].
    repeat (eexists; split; [first [split; [shown|vm_compute; reflexivity]|split; [eexists; vm_compute; reflexivity|vm_compute; reflexivity]]|]); reflexivity.
  - split; [|split].
    + intros before l l' after E0 K.
      destruct before as [|b1 before]; [injection E0 as <- _; discriminate|]. injection E0 as <- E0.
      destruct before as [|b2 before]; [injection E0 as <- <- _; reflexivity|]. injection E0 as <- E0.
      destruct before as [|b3 before]; [injection E0 as <- <- _; reflexivity|]. injection E0 as <- E0.
      destruct before as [|b4 before]; [injection E0 as <- <- _; discriminate|]. injection E0 as <- E0.
      destruct before as [|b5 before]; [discriminate|]. destruct before; discriminate.
    + repeat constructor.
    + intros K. discriminate.
Qed.
Example C72_output : 
  block_lines (c_indentation ex_cfg) [] (map (map_line (block_of (default_ops (fun _ : nat => [])) ex_cfg)) (kept_lines 0 silent_docs)) =
  [$"fn f() {"; []; $"    y"; $"}"].
Proof. vm_compute. reflexivity. Qed.
