(** * What control flow in quotes shows (C74).

    Vocabulary: [SpecRounds.v] (what quotes show, rounds, blocks put together),
    [SpecWords.v] (lines of words, what tokens show, blocks). *)
From Verif Require Import Str Tokens SpecTokens TokensRun TokensFacts Values ValuesFacts Fmt SpecFmt SpecFile RenderFacts OutputFacts HeaderFacts
  Macro SpecMacro SpecQuote MacroFacts MacroSem MacroTokens MacroRender SpecWords WordsFacts SpecRounds RoundsFacts
  LangBase LangRust PropsLang PropsMacro PropsControl PropsWords.

(** ** Bodies *)

(** A quote of words in lines shows a document, the block of its lines (as C69). *)
Theorem C74_body : forall LI E (ops : lang_ops LI) cfg (qs : list (quoted_item LI E)) row ls e ds e',
  all_tokens qs = word_tokens row ls -> lines_fit ls -> lines_show ops cfg ls e ds e' ->
  Forall (steady ops cfg) (flat_map words_of ds) -> ds <> [] ->
  exists ns, quote_shows ops cfg qs e ns e' /\ steady ops cfg ns /\
    block_of ops cfg ns = block_lines (c_indentation cfg) [] (map (map_line (block_of ops cfg)) ds) /\
    open_levels ops cfg ns = (Z.of_nat (level (map ln_col ds)) + open_levels ops cfg (last (flat_map words_of ds) []))%Z.
Proof.
  intros LI E ops cfg qs row ls e ds e' A F S U N. destruct (words_render ops cfg qs row ls ds e e' A F S) as (t1 & Q1 & _ & _ & D).
  destruct ds as [|d ds]; [congruence|]. destruct D as (ns & N1 & N2 & N3 & N4 & N5 & N6). exists ns.
  assert (DO : docs_ok (fun d => visible_ends (doc_atoms ops cfg d) /\ steady ops cfg d) (d :: ds)).
  { destruct S as (_ & S & _). apply all_show_visible in S. unfold docs_ok. rewrite Forall_forall in *. auto. }
  destruct (nested_block ops cfg ns d ds DO N3 N6) as [B ST]. split; [|auto]. split; [|auto]. split; [exists t1; auto|].
  destruct S as (H & S & _). destruct ls as [|l ls]; [discriminate H|]. cbn [flat_map words_of map app all_show] in S. destruct S as (e1 & S & _).
  eapply words_mean; [rewrite A; reflexivity|exact S].
Qed.
Print Assumptions C74_body.

(** ** Choices *)
Lemma shows_as {LI E} (ops : lang_ops LI) cfg (x : quoted_item LI E) (qs : list (quoted_item LI E)) e e1 ns e' : accepted [x] ->
  quote_mean [x] e = quote_mean qs e1 -> quote_shows ops cfg qs e1 ns e' -> shows ops cfg (LOther x) e ns e'.
Proof.
  intros A M (((t & Q & IT) & (y & its & M1 & W)) & R). split; [|exact R]. split; [|rewrite M; eauto].
  exists t. split; [|exact IT]. destruct (quote_runs qs e1 e' t Q) as (its' & M' & -> & _). unfold accepted in A.
  destruct (quote_code [x]) as [[r code]|] eqn:QC; [|congruence]. unfold quote. rewrite QC. cbn [option_map snd].
  rewrite (quote_supplies _ _ _ QC e new), M, M'. reflexivity.
Qed.
Lemma mean_alone {LI E} (x : quoted_item LI E) e its e' : 
  (exists p, mean x (mk_mstate None [] e) = mk_mstate p [KItems its] e' /\ depth p = 0) -> quote_mean [x] e = (its, e').
Proof.
  intros (p & H & D). unfold quote_mean, block_mean, block_mean_with. cbn [fold_left start_of]. rewrite H. cbn [m_chunks m_place m_env join_texts app]. rewrite D. cbn. rewrite !app_nil_r. reflexivity.
Qed.
(** A condition shows what the branch that is taken shows, *)
Theorem C74_if : forall LI E (ops : lang_ops LI) cfg c cond (a : list (quoted_item LI E)) b e yes e1 ns e',
  accepted [QIf c cond a b] -> cond e = (yes, e1) ->
  quote_shows ops cfg (if yes then a else match b with Some b => b | None => [] end) e1 ns e' ->
  shows ops cfg (LOther (QIf c cond a b)) e ns e'.
Proof.
  intros LI E ops cfg c cond a b e yes e1 ns e' A C S. eapply shows_as; [exact A| |exact S].
  set (qs := if yes then a else match b with Some b => b | None => [] end). rewrite (surjective_pairing (quote_mean qs e1)). apply mean_alone.
  exists (m_place (@enter_chunks LI E c (mk_mstate None [] e))). split; [|reflexivity]. cbn [mean enter_chunks enter m_place m_env m_chunks app]. rewrite C. unfold qs.
  destruct yes; [reflexivity|]. destruct b; reflexivity.
Qed.
Print Assumptions C74_if.
(** a match what the arm shows that is chosen. *)
Theorem C74_match : forall LI E (ops : lang_ops LI) cfg c sel (arms : list (option cursor * list (quoted_item LI E))) e i e1 paren qs ns e',
  accepted [QMatch c sel arms] -> sel e = (i, e1) -> nth_error arms i = Some (paren, qs) ->
  quote_shows ops cfg (in_parens paren qs) e1 ns e' ->
  shows ops cfg (LOther (QMatch c sel arms)) e ns e'.
Proof.
  intros LI E ops cfg c sel arms e i e1 paren qs ns e' A C NT S. eapply shows_as; [exact A| |exact S].
  rewrite parens_mean, (surjective_pairing (block_mean_with mean paren qs e1)). apply mean_alone.
  exists (m_place (@enter_chunks LI E c (mk_mstate None [] e))). split; [|reflexivity]. cbn [mean enter_chunks enter m_place m_env m_chunks app]. rewrite C.
  unfold put_items. cbn [m_place m_chunks app]. clear -NT. f_equal; [do 3 f_equal|].
  - revert i NT. induction arms as [|[p q] arms IH]; intros [|i] NT; try discriminate; cbn in *; [injection NT as -> ->; reflexivity|apply IH, NT].
  - revert i NT. induction arms as [|[p q] arms IH]; intros [|i] NT; try discriminate; cbn in *; [injection NT as -> ->; reflexivity|apply IH, NT].
Qed.
Print Assumptions C74_match.

(** ** Loops *)

Lemma loop_documents : forall LI E (ops : lang_ops LI) cfg c it join (body : list (quoted_item LI E)) e bs e1 ds e',
  accepted [QLoop c it join body] -> it e = (bs, e1) -> rounds_show ops cfg join body bs e1 ds e' ->
  exists ns, shows ops cfg (LOther (QLoop c it join body)) e ns e' /\
    doc_atoms ops cfg ns = doc_atoms ops cfg (concat ds) /\ open_levels ops cfg ns = open_levels ops cfg (last ds []) /\
    map (@HistoryFacts.erase LI) (doc_items ns) = map (@HistoryFacts.erase LI) (doc_items (concat ds)).
Proof.
  intros LI E ops cfg c it join body e bs e1 ds e' A IT0 S.
  destruct (rounds_docs ops cfg join body bs e1 ds e' S) as (D1 & D2 & D3 & D4).
  destruct (rounds_run ops cfg join body bs e1 ds e' S new (conj eq_refl I)) as (t & R & W & B).
  assert (Q : quote [QLoop c it join body] e = Some (e', t)).
  { assert (RR : runs [QLoop c it join body] (e, new) = (e', t)).
    { rewrite <- R. unfold round_fs. destruct join as [[paren js]|]; [apply C56_join|apply C56_loop]; auto. }
    unfold runs in RR. cbn [fst snd] in RR. unfold accepted in A. destruct (quote_code [QLoop c it join body]) as [[r code]|] eqn:QC; [|congruence].
    unfold quote_in in RR. rewrite QC in RR. unfold quote. rewrite QC. cbn in *. congruence. }
  cbn [new ritems map] in B. rewrite app_nil_r in B. apply (f_equal (@rev _)) in B. rewrite rev_involutive, <- map_rev in B. fold (items t) in B. rewrite map_app in B.
  apply bare_split in B as (u & v & IT & BU & BV).
  assert (FC : flat_map doc_items ds = doc_items (concat ds)).
  { clear. induction ds as [|d ds IH]; [reflexivity|]. cbn [flat_map concat]. rewrite IH. unfold doc_items. rewrite flat_map_app. reflexivity. }
  rewrite FC in BU. destruct (proj1 (relink ops cfg (length u)) (concat ds) u (le_n _) BU) as (ns & -> & N1 & N2).
  assert (OL : open_levels ops cfg ns = open_levels ops cfg (concat ds)) by (unfold open_levels; rewrite N2; reflexivity).
  exists ns. split; [|split; [exact N2|split; [unfold last_doc in D4; congruence|exact BU]]].
  split; [split|].
  - exists t. split; [exact Q|]. rewrite IT. f_equal. rewrite OL, D4.
    unfold closing in *. destruct (Z.eqb _ 0); [destruct v; [reflexivity|discriminate BV]|].
    destruct v as [|y [|? ?]]; try discriminate BV. cbn in BV. injection BV as BV. destruct y; try discriminate BV. cbn in BV. congruence.
  - assert (M : exists rest, fst (quote_mean [QLoop c it join body] e) = fst (quote_mean body (hd (fun x => x) bs e1)) ++ rest /\ bs <> []).
    { destruct bs as [|b bs]; [destruct S|]. cbn [hd].
      unfold quote_mean, block_mean. unfold block_mean_with at 1. cbn [fold_left start_of mean enter_chunks enter m_place m_env m_chunks adjacent app put_items]. rewrite IT0.
      cbn [loop_mean put_items m_chunks m_place m_env fst app join_texts]. destruct (block_mean_with mean None body (b e1)) as [its e2]. cbn [fst].
      destruct (match bs with [] => ([], e2) | _ :: _ => _ end) as [sep e3]. destruct (loop_mean _ _ bs e3) as [rest e4]. cbn [fst literal app]. rewrite <- !app_assoc. eexists. split; [reflexivity|discriminate]. }
    destruct M as (rest & -> & _).
    assert (H : exists d e2, quote_shows ops cfg body (hd (fun x => x) bs e1) d e2).
    { destruct bs as [|b bs]; [destruct S|]. destruct ds as [|d ds]; [destruct bs; destruct S|]. cbn [hd].
      destruct bs as [|b2 bs]; [|destruct ds as [|s ds]; [destruct S|destruct S as (? & ? & H & _); eauto]].
      destruct ds as [|s ds]; [exists d, e'; exact S|destruct S as (? & ? & H & _); eauto]. }
    destruct H as (d & e2 & (_ & (y & its & -> & Y)) & _). eexists _, _. split; [reflexivity|exact Y].
  - rewrite N1, N2, OL. auto.
Qed.
(** A loop shows what its rounds show and what is between them, one after the other. *)
Theorem C74_loop : forall LI E (ops : lang_ops LI) cfg c it join (body : list (quoted_item LI E)) e bs e1 ds e',
  accepted [QLoop c it join body] -> it e = (bs, e1) -> rounds_show ops cfg join body bs e1 ds e' ->
  exists ns, shows ops cfg (LOther (QLoop c it join body)) e ns e' /\
    doc_atoms ops cfg ns = doc_atoms ops cfg (concat ds) /\ open_levels ops cfg ns = open_levels ops cfg (last ds []).
Proof.
  intros LI E ops cfg c it join body e bs e1 ds e' A IT0 S.
  destruct (loop_documents LI E ops cfg c it join body e bs e1 ds e' A IT0 S) as (ns & H1 & H2 & H3 & _). exists ns. auto.
Qed.
Print Assumptions C74_loop.

(** ** Blocks of loops *)

(** Nothing between the rounds: blocks in sequence. *)
Theorem C74_plain : forall LI E (ops : lang_ops LI) cfg c it (body : list (quoted_item LI E)) e bs e1 d ds e',
  accepted [QLoop c it None body] -> it e = (bs, e1) -> bodies_show ops cfg body bs e1 (d :: ds) e' -> Forall (steady ops cfg) (d :: ds) ->
  exists ns, shows ops cfg (LOther (QLoop c it None body)) e ns e' /\ steady ops cfg ns /\
    block_of ops cfg ns = put_together (block_of ops cfg d) (in_sequence ops cfg (open_levels ops cfg d) ds) /\
    open_levels ops cfg ns = open_levels ops cfg (last ds d).
Proof.
  intros LI E ops cfg c it body e bs e1 d ds e' A IT0 S U. pose proof (bodies_length ops cfg _ _ _ _ _ S) as V.
  destruct (C74_loop _ _ ops cfg c it None body e bs e1 _ e' A IT0 (rounds_plain ops cfg body bs e1 (d :: ds) e' S ltac:(discriminate))) as (ns & N1 & N2 & N3).
  rewrite plain_atoms in N2. exists ns. split; [exact N1|].
  assert (FI : Forall (fine ops cfg) (d :: ds)) by (rewrite Forall_forall in *; intros x I; split; auto). inversion FI as [|? ? F1 F2]; subst.
  destruct (together_block ops cfg ns d _ N2 (plain_follow ops cfg ds d) F1 (plain_in ops cfg ds _ F2 _)) as [ST B].
  split; [exact ST|]. split; [rewrite B; unfold together; rewrite plain_together; reflexivity|].
  rewrite N3, last_closed. f_equal. clear. destruct ds as [|x l]; [reflexivity|]. change (last (x :: l) [] = last (x :: l) d). revert x. induction l; intros x; [reflexivity|]. apply (IHl a).
Qed.
Print Assumptions C74_plain.
(** A separator of only whitespace: the blocks as it asks. *)
Theorem C74_apart : forall LI E (ops : lang_ops LI) cfg c it paren js (body : list (quoted_item LI E)) e bs e1 d ds e' g j,
  accepted [QLoop c it (Some (paren, js)) body] -> it e = (bs, e1) -> bodies_show ops cfg body bs e1 (d :: ds) e' ->
  Forall (fun d => steady ops cfg d /\ open_levels ops cfg d = 0%Z) (d :: ds) ->
  always_shows ops cfg paren js g -> asks g 0 j ->
  exists ns, shows ops cfg (LOther (QLoop c it (Some (paren, js)) body)) e ns e' /\ steady ops cfg ns /\ open_levels ops cfg ns = 0%Z /\
    block_of ops cfg ns = put_together (block_of ops cfg d) (map (fun d => (j, block_of ops cfg d)) ds).
Proof.
  intros LI E ops cfg c it paren js body e bs e1 d ds e' g j A IT0 S U (s & t & Q1 & Q2 & Q3 & Q4) AS. pose proof (bodies_length ops cfg _ _ _ _ _ S) as V.
  assert (OL : Forall (fun d => open_levels ops cfg d = 0%Z) (d :: ds)) by (eapply Forall_impl; [|exact U]; intros x H; apply H).
  assert (OS : open_levels ops cfg s = 0%Z) by (unfold open_levels; rewrite Q4; inversion AS; subst; try reflexivity; congruence).
  destruct (C74_loop _ _ ops cfg c it _ body e bs e1 _ e' A IT0 (rounds_joined ops cfg body paren js s t Q1 Q2 Q3 OS bs e1 (d :: ds) e' S ltac:(discriminate) OL)) as (ns & N1 & N2 & N3).
  rewrite joined_atoms in N2. exists ns. split; [exact N1|].
  assert (FI : Forall (fine ops cfg) (d :: ds)) by (rewrite Forall_forall in *; intros x I; split; [auto|apply U; auto]). inversion FI as [|? ? F1 F2]; subst. inversion OL as [|? ? O1 O2]; subst.
  destruct (together_block ops cfg ns d (map (fun d => (doc_atoms ops cfg s, j, d)) ds)) as [ST B].
  - rewrite N2. f_equal. clear. induction ds as [|x ds IH]; [reflexivity|]. cbn [flat_map map]. rewrite IH. reflexivity.
  - clear -O1 O2 AS. revert d O1. induction O2 as [|x ds O2 _ IH]; intros d O1; [exact I|]. cbn [map follow]. rewrite O1. split; [exact AS|apply IH, O2].
  - exact F1.
  - clear -F2. induction F2; constructor; auto.
  - split; [exact ST|]. split.
    + rewrite N3, last_intersperse. clear -OL. induction OL as [|x l H F IH]; [reflexivity|]. destruct l; [exact H|exact IH].
    + rewrite B. unfold together. rewrite map_map. reflexivity.
Qed.
Print Assumptions C74_apart.
(** A separator that shows a document, whitespace around it or not: blocks and
    separators as it asks. *)
Theorem C74_separated : forall LI E (ops : lang_ops LI) cfg c it paren js (body : list (quoted_item LI E)) e bs e1 d ds e' g1 j1 s g2 j2,
  accepted [QLoop c it (Some (paren, js)) body] -> it e = (bs, e1) -> bodies_show ops cfg body bs e1 (d :: ds) e' ->
  Forall (fun d => steady ops cfg d /\ open_levels ops cfg d = 0%Z) (d :: ds) ->
  always_shows ops cfg paren js (g1 ++ doc_atoms ops cfg s ++ g2) -> asks g1 0 j1 -> asks g2 0 j2 ->
  visible_ends (doc_atoms ops cfg s) -> steady ops cfg s -> open_levels ops cfg s = 0%Z ->
  exists ns, shows ops cfg (LOther (QLoop c it (Some (paren, js)) body)) e ns e' /\ steady ops cfg ns /\ open_levels ops cfg ns = 0%Z /\
    block_of ops cfg ns = put_together (block_of ops cfg d) (flat_map (fun d => [(j1, block_of ops cfg s); (j2, block_of ops cfg d)]) ds).
Proof.
  intros LI E ops cfg c it paren js body e bs e1 d ds e' g1 j1 s g2 j2 A IT0 S U (s0 & t & Q1 & Q2 & Q3 & Q4) AS1 AS2 VS SS OS. pose proof (bodies_length ops cfg _ _ _ _ _ S) as V.
  assert (OL : Forall (fun d => open_levels ops cfg d = 0%Z) (d :: ds)) by (eapply Forall_impl; [|exact U]; intros x H; apply H).
  assert (NG : forall g j, asks g 0 j -> net g = 0%Z) by (intros g j H; inversion H; subst; try reflexivity; congruence).
  assert (OS0 : open_levels ops cfg s0 = 0%Z) by (unfold open_levels in *; rewrite Q4, !net_app, OS, (NG _ _ AS1), (NG _ _ AS2); reflexivity).
  destruct (C74_loop _ _ ops cfg c it _ body e bs e1 _ e' A IT0 (rounds_joined ops cfg body paren js s0 t Q1 Q2 Q3 OS0 bs e1 (d :: ds) e' S ltac:(discriminate) OL)) as (ns & N1 & N2 & N3).
  rewrite joined_atoms, Q4 in N2. exists ns. split; [exact N1|].
  assert (FI : Forall (fine ops cfg) (d :: ds)) by (rewrite Forall_forall in *; intros x I; split; [auto|apply U; auto]). inversion FI as [|? ? F1 F2]; subst. inversion OL as [|? ? O1 O2]; subst.
  destruct (together_block ops cfg ns d (flat_map (fun d => [(g1, j1, s); (g2, j2, d)]) ds)) as [ST B].
  - rewrite N2. f_equal. clear. induction ds as [|x ds IH]; [reflexivity|]. cbn [flat_map]. rewrite IH. unfold pieces_atoms. cbn [flat_map app]. rewrite <- !app_assoc. reflexivity.
  - clear -O1 O2 AS1 AS2 OS. revert d O1. induction O2 as [|x ds O2 _ IH]; intros d O1; [exact I|]. cbn [flat_map app follow]. rewrite O1, OS. split; [exact AS1|]. split; [exact AS2|apply IH, O2].
  - exact F1.
  - clear -F2 VS SS. induction F2; [constructor|]. cbn [flat_map app]. constructor; [split; auto|]. constructor; auto.
  - split; [exact ST|]. split.
    + rewrite N3, last_intersperse. clear -OL. induction OL as [|x l H F IH]; [reflexivity|]. destruct l; [exact H|exact IH].
    + rewrite B. unfold together. f_equal. clear. induction ds as [|x ds IH]; [reflexivity|]. cbn [flat_map map app]. rewrite IH. reflexivity.
Qed.
Print Assumptions C74_separated.

(** ** Separators *)
Lemma same_line {LI E} r a b (s : encoder LI E) : a <= b ->
  tokenize_whitespace (mk_pos r a) (mk_pos r b) s = Some (if a <? b then emit [SSpace] (flush s) else s).
Proof.
  intros H. unfold tokenize_whitespace. cbn [p_line p_col]. rewrite Nat.eqb_refl. cbn [andb]. destruct (Nat.eqb_spec a b) as [->|N]; [rewrite Nat.ltb_irrefl|]; reflexivity.
Qed.
Ltac quoted := unfold margin, in_parens, quote, quote_code, block_with; cbn - [tokenize_whitespace Nat.ltb length Nat.add Nat.sub];
  repeat (rewrite same_line by auto; rewrite ?Nat.ltb_irrefl; try match goal with |- context [if ?a <? ?b then emit _ _ else _] => destruct (a <? b) end;
          cbn - [tokenize_whitespace Nat.ltb length Nat.add Nat.sub]).
(** A separator [(w)], blanks around the text [w] or not, *)
Theorem C74_separator_text : forall LI E (ops : lang_ops LI) cfg r c c1 c2 w, c + 1 <= c1 -> c1 + length w <= c2 - 1 -> w <> [] ->
  always_shows ops cfg (mk_cursor (mk_pos r c) (mk_pos r c2)) [@QText LI E (mk_cursor (mk_pos r c1) (mk_pos r (c1 + length w))) w]
    (margin (c + 1) c1 ++ [AText w] ++ margin (c1 + length w) (c2 - 1)).
Proof.
  intros LI E ops cfg r c c1 c2 w H1 H2 N. destruct w as [|x w]; [congruence|]. set (w0 := x :: w) in *.
  exists (map NItem ((if c + 1 <? c1 then [Space] else []) ++ [Literal (Static w0)] ++ (if c1 + length w0 <? c2 - 1 then [Space] else []))).
  quoted.
  all: cbn - [length]; eexists; repeat split; rewrite ?app_nil_r; reflexivity.
Qed.
Print Assumptions C74_separator_text.
(** one that is a control such as [($['\r'])], *)
Theorem C74_separator_control : forall LI E (ops : lang_ops LI) cfg r c c2 k, c + 1 <= c2 - 1 ->
  always_shows ops cfg (mk_cursor (mk_pos r c) (mk_pos r c2)) [@QControl LI E (mk_cursor (mk_pos r (c + 1)) (mk_pos r (c2 - 1))) k]
    [match k with KSpace => ASpace | KPush => APush | KLine => ALine end].
Proof.
  intros LI E ops cfg r c c2 k H. exists (map NItem [match k with KSpace => Space | KPush => Push | KLine => Line end]).
  quoted. all: destruct k.
  all: cbn - [length]; eexists; repeat split; rewrite ?app_nil_r; reflexivity.
Qed.
Print Assumptions C74_separator_control.
(** and one that is text directly followed by a control, such as [(,$['\r'])]. *)
Theorem C74_separator_both : forall LI E (ops : lang_ops LI) cfg r c c1 c2 w k, c + 1 <= c1 -> c1 + length w <= c2 - 1 -> w <> [] ->
  always_shows ops cfg (mk_cursor (mk_pos r c) (mk_pos r c2))
    [@QText LI E (mk_cursor (mk_pos r c1) (mk_pos r (c1 + length w))) w; QControl (mk_cursor (mk_pos r (c1 + length w)) (mk_pos r (c2 - 1))) k]
    (margin (c + 1) c1 ++ [AText w] ++ [match k with KSpace => ASpace | KPush => APush | KLine => ALine end]).
Proof.
  intros LI E ops cfg r c c1 c2 w k H1 H2 N. destruct w as [|x w]; [congruence|]. set (w0 := x :: w) in *.
  exists (map NItem ((if c + 1 <? c1 then [Space] else []) ++ [Literal (Static w0)] ++ [match k with KSpace => Space | KPush => Push | KLine => Line end])).
  quoted. all: destruct k.
  all: cbn - [length]; eexists; repeat split; rewrite ?app_nil_r; reflexivity.
Qed.
Print Assumptions C74_separator_both.

(** ** Examples *)

(** <<
    $(for x in 0..2 join ($['\n']) {
        fn $x() {
            x;
        }
    })
    >> *)
Definition rule (x : quoted_item rust_import nat) : list (quoted_item rust_import nat) :=
  [tok 2 4 $"fn"; x; QGroup (at_ 2 9 2 11) Parenthesis []; QGroup (at_ 2 12 4 5) Brace [tok 3 8 $"x;"]].
Definition e_x : quoted_item rust_import nat := QEval (at_ 2 7 2 9) (fun e => (VInt (Z.of_nat e), e)).
Definition rule_lines : list (line_of (src_word rust_import nat)) :=
  [mk_line_of 0 4 (static_word $"fn") [(1, value_word e_x 0 2); (0, static_word $"("); (0, static_word $")"); (1, static_word $"{")];
   mk_line_of 0 8 (static_word $"x;") []; mk_line_of 0 4 (static_word $"}") []].
Definition rule_docs (n : str) : list (line_of (list (node rust_import))) :=
  [mk_line_of 0 4 (static_doc $"fn") [(1, [NItem (Literal (Box n))]); (0, static_doc $"("); (0, static_doc $")"); (1, static_doc $"{")];
   mk_line_of 0 8 (static_doc $"x;") []; mk_line_of 0 4 (static_doc $"}") []].
Definition rule_doc (n : str) : list (node rust_import) :=
  map NItem [Literal (Static $"fn"); Space; Literal (Box n); Literal (Static $"()"); Space; Literal (Static $"{");
    Indentation 1; Literal (Static $"x;"); Indentation (-1); Literal (Static $"}")].
Definition each (n : nat) : list (nat -> nat) := map (fun x _ => x) (seq 0 n).
Definition fn_loop (join : option (cursor * list (quoted_item rust_import nat))) : quoted_item rust_import nat :=
  QLoop (at_ 1 0 5 2) (fun e => (each 2, e)) join (rule e_x).
Definition rs : lang_ops rust_import := ld_ops rust_lang Direct tt.
Ltac steadied := apply C69_steady; [ends|]; intros p q H; vm_compute in H;
    repeat (destruct p as [|? p]; [cbn; lia|injection H as <- H]); destruct p; discriminate.
Ltac qshown := split; [split; [eexists; split; vm_compute; reflexivity|eexists _, _; split; vm_compute; reflexivity]|
  split; [reflexivity|split; [ends|vm_compute; discriminate]]].
Example C74_body_case :
  all_tokens (rule e_x) = word_tokens 2 rule_lines /\ lines_fit rule_lines /\
  lines_show rs ex_cfg rule_lines 1 (rule_docs $"1") 1 /\ Forall (steady rs ex_cfg) (flat_map words_of (rule_docs $"1")) /\
  block_lines (c_indentation ex_cfg) [] (map (map_line (block_of rs ex_cfg)) (rule_docs $"1")) = [$"fn 1() {"; $"    x;"; $"}"].
Proof.
  split; [vm_compute; reflexivity|]. split; [|split; [|split]].
  - intros before c after E0 N. cbn in E0.
    destruct before as [|b1 before]; [congruence|]. injection E0 as <- E0.
    destruct before as [|b2 before]; [injection E0 as <- _; left; cbn; lia|]. injection E0 as <- E0.
    destruct before as [|b3 before]; [injection E0 as <- _; right; exists [], [8]; split; [reflexivity|repeat constructor; cbn; lia]|].
    injection E0 as _ E0. destruct before; discriminate.
  - split; [reflexivity|]. cbn [rule_lines flat_map words_of map ln_word ln_more snd app sw_leaf static_word value_word rule_docs all_show].
    split; [repeat (eexists; split; [shown|]); reflexivity|]. repeat split; try (vm_compute; repeat constructor; fail); intros X; vm_compute in X; discriminate.
  - cbn [rule_docs flat_map words_of map ln_word ln_more snd app]. repeat constructor; steadied.
  - vm_compute. reflexivity.
Qed.
Example C74_rounds_case : bodies_show rs ex_cfg (rule e_x) (each 2) 9 [rule_doc $"0"; rule_doc $"1"] 1 /\
  Forall (fun d => steady rs ex_cfg d /\ open_levels rs ex_cfg d = 0%Z) [rule_doc $"0"; rule_doc $"1"].
Proof. split; [exists 0; split; [qshown|]; exists 1; split; [qshown|]; reflexivity|]. repeat constructor; steadied. Qed.
Example C74_apart_case :
  exists ns, shows rs ex_cfg (LOther (fn_loop (Some (at_ 1 21 1 29, [QControl (at_ 1 22 1 28) KLine])))) 9 ns 1 /\
  block_of rs ex_cfg ns = [$"fn 0() {"; $"    x;"; $"}"; []; $"fn 1() {"; $"    x;"; $"}"].
Proof.
  destruct C74_rounds_case as [B F].
  destruct (C74_apart _ _ rs ex_cfg (at_ 1 0 5 2) (fun e => (each 2, e)) (at_ 1 21 1 29) [QControl (at_ 1 22 1 28) KLine] (rule e_x) 9 (each 2) 9 _ _ 1 [ALine] Apart
    ltac:(vm_compute; discriminate) eq_refl B F (C74_separator_control _ _ _ _ 1 21 29 KLine ltac:(lia)) asks_line) as (ns & N1 & _ & _ & N2).
  exists ns. split; [exact N1|]. rewrite N2. vm_compute. reflexivity.
Qed.
(** [$(for x in 0..2 join (, ) { .. })] *)
Example C74_separated_case :
  exists ns, shows rs ex_cfg (LOther (fn_loop (Some (at_ 1 21 1 25, [tok 1 22 $","])))) 9 ns 1 /\
  block_of rs ex_cfg ns = [$"fn 0() {"; $"    x;"; $"}, fn 1() {"; $"    x;"; $"}"].
Proof.
  destruct C74_rounds_case as [B F].
  destruct (C74_separated _ _ rs ex_cfg (at_ 1 0 5 2) (fun e => (each 2, e)) (at_ 1 21 1 25) [tok 1 22 $","] (rule e_x) 9 (each 2) 9 _ _ 1 [] (Beside 0) (static_doc $",") [ASpace] (Beside 1)
    ltac:(vm_compute; discriminate) eq_refl B F (C74_separator_text _ _ _ _ 1 21 22 25 $"," ltac:(lia) ltac:(cbn; lia) ltac:(discriminate)) asks_beside asks_space
    ltac:(ends) ltac:(steadied) eq_refl) as (ns & N1 & _ & _ & N2).
  exists ns. split; [exact N1|]. rewrite N2. vm_compute. reflexivity.
Qed.
(** <<
    $(for x in 0..2 {
        $x:
            y
    })
    >>  Each round ends indented. *)
Definition py_body : list (quoted_item rust_import nat) :=
  [QEval (at_ 2 4 2 6) (fun e => (VInt (Z.of_nat e), e)); tok 2 6 $":"; tok 3 8 $"y"].
Definition py_doc (n : str) : list (node rust_import) := map NItem [Literal (Box n); Literal (Static $":"); Indentation 1; Literal (Static $"y")].
Example C74_plain_case :
  exists ns, shows rs ex_cfg (LOther (QLoop (at_ 1 0 4 2) (fun e => (each 2, e)) None py_body)) 9 ns 1 /\
  block_of rs ex_cfg ns = [$"0:"; $"    y"; $"1:"; $"    y"] /\ open_levels rs ex_cfg ns = 1%Z.
Proof.
  destruct (C74_plain _ _ rs ex_cfg (at_ 1 0 4 2) (fun e => (each 2, e)) py_body 9 (each 2) 9 (py_doc $"0") [py_doc $"1"] 1) as (ns & N1 & _ & N2 & N3).
  - vm_compute. discriminate.
  - reflexivity.
  - exists 0. split; [qshown|]. exists 1. split; [qshown|]. reflexivity.
  - repeat constructor; steadied.
  - exists ns. split; [exact N1|]. rewrite N2, N3. split; vm_compute; reflexivity.
Qed.
(** Rounds that change the environment, separated by a line break: C74_loop. *)
Example C74_loop_case :
  rounds_show rs ex_cfg (Some (at_ 1 21 1 29, [QControl (at_ 1 22 1 28) KPush])) (rule e_x) (each 2) 9
    [rule_doc $"0"; [NItem Push]; rule_doc $"1"] 1.
Proof.
  exists 0, 0. split; [qshown|]. split; [left; split; [reflexivity|]; eexists; split; [vm_compute; reflexivity|repeat split]|]. qshown.
Qed.
(** [$(if x { $x: y } else { no })] and [$(match x { 0 => no, _ => ( .. ) })], where [x] is 1. *)
Example C74_choice_case :
  shows rs ex_cfg (LOther (QIf (at_ 1 0 6 2) (fun e => (e =? 1, e)) py_body (Some [tok 5 4 $"no"]))) 1 (py_doc $"1") 1 /\
  shows rs ex_cfg (LOther (QIf (at_ 1 0 6 2) (fun e => (e =? 1, e)) py_body (Some [tok 5 4 $"no"]))) 2 (static_doc $"no") 2 /\
  shows rs ex_cfg (LOther (QMatch (at_ 1 0 6 2) (fun e => (e, e)) [(None, [tok 5 4 $"no"]); (Some (at_ 2 3 3 10), py_body)])) 1 (py_doc $"1") 1.
Proof.
  split; [|split].
  - eapply C74_if; [vm_compute; discriminate|reflexivity|]. qshown.
  - eapply C74_if; [vm_compute; discriminate|reflexivity|]. qshown.
  - eapply C74_match; [vm_compute; discriminate|reflexivity|reflexivity|]. qshown.
Qed.
