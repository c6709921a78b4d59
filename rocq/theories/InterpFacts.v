(** * Strings of quotes with code as strings of documents. *)
From Verif Require Import Str Tokens SpecTokens TokensFacts AlgebraFacts Values ValuesFacts Fmt SpecFmt HistoryFacts Macro SpecMacro SpecQuote MacroFacts MacroSem
  MacroTokens MacroStrings PropsControl RoundsFacts SpecTemplate TemplateFacts SpecInterp.

Section Interp.
Context {LI E : Type}.
Notation quoted := (quoted_item LI E).
Notation bare := (map (@HistoryFacts.erase LI)).

(** ** Code in parentheses *)
Lemma leaf_on c l (st1 st2 : mstate LI E) : tok_ok (c, l) ->
  m_chunks (enter_chunks c st1) = m_chunks (enter_chunks c st2) -> m_env (enter_chunks c st1) = m_env (enter_chunks c st2) ->
  m_chunks (mean_leaf (c, l) st1) = m_chunks (mean_leaf (c, l) st2) /\ m_env (mean_leaf (c, l) st1) = m_env (mean_leaf (c, l) st2) /\
  m_place (mean_leaf (c, l) st1) = m_place (enter_chunks c st1) /\ m_place (mean_leaf (c, l) st2) = m_place (enter_chunks c st2).
Proof.
  destruct l as [s|x]; intros O; unfold mean_leaf; cbn [fst snd].
  - intros HC HE. cbn [put m_chunks m_env m_place]. rewrite HC. auto.
  - destruct O as [O O2]. cbn [fst snd] in O, O2. subst c.
    destruct x; try discriminate O; cbn [mean cursor_of]; set (sa := enter_chunks _ st1); set (sb := enter_chunks _ st2); clearbody sa sb;
      destruct sa as [pa ca ea], sb as [pb cb eb]; cbn [m_chunks m_env m_place]; intros -> ->;
      try match goal with |- context [let '(_, _) := ?X in _] => destruct X as [? ?] end;
      try (match goal with |- context [let '(_, _) := ?X in _] => destruct X as [? ?] end); repeat split; reflexivity.
Qed.
Lemma enter_row c row at_ k ks (e : E) : p_line (c_start c) = row ->
  enter_chunks c (@mk_mstate LI E (Some (mk_pos row at_, k)) ks e) =
  mk_mstate (Some (c_end c, k)) (ks ++ if at_ <? p_col (c_start c) then [KItems [Space]] else []) e.
Proof.
  intros R. unfold enter_chunks, enter, gap, adjacent. cbn [m_place m_chunks m_env p_line p_col]. rewrite R, Nat.eqb_refl. cbn [option_map andb].
  destruct (at_ <? _); reflexivity.
Qed.
Lemma row_fold ts : forall row at_ a b ks (e : E), Forall tok_ok ts -> on_row row at_ (map fst ts) -> exists at' ks' e', at_ <= at' /\
  (ts <> [] -> at_ < at' ) /\
  fold_left (fun st t => mean_leaf t st) ts (@mk_mstate LI E (Some (mk_pos row at_, [a])) ks e) = mk_mstate (Some (mk_pos row at', [a])) ks' e' /\
  fold_left (fun st t => mean_leaf t st) ts (@mk_mstate LI E (Some (mk_pos row at_, [b])) ks e) = mk_mstate (Some (mk_pos row at', [b])) ks' e'.
Proof.
  induction ts as [|[c l] ts IH]; intros row at_ a b ks e OK R.
  - exists at_, ks, e. split; [lia|]. split; [congruence|]. split; reflexivity.
  - inversion OK as [|? ? O OK']; subst. destruct c as [[r1 x] [r2 y]]. cbn [map fst on_row] in R. destruct R as (-> & -> & L1 & L2 & R).
    cbn [fold_left].
    set (c := mk_cursor (mk_pos row x) (mk_pos row y)) in *.
    destruct (leaf_on c l (mk_mstate (Some (mk_pos row at_, [a])) ks e) (mk_mstate (Some (mk_pos row at_, [b])) ks e) O) as (H1 & H2 & H3 & H4);
      [rewrite !(enter_row c row) by reflexivity; reflexivity|rewrite !(enter_row c row) by reflexivity; reflexivity|].
    rewrite (enter_row c row) in H3 by reflexivity. rewrite (enter_row c row) in H4 by reflexivity. cbn [m_place c_end c] in H3, H4.
    destruct (mean_leaf (c, l) (mk_mstate (Some (mk_pos row at_, [a])) ks e)) as [p1 k1 e1].
    destruct (mean_leaf (c, l) (mk_mstate (Some (mk_pos row at_, [b])) ks e)) as [p2 k2 e2].
    cbn [m_place m_chunks m_env] in H1, H2, H3, H4. subst.
    destruct (IH row y a b k2 e2 OK' R) as (at' & ks' & e' & L & _ & F1 & F2). exists at', ks', e'. split; [lia|]. split; [lia|]. auto.
Qed.
(** The first token, and the span of the parentheses. *)
Lemma eval_first c x (qs : list quoted) : exists c1 l ts, all_tokens (x :: qs) = (c1, l) :: ts /\
  after_open (eval_span c (x :: qs)) = mk_pos (p_line (c_start c1)) (p_col (c_start c1) + 1) /\
  (p_line (c_start c1) = p_line (c_end c1) -> p_line (before_close (eval_span c (x :: qs))) = p_line (c_start c1)) /\
  (p_col (c_start c1) < p_col (c_end c1) -> p_col (before_close (eval_span c (x :: qs))) < p_col (c_end c1)).
Proof.
  unfold after_open, before_close, opener_at, closer_at.
  destruct x; cbn [all_tokens flat_map tokens_of app cursor_of]; eexists _, _, _; (split; [reflexivity|]);
    unfold opener_at; cbn [eval_span c_start c_end p_line p_col]; repeat split; unfold opener_at; cbn [c_start c_end p_line p_col]; lia.
Qed.
(** The code of an interpolation is what its quote gives. *)
Lemma eval_mean c (qs : list quoted) e : code_on_line qs -> quote_mean (eval_block c qs) e = quote_mean qs e.
Proof.
  intros [row R]. unfold eval_block. rewrite parens_mean. unfold quote_mean, block_mean, block_mean_with. rewrite !fold_mean_tokens.
  pose proof (all_tokens_ok qs) as OK. destruct qs as [|x qs].
  - cbn [all_tokens flat_map fold_left start_of eval_span].
    change (after_open (closer_at c)) with (mk_pos (p_line (c_end c)) (p_col (c_end c) - 1 + 1)).
    rewrite (enter_row _ (p_line (c_end c))) by reflexivity. cbn [c_end c_start m_place m_chunks m_env app depth length].
    replace (_ <? _) with false; [reflexivity|]. symmetry. apply Nat.ltb_ge. cbn. lia.
  - destruct (eval_first c x qs) as (c1 & l & ts & AT & AO & BL & BC). rewrite AT in *. destruct c1 as [[r1 a1] [r2 b1]].
    cbn [map fst on_row] in R. destruct R as (-> & -> & _ & L & R). cbn [c_start c_end p_line p_col] in AO, BL, BC.
    specialize (BC L). inversion OK as [|? ? O OK']; subst.
    cbn [start_of]. rewrite AO. cbn [p_col fold_left]. set (c1 := mk_cursor (mk_pos row a1) (mk_pos row b1)) in *.
    assert (E1 : enter_chunks c1 (@mk_mstate LI E (Some (mk_pos row (a1 + 1), [a1 + 1])) [] e) = mk_mstate (Some (mk_pos row b1, [a1 + 1])) [] e).
    { rewrite (enter_row c1 row) by reflexivity. cbn [c1 c_start p_col c_end]. replace (a1 + 1 <? a1) with false by (symmetry; apply Nat.ltb_ge; lia). reflexivity. }
    assert (E2 : enter_chunks c1 (@mk_mstate LI E None [] e) = mk_mstate (Some (mk_pos row b1, [a1])) [] e) by reflexivity.
    destruct (leaf_on c1 l (mk_mstate (Some (mk_pos row (a1 + 1), [a1 + 1])) [] e) (mk_mstate None [] e) O) as (H1 & H2 & H3 & H4);
      [rewrite E1, E2; reflexivity|rewrite E1, E2; reflexivity|]. rewrite E1 in H3. rewrite E2 in H4. cbn [m_place] in H3, H4.
    destruct (mean_leaf (c1, l) (mk_mstate (Some (mk_pos row (a1 + 1), [a1 + 1])) [] e)) as [p1 k1 e1].
    destruct (mean_leaf (c1, l) (mk_mstate None [] e)) as [p2 k2 e2]. cbn [m_place m_chunks m_env] in H1, H2, H3, H4. subst.
    destruct (row_fold ts row b1 (a1 + 1) a1 k2 e2 OK' R) as (at' & ks' & e' & L' & _ & F1 & F2). rewrite F1, F2.
    rewrite (enter_row _ row) by exact (BL eq_refl). cbn [m_place m_chunks m_env depth length c_start].
    replace (at' <? p_col (before_close (eval_span c (x :: qs)))) with false by (symmetry; apply Nat.ltb_ge; lia). cbn [Nat.sub Nat.eqb]. rewrite !app_nil_r. reflexivity.
Qed.
Lemma eval_runs c (qs : list quoted) e e' t : code_on_line qs -> accepted (eval_block c qs) -> quote qs e = Some (e', t) -> quote (eval_block c qs) e = Some (e', t).
Proof.
  intros L A Q. destruct (quote_runs qs e e' t Q) as (its & M & -> & _). unfold accepted in A. unfold quote.
  destruct (quote_code (eval_block c qs)) as [[r code]|] eqn:C; [|congruence]. cbn [option_map snd]. rewrite (quote_supplies _ _ _ C e new), (eval_mean c qs e L), M. reflexivity.
Qed.

(** ** Words *)
Definition text_node (s : str) : list (node LI) := match s with [] => [] | _ => [NItem (Literal (Static s))] end.
Fixpoint word_nodes (before : str) (at_ : nat) (ws : list (cursor * str)) : list (node LI) :=
  match ws with
  | [] => text_node before
  | (c, s) :: ws' =>
      if at_ <? p_col (c_start c) then text_node before ++ NItem Space :: word_nodes s (p_col (c_end c)) ws'
      else word_nodes (before ++ s) (p_col (c_end c)) ws'
  end.
Fixpoint word_chunks (at_ : nat) (ws : list (cursor * str)) : list (chunk LI) :=
  match ws with
  | [] => []
  | (c, s) :: ws' => (if at_ <? p_col (c_start c) then [KItems [Space]] else []) ++ KText s :: word_chunks (p_col (c_end c)) ws'
  end.
Lemma words_fold ws : forall row at_ a ks (e : E), on_row row at_ (map fst ws) -> exists at',
  fold_left (fun st t => mean_leaf t st) (map (fun '(c, s) => (c, LText s)) ws) (@mk_mstate LI E (Some (mk_pos row at_, [a])) ks e) =
  mk_mstate (Some (mk_pos row at', [a])) (ks ++ word_chunks at_ ws) e.
Proof.
  induction ws as [|[[[r1 x] [r2 y]] s] ws IH]; intros row at_ a ks e R; [exists at_; cbn; rewrite app_nil_r; reflexivity|].
  cbn [map fst on_row] in R. destruct R as (-> & -> & L1 & L2 & R). cbn [map fold_left].
  change (mean_leaf (?c, LText ?s) ?st) with (put (KText s) (enter_chunks c st)).
  rewrite (enter_row _ row) by reflexivity. cbn [put m_place m_chunks m_env c_start c_end p_col]. destruct (IH row y a ((ks ++ (if at_ <? x then [KItems [Space]] else [])) ++ [KText s]) e R) as (at' & HF).
  exists at'. etransitivity; [exact HF|]. cbn [word_chunks c_start c_end p_col]. rewrite <- !app_assoc. reflexivity.
Qed.
Lemma chunks_nodes ws : forall before at_, join_texts before (word_chunks at_ ws) = doc_items (word_nodes before at_ ws).
Proof.
  assert (T : forall s, literal s = doc_items (text_node s)) by (intros []; reflexivity).
  induction ws as [|[c s] ws IH]; intros before at_; cbn [word_chunks word_nodes]; [apply T|].
  destruct (at_ <? p_col (c_start c)); cbn [app join_texts]; rewrite IH; [|reflexivity].
  rewrite T. unfold doc_items. rewrite flat_map_app. reflexivity.
Qed.
Lemma words_items ws : Forall (fun w => snd w <> []) ws -> forall before at_ t, before <> [] ->
  ritems (extend (doc_items (word_nodes before at_ ws)) t) = rev (doc_items (word_nodes before at_ ws)) ++ ritems t.
Proof.
  induction 1 as [|[c s] ws NE _ IH]; intros before at_ t N; cbn [word_nodes].
  - destruct before; [congruence|]. reflexivity.
  - cbn [snd] in NE. destruct (at_ <? p_col (c_start c)); [|apply IH; destruct before; [congruence|discriminate]].
    destruct before as [|b before]; [congruence|]. cbn [text_node app].
    change (doc_items (NItem (Literal (Static (b :: before))) :: NItem Space :: ?ns)) with (Literal (Static (b :: before)) :: Space :: doc_items ns).
    change (extend (?x :: ?y :: ?l) t) with (extend l (add_item y (add_item x t))). rewrite (IH s _ _ NE).
    cbn [rev]. rewrite <- !app_assoc. reflexivity.
Qed.
Lemma words_quoted (qs : list quoted) ws e : accepted qs -> code_on_line qs -> made_of qs ws -> exists t ns, quote qs e = Some (e, t) /\ items t = doc_items ns /\
  ns = match ws with [] => [] | (c, s) :: ws' => word_nodes s (p_col (c_end c)) ws' end.
Proof.
  intros A [row R] [M NE]. unfold accepted in A. unfold quote. destruct (quote_code qs) as [[r code]|] eqn:C; [|congruence]. cbn [option_map snd].
  rewrite (quote_supplies _ _ _ C e new). unfold quote_mean, block_mean, block_mean_with. rewrite fold_mean_tokens, M in *. destruct ws as [|[[[r1 x] [r2 y]] s] ws].
  - exists new, []. repeat split; reflexivity.
  - cbn [map fst on_row] in R. destruct R as (-> & -> & _ & _ & R). rewrite map_map in R. 
    assert (R' : on_row row y (map fst ws)) by (erewrite map_ext; [exact R|]; intros []; reflexivity).
    inversion NE as [|? ? N0 NE']; subst. cbn [snd] in N0.
    cbn [start_of map fold_left]. change (mean_leaf (?c, LText ?s) ?st) with (put (KText s) (enter_chunks c st)).
    change (put (KText s) (enter_chunks ?c (mk_mstate None [] e))) with (@mk_mstate LI E (Some (c_end c, [p_col (c_start c)])) [KText s] e). cbn [c_end c_start p_col].
    destruct (words_fold ws row y x [KText s] e R') as (at' & ->). cbn [m_chunks m_place m_env depth length]. cbn [Nat.sub Nat.eqb app join_texts fst snd].
    rewrite app_nil_r, chunks_nodes. eexists _, _. split; [reflexivity|]. split; [|reflexivity].
    unfold items. rewrite (words_items ws NE' s y new N0). cbn [new ritems]. rewrite app_nil_r, rev_involutive. reflexivity.
Qed.
Section Shown.
Context (ops : lang_ops LI) (cfg : config).
Lemma words_shown ws : Forall (fun w => snd w <> []) ws -> forall p before at_, before <> [] ->
  on_line p (doc_atoms ops cfg (word_nodes before at_ ws)) = repeat 32%N p ++ before ++ words_text at_ ws.
Proof.
  induction 1 as [|[c s] ws NE _ IH]; intros p before at_ N; cbn [word_nodes words_text].
  - destruct before; [congruence|]. reflexivity.
  - cbn [snd] in NE. destruct (at_ <? p_col (c_start c)).
    + destruct before as [|b before]; [congruence|]. change (doc_atoms ops cfg (text_node (b :: before) ++ NItem Space :: ?ns)) with (AText (b :: before) :: ASpace :: doc_atoms ops cfg ns).
      cbn [on_line a_text a_space]. rewrite (IH 1 s _ NE). reflexivity.
    + rewrite IH by (destruct before; [congruence|discriminate]). rewrite <- app_assoc. reflexivity.
Qed.
Context (text_ok : bool -> str -> Prop) (opens_after : N -> bool) (single_ok : str -> option N -> Prop).
Lemma depth_app a : forall d b, depth_after d (a ++ b) = match depth_after d a with Some d' => depth_after d' b | None => None end.
Proof.
  induction a as [|c a IH]; intros d b; [reflexivity|]. cbn [app depth_after]. destruct (N.eqb c _); [apply IH|]. destruct (N.eqb c _); [destruct d; [reflexivity|apply IH]|].
  destruct (_ || _); [reflexivity|apply IH].
Qed.
Lemma words_fine ws : Forall (fun w => snd w <> []) ws -> forall c d d' before at_, before <> [] -> depth_after d (before ++ words_text at_ ws) = Some d' ->
  exists c', code_fine ops cfg text_ok opens_after single_ok c d (word_nodes before at_ ws) c' d'.
Proof.
  induction 1 as [|[cu s] ws NE _ IH]; intros c d d' before at_ N D; cbn [word_nodes words_text] in *.
  - rewrite app_nil_r in D. destruct before as [|b before]; [congruence|]. eexists. eapply fine_text; [reflexivity|exact D|apply fine_nil].
  - cbn [snd] in NE. destruct (at_ <? p_col (c_start cu)).
    + rewrite depth_app in D. destruct (depth_after d before) as [d1|] eqn:D1; [|discriminate]. destruct before as [|b before]; [congruence|].
      destruct (IH 32%N d1 d' s (p_col (c_end cu)) NE) as [c' F]; [exact D|]. exists c'. cbn [text_node app]. eapply fine_text; [reflexivity|exact D1|]. apply fine_space. exact F.
    + apply IH; [destruct before; [congruence|discriminate]|]. rewrite <- app_assoc. exact D.
Qed.
Theorem words_code (qs : list quoted) ws e : accepted qs -> code_on_line qs -> made_of qs ws -> exists t ns, quote qs e = Some (e, t) /\ items t = doc_items ns /\
  on_line 0 (doc_atoms ops cfg ns) = line_of_words ws /\
  forall c, depth_after 0 (line_of_words ws) = Some 0 -> exists c', code_fine ops cfg text_ok opens_after single_ok c 0 ns c' 0.
Proof.
  intros A L M. destruct (words_quoted qs ws e A L M) as (t & ns & Q & IT & ->). destruct M as [_ NE]. eexists t, _. split; [exact Q|]. split; [exact IT|].
  destruct ws as [|[c0 s] ws]; [split; [reflexivity|intros c _; exists c; constructor]|]. inversion NE as [|? ? N0 NE']; subst. cbn [snd] in N0.
  split; [apply (words_shown ws NE' 0 s _ N0)|]. intros c D. apply words_fine; auto.
Qed.
End Shown.

(** ** Strings *)
Lemma execs_app c1 : forall c2 st, @execs LI E (c1 ++ c2) st = execs c2 (execs c1 st).
Proof. induction c1 as [|c c1 IH]; intros c2 st; auto. exact (IH c2 (exec c st)). Qed.
(** A stream after [its], where no white space is open. *)
Definition reached (t t' : tokens LI) (its : list (item LI)) : Prop :=
  wf t' /\ closed (items t') /\ bare (ritems t') = rev (bare its) ++ bare (ritems t).
Lemma reached_nil t : wf t -> closed (items t) -> reached t t [].
Proof. intros W C. repeat split; auto; apply W. Qed.
Lemma reached_trans t t1 t2 a b : reached t t1 a -> reached t1 t2 b -> reached t t2 (a ++ b).
Proof. intros (_ & _ & H1) (W & C & H2). split; [exact W|]. split; [exact C|]. rewrite H2, H1, map_app, rev_app_distr, app_assoc. reflexivity. Qed.
Lemma reached_add t x : wf t -> is_white x = false -> reached t (add_item x t) [x].
Proof.
  intros W N. split; [apply add_item_wf; exact W|].
  assert (R : bare (ritems (add_item x t)) = HistoryFacts.erase x :: bare (ritems t)) by (destruct x; try discriminate N; reflexivity).
  split; [|exact R]. apply (closed_bare _ x (ritems t)); [exact R|exact N].
Qed.
Lemma text_reached s (e : E) (t : tokens LI) : wf t -> closed (items t) -> exists t', execs (text_code s) (e, t) = (e, t') /\ reached t t' (flat_map part_items (constant_text s)).
Proof.
  intros W C. destruct s as [|c s]; [exists t; split; [reflexivity|apply reached_nil; auto]|].
  exists (add_item (Literal (Static (c :: s))) t). split; [reflexivity|]. apply reached_add; [exact W|reflexivity].
Qed.
Lemma doc_reached src stop (ps : list (string_item LI E)) : forall e before at_ e' out, string_doc src stop e before at_ ps e' out -> spelled src at_ ps stop -> evals_accepted ps ->
  forall t, wf t -> closed (items t) -> exists t', execs (coalesce before (source_pieces src at_ ps stop)) (e, t) = (e', t') /\ reached t t' (flat_map part_items out).
Proof.
  intros e before at_ e' out D. induction D as
    [e before at_|e before at_ c s ps e' out _ IH|e before at_ c ps e' out _ IH|e before at_ c s ps e' out _ IH|e before at_ c v w e1 s ps e' out V W0 _ IH
    |e before at_ c name ps e' out _ IH|e before at_ c qs t1 ns e1 ps e' out L Q IT _ IH]; intros SP A t W C;
    try (cbn [spelled string_cursor] in SP; destruct SP as (B1 & LE & TX & SP); specialize (IH SP (fun c0 qs0 H => A c0 qs0 (or_intror H)))).
  - cbn [source_pieces coalesce]. apply text_reached; auto.
  - cbn [source_pieces app coalesce string_cursor]. apply IH; auto.
  - cbn [source_pieces app coalesce string_cursor]. rewrite <- app_assoc. apply IH; auto.
  - cbn [source_pieces app coalesce string_cursor]. rewrite <- app_assoc. apply IH; auto.
  - cbn [source_pieces app coalesce string_cursor]. rewrite execs_app. destruct (text_reached (before ++ slice src at_ (p_col (c_start c))) e t W C) as (t1 & -> & R1).
    change (execs (SAppend v :: ?k) (e, t1)) with (execs k (exec (SAppend v) (e, t1))). cbn [exec fst snd]. rewrite V.
    assert (R2 : reached t1 (append w t1) [Literal s]).
    { destruct R1 as (W1 & C1 & _). unfold append in *. rewrite format_into_extend in *. change (extend (parts w) new) with (from_iter (parts w)) in W0.
      assert (R : bare (ritems (extend (parts w) t1)) = Literal s :: bare (ritems t1)).
      { rewrite (extend_closed _ _ W1 C1). unfold grafted. cbn [ritems]. rewrite graft_erase. unfold items in W0.
        apply (f_equal (@rev _)) in W0. rewrite rev_involutive in W0. rewrite W0. reflexivity. }
      split; [apply extend_wf; exact W1|]. split; [apply (closed_bare _ (Literal s) (ritems t1)); [exact R|reflexivity]|exact R]. }
    destruct (IH (append w t1)) as (t' & -> & R3); [apply R2|apply R2|]. exists t'. split; [reflexivity|].
    rewrite flat_map_app. eapply reached_trans; [exact R1|]. cbn [flat_map part_items]. eapply reached_trans; [exact R2|exact R3].
  - cbn [source_pieces app coalesce string_cursor]. rewrite execs_app. destruct (text_reached (before ++ slice src at_ (p_col (c_start c))) e t W C) as (t1 & -> & R1).
    set (t2 := add_item OpenEval t1). set (t3 := add_item (Literal (Static name)) t2). set (t4 := add_item CloseEval t3).
    change (execs (SItem OpenEval :: SItem (Literal (Static name)) :: SItem CloseEval :: ?k) (e, t1)) with (execs k (e, t4)).
    assert (R2 : reached t1 t2 [OpenEval]) by (apply reached_add; [apply R1|reflexivity]).
    assert (R3 : reached t2 t3 [Literal (Static name)]) by (apply reached_add; [apply R2|reflexivity]).
    assert (R4 : reached t3 t4 [CloseEval]) by (apply reached_add; [apply R3|reflexivity]).
    destruct (IH t4) as (t' & -> & R5); [apply R4|apply R4|]. exists t'. split; [reflexivity|].
    rewrite flat_map_app. eapply reached_trans; [exact R1|]. cbn [flat_map part_items node_items app].
    apply (reached_trans _ _ _ _ _ R2), (reached_trans _ _ _ _ _ R3), (reached_trans _ _ _ _ _ R4), R5.
  - cbn [source_pieces app coalesce string_cursor]. rewrite execs_app. destruct (text_reached (before ++ slice src at_ (p_col (c_start c))) e t W C) as (t2 & -> & R1).
    pose proof (A c qs (or_introl eq_refl)) as AC. pose proof (eval_runs c qs e e1 t1 L AC Q) as QE.
    set (t3 := add_item OpenEval t2). assert (R2 : reached t2 t3 [OpenEval]) by (apply reached_add; [apply R1|reflexivity]).
    destruct (sep_runs (eval_block c qs) e ns e1 t1 QE IT t3) as (t4 & RN & W4 & B4); [apply R2|apply R2|].
    unfold runs, quote_in in RN. cbn [fst snd] in RN. destruct (quote_code (eval_block c qs)) as [[r code]|]; [|congruence]. cbn [option_map snd] in RN.
    set (t5 := add_item CloseEval t4).
    rewrite <- app_assoc. change (execs (SItem OpenEval :: ?k) (e, t2)) with (execs k (e, t3)). rewrite execs_app. rewrite RN.
    change (execs ([SItem CloseEval] ++ ?k) (e1, t4)) with (execs k (e1, t5)).
    assert (R5 : reached t4 t5 [CloseEval]) by (apply reached_add; [exact W4|reflexivity]).
    destruct (IH t5) as (t' & -> & R6); [apply R5|apply R5|]. exists t'. split; [reflexivity|].
    rewrite flat_map_app. eapply reached_trans; [exact R1|]. 
    change (flat_map part_items (SpecFmt.PEval ns :: out)) with ([OpenEval] ++ (doc_items ns ++ [CloseEval]) ++ flat_map part_items out).
    eapply reached_trans; [exact R2|].
    split; [apply R6|]. split; [apply R6|]. destruct R6 as (_ & _ & R6). destruct R5 as (_ & _ & R5). rewrite R6, R5, B4, !map_app, !rev_app_distr. cbn [map rev app]. rewrite <- !app_assoc. reflexivity.
Qed.
Theorem string_document c paren (ps : list (string_item LI E)) src e e' out : accepted [QString c paren ps] ->
  spelled src (p_col (after_open paren)) ps (p_col (before_close paren)) ->
  string_doc src (p_col (before_close paren)) e [] (p_col (after_open paren)) ps e' out ->
  exists t, quote [QString c paren ps] e = Some (e', t) /\ bare (items t) = bare (doc_items [NString (existsb is_eval ps) out]).
Proof.
  intros A SP D. unfold quote, accepted in *. rewrite string_code in *.
  pose proof (sbody_some ps (inner_end paren) (inner_start paren)) as S.
  destruct (sbody _ ps _) as [[ks rq]|] eqn:SB; cbn [bind] in *; [|congruence]. destruct S as (_ & EA & _).
  rewrite <- (source_body src ps (before_close paren) (after_open paren) ks rq SP SB []). cbn [option_map snd].
  set (ev := existsb is_eval ps). set (t0 := add_item (OpenQuote ev) (@new LI)).
  assert (R0 : reached new t0 [OpenQuote ev]) by (apply reached_add; [apply new_wf|reflexivity]).
  destruct (doc_reached src _ ps e [] _ e' out D SP EA t0) as (t1 & X & R1); [apply R0|apply R0|].
  exists (add_item CloseQuote t1). split.
  - f_equal. change (execs (SItem (OpenQuote ev) :: ?k) (e, new)) with (execs k (e, t0)). rewrite execs_app, X. reflexivity.
  - assert (R2 : reached t1 (add_item CloseQuote t1) [CloseQuote]) by (apply reached_add; [apply R1|reflexivity]).
    pose proof (reached_trans _ _ _ _ _ (reached_trans _ _ _ _ _ R0 R1) R2) as (_ & _ & R). unfold items. rewrite map_rev, R. cbn [new ritems map].
    rewrite app_nil_r, rev_involutive. unfold doc_items. cbn [flat_map node_items app]. rewrite app_nil_r. reflexivity.
Qed.
End Interp.
