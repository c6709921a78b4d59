(** * Lemmas: programs assembled from quotes. *)
From Verif Require Import Str SpecStr StrFacts Quote SpecLex LexFacts QuoteFacts Tokens SpecTokens TokensRun TokensFacts AlgebraFacts Values ValuesFacts Fmt SpecFmt LayoutFacts
  RenderFacts HistoryFacts StringFacts OutputFacts SpecFile HeaderFacts BlockFacts Macro SpecMacro SpecQuote MacroFacts MacroSem MacroTokens MacroRender SpecWords WordsFacts
  Parse SpecParse ParseFacts SpecRounds RoundsFacts SpecReread RereadFacts RespaceFacts LangBase ProgramFacts PropsQuote PropsWords PropsRounds PropsReread PropsProgram WholeFacts SpecSilent SilentFacts PropsSilent SpecAssembled SparseFacts.
From Coq Require Import Lia.

Section Assembled.
Context {LI E : Type} (ops : lang_ops LI) (cfg : config).
Notation doc := (list (node LI)). Notation quoted := (quoted_item LI E).
Notation nl := (c_newline cfg). Notation ind := (c_indentation cfg).
Notation shown := (fun n d => text nl (shown_at ops cfg (Z.of_nat n) d)).
Notation following := (following nl ind). Notation words_text := (words_text nl ind).

(** ** Words in lines *)
Notation entry := (src_word LI E * (doc * (nat -> str)))%type.
Definition entry_ok (x : entry) : Prop := forall n, shown n (fst (snd x)) = snd (snd x) n.
Definition docs_more (m : list (nat * entry)) : list (nat * doc) := map (fun '(g, x) => (g, fst (snd x))) m.
Definition texts_more (m : list (nat * entry)) : list (nat -> str) := map (fun x => snd (snd (snd x))) m.

Lemma row_tokens_length m : forall frm, length (@row_tokens LI E frm m) = length m.
Proof. induction m as [|[g w] m IH]; intros frm; [reflexivity|]. cbn. rewrite IH. reflexivity. Qed.
Lemma following_row n before (m : list (nat * entry)) : Forall (fun x => entry_ok (snd x)) m -> forall frm rest,
  following n before frm (combine (map fst (row_tokens frm (source_more m))) (texts_more m) ++ rest) =
  text nl (flat_map (fun '(g, d) => (if g =? 0 then [] else [Ch 32]) ++ shown_at ops cfg (Z.of_nat (n + level before)) d) (docs_more m)) ++
  following n before (row_end frm (source_more m)) rest.
Proof.
  induction 1 as [|[g [w [d f]]] m OK _ IH]; intros frm rest; [reflexivity|].
  cbn [source_more map fst snd row_tokens texts_more combine app SpecAssembled.following docs_more flat_map row_end]. 
  change (c_start (src_cursor (p_line frm) (p_col frm + g) w)) with (mk_pos (p_line frm) (p_col frm + g)). cbn [p_line p_col].
  rewrite Nat.eqb_refl. assert (Z : (p_col frm + g =? p_col frm) = (g =? 0)).
  { destruct (Nat.eqb_spec (p_col frm + g) (p_col frm)), (Nat.eqb_spec g 0); try reflexivity; lia. }
  rewrite Z, !text_app. pose proof (OK (n + level before)) as O. cbn [fst snd] in O. rewrite <- O, <- !app_assoc. f_equal; [destruct (g =? 0); reflexivity|]. f_equal. apply IH.
Qed.
Lemma following_lines n (ls : list (line_of entry)) : Forall entry_ok (flat_map words_of ls) -> forall row before frm, before <> [] -> row = S (p_line frm) ->
  following n before frm (combine (map fst (word_tokens row (map (map_line fst) ls))) (map (fun x => snd (snd x)) (flat_map words_of ls))) =
  text nl (shown_from ops cfg (Z.of_nat n) before (map (map_line (fun x => fst (snd x))) ls)).
Proof.
  induction ls as [|[k col [w [d f]] m] ls IH]; intros OK row before frm NB R; [reflexivity|].
  cbn [flat_map words_of ln_word ln_more app] in OK. inversion OK as [|? ? O1 O2]; subst. apply Forall_app in O2 as [O2 O3].
  cbn [map map_line ln_empty ln_col ln_word ln_more fst snd word_tokens flat_map words_of combine shown_from]. cbv zeta.
  set (row := S (p_line frm)). set (c := src_cursor (row + k) col w).
  unfold words_of at 1. cbn [ln_word ln_more app map combine fst snd]. fold (source_more m). cbn [SpecAssembled.following]. cbv zeta. change (c_start c) with (mk_pos (row + k) col). cbn [p_line p_col].
  assert (Z1 : (row + k =? p_line frm) = false) by (apply Nat.eqb_neq; unfold row; lia).
  assert (Z2 : (row + k =? S (p_line frm)) = (k =? 0)).
  { unfold row. destruct (Nat.eqb_spec (S (p_line frm) + k) (S (p_line frm))), (Nat.eqb_spec k 0); try reflexivity; lia. }
  rewrite Z1, Z2. set (b' := before ++ [col]). rewrite !map_app.
  replace (map (fun x : entry => snd (snd x)) (map snd m)) with (texts_more m) by (unfold texts_more; rewrite map_map; reflexivity).
  rewrite combine_app by (rewrite map_length, row_tokens_length; unfold texts_more, source_more; rewrite !map_length; reflexivity).
  rewrite following_row.
  2:{ clear -O2. induction m as [|[g x] m IHm]; constructor; inversion O2; subst; auto. }
  specialize (IH O3 (S (p_line (row_end (c_end c) (source_more m)))) b' (row_end (c_end c) (source_more m)) ltac:(unfold b'; destruct before; discriminate) eq_refl).
  pose proof (O1 (n + level b')) as O1'. cbn [fst snd] in O1'. rewrite IH, <- O1'.
  rewrite Nat2Z.inj_add. set (lvl := (Z.of_nat n + Z.of_nat (level b'))%Z). cbn [shown_line ln_word ln_more]. unfold shown_line. cbn [ln_word ln_more].
  rewrite !text_app, pad_text, text_chars. unfold new_line_at. rewrite Nat2Z.inj_add. fold lvl. fold (docs_more m). rewrite <- !app_assoc.
  destruct before as [|b0 before]; [congruence|]. destruct (k =? 0); cbn [text flat_map sym_text app]; rewrite ?app_nil_r, <- ?app_assoc; reflexivity.
Qed.

(** ** A quote *)
Definition good_doc (d : doc) (f : nat -> str) (k : nat) : Prop :=
  open_levels ops cfg d = Z.of_nat k /\ (forall n, shown n d = f n) /\ begins ops d.

(** Words that end deeper. *)
Notation deep := (fun x : src_word LI E * doc => Z.to_nat (open_levels ops cfg (snd x))).
Lemma ends_row col (m : list (nat * (src_word LI E * doc))) rest : forall c k,
  ends_from col ((c, k) :: combine (map fst (row_tokens (c_end c) (source_more m))) (map (fun x => deep (snd x)) m) ++ rest) ->
  Forall (fun k => k = 0) (removelast (k :: map (fun x => deep (snd x)) m)) /\
  exists c', c_end c' = row_end (c_end c) (source_more m) /\ ends_from col ((c', last (k :: map (fun x => deep (snd x)) m) 0) :: rest).
Proof.
  induction m as [|[g [w d]] m IH]; intros c k H; [split; [constructor|exists c; split; [reflexivity|exact H]]|].
  cbn [source_more map fst snd row_tokens combine app row_end] in *. set (c1 := src_cursor (p_line (c_end c)) (p_col (c_end c) + g) w) in *.
  change (ends_from col ((c, k) :: (c1, Z.to_nat (open_levels ops cfg d)) :: combine (map fst (row_tokens (c_end c1) (source_more m))) (map (fun x => deep (snd x)) m) ++ rest)) in H.
  cbn [ends_from] in H. change (p_line (c_start c1)) with (p_line (c_end c)) in H. rewrite Nat.eqb_refl in H. destruct H as [-> H].
  destruct (IH c1 _ H) as (F & c' & E' & R). split; [constructor; [reflexivity|exact F]|]. exists c'. split; [exact E'|exact R].
Qed.
Lemma deep_zero (d : doc) : (0 <= open_levels ops cfg d)%Z -> Z.to_nat (open_levels ops cfg d) = 0 -> open_levels ops cfg d = 0%Z.
Proof. lia. Qed.
Lemma ends_lines (ls : list (line_of (src_word LI E * doc))) : Forall (fun x => (0 <= open_levels ops cfg (snd x))%Z) (flat_map words_of ls) ->
  forall row, match ls with
  | [] => True
  | l :: _ => ends_from (ln_col l) (combine (map fst (word_tokens row (map (map_line fst) ls))) (map deep (flat_map words_of ls)))
  end -> lines_closed ops cfg (map (map_line snd) ls).
Proof.
  induction ls as [|[k col [w d] m] ls IH]; intros P row H; [exact I|]. cbn [flat_map words_of ln_word ln_more ln_col app] in *.
  cbn [map map_line ln_empty ln_col ln_word ln_more fst snd word_tokens flat_map combine] in H. cbv zeta in H. set (c := src_cursor (row + k) col w) in *.
  unfold words_of at 1 in H. cbn [ln_word ln_more app map combine fst snd] in H. fold (source_more m) in H. rewrite !map_app in H.
  rewrite combine_app in H by (rewrite !map_length, row_tokens_length; unfold source_more; rewrite map_length; reflexivity). rewrite map_map in H.
  destruct (ends_row _ _ _ _ _ H) as (F & c' & EC & R). clear H.
  inversion P as [|? ? P1 P2]; subst. apply Forall_app in P2 as [P2 P3].
  assert (DS : map (fun z => Z.to_nat (open_levels ops cfg z)) (d :: map snd (map snd m)) = Z.to_nat (open_levels ops cfg d) :: map (fun x => deep (snd x)) m) by (cbn [map]; rewrite !map_map; reflexivity).
  assert (PS : Forall (fun d => (0 <= open_levels ops cfg d)%Z) (d :: map snd (map snd m))) by (constructor; [exact P1|apply Forall_map; exact P2]).
  assert (WO : words_of (map_line snd (mk_line_of k col (w, d) m)) = d :: map snd (map snd m)).
  { unfold words_of. cbn [map_line ln_word ln_more snd]. rewrite !map_map. f_equal. apply map_ext. intros [g y]. reflexivity. }
  cbn [snd] in *. rewrite <- DS in F, R.
  set (lk := last (map (fun z => Z.to_nat (open_levels ops cfg z)) (d :: map snd (map snd m))) 0) in R. cbn [map lines_closed].
  split; [|split].
  - unfold line_closed. rewrite WO. revert PS F. clear. generalize (d :: map snd (map snd m)). intros l PS F. induction PS as [|x l X PS IH]; [constructor|]. destruct l as [|y l]; [constructor|].
    cbn [map removelast] in *. inversion F; subst. constructor; [apply deep_zero; assumption|]. apply IH. assumption.
  - destruct ls as [|[k2 col2 [w2 d2] m2] ls]; [exact I|]. unfold closed_before. rewrite WO. cbn [map map_line ln_empty ln_col]. intros O _.
    cbn [map map_line ln_empty ln_col ln_word ln_more fst snd word_tokens flat_map words_of combine app] in R. cbv zeta in R.
    cbn [ends_from c_start src_cursor p_line p_col] in R. rewrite EC in R.
    destruct (Nat.eqb_spec (S (p_line (row_end (c_end c) (source_more m))) + k2) (p_line (row_end (c_end c) (source_more m)))); [lia|].
    destruct R as [[R|R] _]; [|exact R]. exfalso.
    assert (LM : lk = Z.to_nat (open_levels ops cfg (last (d :: map snd (map snd m)) []))).
    { unfold lk. clear. generalize (map snd (map snd m)). intros l. revert d. induction l as [|y l IH]; intros d; [reflexivity|]. exact (IH y). }
    rewrite LM, O in R. discriminate R.
  - apply (IH P3 (S (p_line (row_end (c_end c) (source_more m))))). destruct ls as [|[k2 col2 [w2 d2] m2] ls]; [exact I|].
    cbn [map map_line ln_empty ln_col ln_word ln_more fst snd word_tokens flat_map words_of combine app] in R |- *. cbv zeta in R |- *.
    cbn [ends_from c_start src_cursor p_line p_col] in R. rewrite EC in R.
    destruct (Nat.eqb_spec (S (p_line (row_end (c_end c) (source_more m))) + k2) (p_line (row_end (c_end c) (source_more m)))); [lia|]. exact (proj2 R).
Qed.

Lemma program_document (qs : list quoted) p s ws e ds fs ks e' :
  written p s (combine (map fst (all_tokens qs)) ws) -> length ws = length (all_tokens qs) -> starts_fit (map fst (all_tokens qs)) ->
  all_show ops cfg (map snd (all_tokens qs)) e ds e' -> Forall2 (fun d fk => good_doc d (fst fk) (snd fk)) ds (combine fs ks) -> length ks = length fs -> ds <> [] ->
  (forall c, hd_error (map fst (all_tokens qs)) = Some c -> ends_from (p_col (c_start c)) (combine (map fst (all_tokens qs)) ks)) ->
  exists t ns, quote qs e = Some (e', t) /\ items t = doc_items ns ++ closing (open_levels ops cfg ns) /\
    doc_ok ns = true /\ visible_ends (doc_atoms ops cfg ns) /\
    open_levels ops cfg ns = Z.of_nat (level (line_starts (map fst (all_tokens qs))) + last ks 0) /\
    (forall n, shown n ns = words_text n (combine (map fst (all_tokens qs)) fs)) /\
    outcome (format_items ops cfg string_writer (items t) (formatter_new [])) = (words_text 0 (combine (map fst (all_tokens qs)) fs), true) /\
    begins ops ns.
Proof.
  intros W L F A G0 LK NE EN.
  assert (G : Forall2 (fun d f => (0 <= open_levels ops cfg d)%Z /\ (forall n, shown n d = f n) /\ begins ops d) ds fs).
  { clear -G0 LK. revert fs ks LK G0. induction ds as [|d ds IH]; intros [|f fs] [|k ks] LK G0; cbn in LK; try discriminate; inversion G0 as [|? ? ? ? [G1 G2] G3]; subst; constructor.
    - split; [cbn [snd] in G1; lia|exact G2].
    - apply (IH fs ks); [congruence|exact G3]. }
  assert (KD : ks = map (fun d => Z.to_nat (open_levels ops cfg d)) ds).
  { clear -G0 LK. revert fs ks LK G0. induction ds as [|d ds IH]; intros [|f fs] [|k ks] LK G0; cbn in LK; try discriminate; inversion G0 as [|? ? ? ? [G1 G2] G3]; subst; [reflexivity|].
    cbn [map snd] in *. f_equal; [lia|]. apply (IH fs ks); [congruence|exact G3]. }
  clear G0 LK.
  pose proof (all_show_length _ _ _ _ _ _ A) as LL. rewrite map_length in LL. assert (LF : length ds = length fs) by (clear -G; induction G; cbn; congruence).
  destruct (written_first _ _ _ W) as [[Z WS]|(b & q & w & s' & toks & -> & B & WN & TK & W')].
  - destruct (all_tokens qs) as [|[c x] ts] eqn:AT; [|destruct ws; discriminate]. destruct ds; [congruence|discriminate].
  - destruct (all_tokens qs) as [|[c x] ts] eqn:AT; [discriminate|]. destruct ws as [|w0 ws]; [discriminate|]. destruct ds as [|d ds]; [discriminate|]. destruct fs as [|f fs]; [discriminate|].
    cbn [map fst combine] in TK. injection TK as -> <- <-. cbn [length] in L, LL, LF. inversion G as [|? ? ? ? G1 G2]; subst.
    destruct (written_lines _ _ _ W' (advance q w0) [] (combine (map snd ts) (combine ds fs))) as (more & ls & T1 & T2 & T3 & T4); [constructor|reflexivity|
      rewrite !combine_length, !map_length; lia|]. clear T4.
    set (l := mk_line_of 0 (p_col q) (the_word q w0 x, (d, f)) more).
    assert (LT : length (map fst ts) = length ws) by (rewrite map_length; lia).
    assert (LX : length (map snd ts) = length (combine ds fs)) by (rewrite combine_length, map_length; lia).
    rewrite (comb_fst _ _ LT) in T1, T3. rewrite (comb_fst _ _ LX) in T1.
    assert (LN : flat_map words_of (l :: ls) = (the_word q w0 x, (d, f)) :: map snd more ++ flat_map words_of ls) by reflexivity.
    assert (T2' : map (fun y => (sw_leaf (fst y), snd y)) (map snd more ++ flat_map words_of ls) = combine (map snd ts) (combine ds fs)).
    { rewrite <- T2, map_app, map_map. f_equal; [apply map_ext; intros [g y]; reflexivity|]. clear. induction ls as [|l0 ls IH]; [reflexivity|].
      cbn [flat_map]. rewrite map_app, IH. reflexivity. }
    assert (WL : map sw_leaf (flat_map words_of (map (map_line fst) (l :: ls))) = x :: map snd ts).
    { rewrite words_map, LN, map_map. cbn [map fst the_word sw_leaf]. f_equal. rewrite <- (comb_fst _ _ LX), <- T2', map_map. reflexivity. }
    assert (WP : map snd (flat_map words_of (l :: ls)) = (d, f) :: combine ds fs).
    { rewrite LN. cbn [map snd]. f_equal. rewrite <- (comb_snd _ _ LX), <- T2', map_map. reflexivity. }
    assert (WD : flat_map words_of (map (map_line (fun y => fst (snd y))) (l :: ls)) = d :: ds).
    { rewrite words_map, <- (map_map snd fst), WP. cbn [map fst]. f_equal. apply comb_fst. lia. }
    assert (WF : map (fun y => snd (snd y)) (flat_map words_of (l :: ls)) = f :: fs).
    { rewrite <- (map_map snd snd), WP. cbn [map snd]. f_equal. apply comb_snd. lia. }
    assert (OK : Forall entry_ok (flat_map words_of (l :: ls))).
    { assert (X : Forall (fun df => forall n, shown n (fst df) = snd df n) ((d, f) :: combine ds fs)).
      { clear -G. change ((d, f) :: combine ds fs) with (combine (d :: ds) (f :: fs)). induction G as [|a b' x' y' H _ IH]; [constructor|]. cbn [combine]. constructor; [apply H|exact IH]. }
      rewrite <- WP in X. apply Forall_map in X. exact X. }
    assert (HC : map ln_col (map (map_line (fun y : entry => fst (snd y))) (l :: ls)) = line_starts (map fst ((mk_cursor q (advance q w0), x) :: ts))).
    { unfold l. cbn [map fst line_starts c_start c_end map_line ln_col]. rewrite <- T3. f_equal. rewrite map_map. reflexivity. }
    assert (WT : word_tokens (p_line q) (map (map_line fst) (l :: ls)) = (mk_cursor q (advance q w0), x) :: ts).
    { unfold l. cbn [map map_line ln_empty ln_col ln_word ln_more fst word_tokens]. cbv zeta. rewrite Nat.add_0_r, word_at. cbn [c_end].
      f_equal. fold (source_more more). rewrite <- T1. clear. induction ts as [|[a b] ts IH]; [reflexivity|]. cbn. f_equal. exact IH. }
    destruct (words_render ops cfg qs (p_line q) (map (map_line fst) (l :: ls)) (map (map_line (fun y => fst (snd y))) (l :: ls)) e e') as (t & Q & O & TF & D).
    + rewrite AT. symmetry. exact WT.
    + unfold lines_fit. intros before col after X. apply (F before col after). rewrite <- X, <- HC. rewrite !map_map. reflexivity.
    + split; [rewrite !map_map; apply map_ext; intros [a1 a2 a3 a4]; unfold map_line; cbn; f_equal; rewrite !map_map; apply map_ext; intros [g y]; reflexivity|].
      split; [rewrite WL, WD; exact A|].
      set (le := map (map_line (fun y : entry => (fst y, fst (snd y)))) (l :: ls)).
      assert (ML : forall {U V T} (h : U -> V) (k : V -> T) (ul : list (line_of U)), map (map_line k) (map (map_line h) ul) = map (map_line (fun u => k (h u))) ul).
      { clear. intros U V T h k ul. rewrite map_map. apply map_ext. intros [a1 a2 a3 a4]. unfold map_line. cbn. f_equal. rewrite map_map. apply map_ext. intros [g y]; reflexivity. }
      assert (LE : map (map_line (fun y : entry => fst (snd y))) (l :: ls) = map (map_line snd) le) by (unfold le; rewrite ML; reflexivity).
      assert (LW : map (map_line fst) le = map (map_line fst) (l :: ls)) by (unfold le; rewrite ML; reflexivity).
      assert (LV : map (fun x => Z.to_nat (open_levels ops cfg (snd x))) (flat_map words_of le) = map (fun d => Z.to_nat (open_levels ops cfg d)) (d :: ds)).
      { rewrite <- WD, LE, words_map, map_map. reflexivity. }
      rewrite LE. apply (ends_lines le) with (row := p_line q).
      * assert (X : Forall (fun d => (0 <= open_levels ops cfg d)%Z) (map snd (flat_map words_of le))).
        { rewrite <- words_map, <- LE, WD. clear -G. induction G; constructor; auto. apply H. }
        rewrite Forall_map in X. exact X.
      * rewrite LV, LW, WT. apply (EN (mk_cursor q (advance q w0)) eq_refl).
    + assert (TX : forall n, text nl (shown_line ops cfg (Z.of_nat n) (map_line (fun y => fst (snd y)) l) ++
                 shown_from ops cfg (Z.of_nat n) [p_col q] (map (map_line (fun y => fst (snd y))) ls)) =
               words_text n (combine (map fst ((mk_cursor q (advance q w0), x) :: ts)) (f :: fs))).
      { intros n. cbn [map fst combine SpecAssembled.words_text c_start c_end]. rewrite text_app. unfold shown_line, l. cbn [map_line ln_word ln_more fst snd].
        rewrite text_app, (proj1 (proj2 G1) n), <- app_assoc. f_equal.
        inversion OK as [|? ? O1 O2]; subst. apply Forall_app in O2 as [O2 O3].
        assert (FS : fs = texts_more more ++ map (fun y => snd (snd y)) (flat_map words_of ls)).
        { rewrite LN in WF. cbn [map snd] in WF. injection WF as WF. rewrite <- WF, map_app, map_map. reflexivity. }
        assert (CS : map fst ts = map fst (row_tokens (advance q w0) (source_more more)) ++
           map fst (word_tokens (S (p_line (row_end (advance q w0) (source_more more)))) (map (map_line fst) ls))).
        { rewrite <- map_app, <- T1. rewrite comb_fst; [reflexivity|rewrite !map_length; reflexivity]. }
        rewrite CS, FS, combine_app by (rewrite map_length, row_tokens_length; unfold texts_more, source_more; rewrite !map_length; reflexivity).
        rewrite following_row.
        2:{ clear -O2. induction more as [|[g y] m IHm]; constructor; inversion O2; subst; auto. }
        rewrite following_lines by (auto; discriminate). cbn [level]. rewrite Nat.add_0_r. reflexivity. }
      assert (BG : exists y r, doc_items d = y :: r /\ begins_text (l_format_item ops) y) by apply G1.
      cbn [map] in D. destruct D as (ns & N1 & N2 & N3 & N4 & N5 & N6). exists t, ns. split; [exact Q|]. split; [exact N1|]. split; [exact N2|]. split; [exact N3|].
      split.
      { pose proof HC as HC'. pose proof WD as WD'. cbn [map] in HC', WD'. rewrite N5, HC', WD'. cbn [map].
        assert (Z : open_levels ops cfg (last (d :: ds) []) = Z.of_nat (last (map (fun d => Z.to_nat (open_levels ops cfg d)) (d :: ds)) 0)); [|rewrite Z; cbn [map]; lia].
        clear -G. revert f fs d G. induction ds as [|d2 ds IH]; intros f fs d G; [|inversion G as [|? ? ? ? _ G']; subst; inversion G'; subst; eapply (IH _ _ d2 G')].
        inversion G as [|? ? ? ? [G1 _] _]; subst. cbn [last map]. rewrite Z2Nat.id by exact G1. reflexivity. }
      split; [intros n; rewrite N6; exact (TX n)|]. split.
      { rewrite O. f_equal. rewrite <- (TX 0). cbn [map shown_lines app level Z.of_nat Nat.add map_line ln_col l]. rewrite shown_from_0.
        f_equal. replace (pad ind 0) with (@nil sym) by (unfold pad; destruct ind; cbn; rewrite ?Nat.mul_0_r; reflexivity). reflexivity. }
      destruct (TF BG) as (z & rest & IT & BZ). destruct (first_item ops cfg ns _ N2 eq_refl N3) as (y & r & DI & _).
      exists y, r. split; [exact DI|]. rewrite N1, DI in IT. injection IT as -> _. exact BZ.
Qed.
Lemma pair_head {A B} (R : A -> B -> Prop) x l y l' : Forall2 R (x :: l) (y :: l') -> R x y.
Proof. intros H. inversion H. assumption. Qed.
Lemma entries_text (el : line_of entry) els row n : Forall entry_ok (flat_map words_of (el :: els)) ->
  text nl (shown_line ops cfg (Z.of_nat n) (map_line (fun y => fst (snd y)) el) ++ shown_from ops cfg (Z.of_nat n) [ln_col el] (map (map_line (fun y => fst (snd y))) els)) =
  words_text n (combine (map fst (word_tokens row (map (map_line fst) (el :: els)))) (map (fun x => snd (snd x)) (flat_map words_of (el :: els)))).
Proof.
  intros OK. destruct el as [k col [w [d f]] m]. pose proof OK as OK'. cbn [flat_map words_of ln_word ln_more app] in OK'. inversion OK' as [|? ? O1 O2]; subst. apply Forall_app in O2 as [O2 O3].
  cbn [map map_line ln_empty ln_col ln_word ln_more fst snd word_tokens flat_map words_of combine SpecAssembled.words_text]. cbv zeta.
  unfold words_of at 1. cbn [ln_word ln_more app map combine fst snd]. fold (source_more m). cbn [SpecAssembled.words_text].
  set (c := src_cursor (row + k) col w). change (p_col (c_start c)) with col.
  rewrite !map_app. replace (map (fun x : entry => snd (snd x)) (map snd m)) with (texts_more m) by (unfold texts_more; rewrite map_map; reflexivity).
  rewrite combine_app by (rewrite map_length, row_tokens_length; unfold texts_more, source_more; rewrite !map_length; reflexivity).
  rewrite following_row.
  2:{ clear -O2. induction m as [|[g y] m IHm]; constructor; inversion O2; subst; auto. }
  rewrite following_lines by (auto; discriminate). cbn [level]. rewrite Nat.add_0_r.
  unfold shown_line. cbn [ln_word ln_more]. rewrite !text_app, <- app_assoc. pose proof (O1 n) as O1'. cbn [fst snd] in O1'. cbn [map_line ln_word ln_more fst snd]. rewrite O1'. reflexivity.
Qed.

Lemma kept_document (qs : list quoted) p s (lo : list (cursor * (str * option (piece LI)))) e ds e' (f : str -> piece LI -> nat -> str) :
  written p s (map (fun x => (fst x, fst (snd x))) lo) -> map fst (all_tokens qs) = map fst lo -> starts_fit (map fst lo) ->
  all_may_show ops cfg (map snd (all_tokens qs)) e ds e' ->
  Forall2 (fun d x => match d, snd (snd x) with Some d, Some b => good_doc d (f (fst (snd x)) b) 0 | None, None => True | _, _ => False end) ds lo ->
  may_delete lo -> let l := left_over lo in
  exists t ns, quote qs e = Some (e', t) /\ items t = doc_items ns ++ closing (open_levels ops cfg ns) /\
    doc_ok ns = true /\ visible_ends (doc_atoms ops cfg ns) /\
    open_levels ops cfg ns = Z.of_nat (level (line_starts (map fst l))) /\
    (forall n, shown n ns = words_text n (map (fun '(c, (w, b)) => (c, f w b)) l)) /\
    outcome (format_items ops cfg string_writer (items t) (formatter_new [])) = (words_text 0 (map (fun '(c, (w, b)) => (c, f w b)) l), true) /\
    begins ops ns.
Proof.
  intros W M F A G (RM & (x1 & lo1 & EF & PF) & (lo2 & x2 & EL & PL)) l.
  pose proof (all_may_show_length ops cfg _ _ _ _ A) as LL. rewrite map_length in LL. assert (LF : length ds = length lo) by (clear -G; induction G; cbn; congruence).
  destruct (written_first _ _ _ W) as [[Z WS]|(b & q & w & s' & toks & -> & B & WN & TK & W')]; [|change (list N) with str in w].
  { rewrite EF in Z. discriminate. }
  destruct (all_tokens qs) as [|[c x] ts] eqn:AT; [rewrite EF in M; discriminate|]. destruct ds as [|d ds]; [discriminate|]. destruct lo as [|[c0 [w0 b0]] lo]; [discriminate|].
  injection EF as <- <-. cbn [map fst snd] in TK, M. injection TK as EC -> ET. subst c0. injection M as EC M. subst c. cbn [length] in LL, LF. rewrite <- ET in W'.
  destruct (written_lines _ _ _ W' (advance q w) [] (combine (map snd ts) (combine ds lo))) as (more & ls & T1 & T2 & T3 & T4); [constructor|reflexivity|
    rewrite !combine_length, !map_length; lia|]. clear T4.
  set (c := mk_cursor q (advance q w)) in *.
  set (l0 := mk_line_of 0 (p_col q) (the_word q w x, (d, (c, (w, b0)))) more).
  set (all := l0 :: ls).
  assert (MC : map fst (map (fun x : cursor * (str * option (piece LI)) => (fst x, fst (snd x))) lo) = map fst ts).
  { rewrite map_map. cbn [fst]. rewrite M. reflexivity. }
  assert (LX : length (map snd ts) = length (combine ds lo)) by (rewrite combine_length, map_length; lia).
  assert (LT : length (map fst ts) = length (map snd ts)) by (rewrite !map_length; reflexivity).
  rewrite MC in T1, T3. rewrite (comb_fst _ _ LX) in T1.
  assert (CT : combine (map fst ts) (map snd ts) = ts) by (clear; induction ts as [|[a b] ts IH]; [reflexivity|]; cbn; f_equal; exact IH). rewrite CT in T1.
  assert (LN : flat_map words_of all = (the_word q w x, (d, (c, (w, b0)))) :: map snd more ++ flat_map words_of ls) by reflexivity.
  assert (T2' : map (fun y => (sw_leaf (fst y), snd y)) (map snd more ++ flat_map words_of ls) = combine (map snd ts) (combine ds lo)).
  { rewrite <- T2, map_app, map_map. f_equal; [apply map_ext; intros [g y]; reflexivity|]. clear. induction ls as [|l0 ls IH]; [reflexivity|].
    cbn [flat_map]. rewrite map_app, IH. reflexivity. }
  assert (AT' : (c, x) :: ts = word_tokens (p_line q) (map (map_line fst) all)).
  { unfold all, l0. cbn [map map_line ln_empty ln_col ln_word ln_more fst word_tokens]. cbv zeta. rewrite Nat.add_0_r, word_at. fold c. fold (source_more more).
    cbn [the_word sw_leaf]. f_equal. exact T1. }
  assert (WP : map snd (flat_map words_of all) = combine (d :: ds) ((c, (w, b0)) :: lo)).
  { rewrite LN. change (combine (d :: ds) ((c, (w, b0)) :: lo)) with ((d, (c, (w, b0))) :: combine ds lo). cbn [map snd]. f_equal.
    transitivity (map snd (combine (map snd ts) (combine ds lo))); [rewrite <- T2', map_map; reflexivity|apply comb_snd; exact LX]. }
  assert (WL : map sw_leaf (flat_map words_of (map (map_line fst) all)) = x :: map snd ts).
  { rewrite words_map, LN, map_map. cbn [map fst the_word sw_leaf]. f_equal. rewrite <- (comb_fst _ _ LX), <- T2', map_map. reflexivity. }
  set (dl := map (map_line (fun y : src_word LI E * (option doc * (cursor * (str * option (piece LI)))) => fst (snd y))) all).
  assert (WD : flat_map words_of dl = d :: ds).
  { unfold dl. rewrite words_map. transitivity (map fst (map snd (flat_map words_of all))); [rewrite map_map; reflexivity|]. rewrite WP. apply comb_fst. exact LF. }
  assert (WO : map (fun y => snd (snd y)) (flat_map words_of all) = (c, (w, b0)) :: lo).
  { transitivity (map snd (map snd (flat_map words_of all))); [rewrite map_map; reflexivity|]. rewrite WP. apply comb_snd. exact LF. }
  (* the lines of the source *)
  assert (SL : source_lines ((c, (w, b0)) :: lo) = map (map_line (fun y => snd (snd y))) all).
  { set (all' := map (map_line (fun y : src_word LI E * (option doc * (cursor * (str * option (piece LI)))) => (fst y, snd (snd y)))) all).
    assert (X : map (map_line (fun y => snd (snd y))) all = map (map_line snd) all').
    { unfold all'. rewrite map_map. apply map_ext. intros [a1 a2 a3 a4]. unfold map_line. cbn. f_equal. rewrite map_map. apply map_ext. intros [g y]; reflexivity. }
    rewrite X. unfold all', all, l0. cbn [map]. unfold map_line at 2 3. cbn [ln_empty ln_col ln_word ln_more fst snd source_lines].
    set (more' := map (fun '(g, y) => (g, (fst y, snd (snd y)))) more). set (ls' := map (map_line (fun y => (fst y, snd (snd y)))) ls).
    assert (SM : source_more more' = source_more more) by (unfold source_more, more'; rewrite map_map; apply map_ext; intros [g y]; reflexivity).
    assert (SS : map (map_line fst) ls' = map (map_line fst) ls).
    { unfold ls'. rewrite map_map. apply map_ext. intros [a1 a2 a3 a4]. unfold map_line. cbn. f_equal. rewrite map_map. apply map_ext. intros [g y]; reflexivity. }
    assert (LO : lo = map snd (more_at more') ++ flat_map (fun l => map snd (words_of l)) ls').
    { rewrite LN in WO. cbn [map snd] in WO. injection WO as WO. rewrite <- WO at 1. rewrite map_app. f_equal.
      - unfold more_at, more'. rewrite !map_map. apply map_ext. intros [g y]; reflexivity.
      - unfold ls'. clear. induction ls as [|a ls IH]; [reflexivity|]. cbn [flat_map map]. rewrite map_app, IH. f_equal. unfold words_of. cbn. rewrite !map_map. f_equal. apply map_ext. intros [g y]; reflexivity. }
    assert (ML : map fst lo = map fst (row_tokens (advance q w) (source_more more')) ++ map fst (word_tokens (S (p_line (row_end (advance q w) (source_more more')))) (map (map_line fst) ls'))).
    { rewrite SM, SS, <- map_app, <- T1. symmetry. exact M. }
    rewrite LO in ML at 1. rewrite map_app in ML. apply app_inj_length in ML as [ML1 ML2].
    2:{ unfold more_at. rewrite !map_length, row_tokens_length. unfold source_more. rewrite map_length. reflexivity. }
    change (c_end c) with (advance q w). rewrite LO. rewrite (row_lines more' (advance q w) _ [] (map (map_line snd) ls') ML1).
    2:{ apply lines_lines. exact ML2. }
    rewrite app_nil_r. reflexivity. }
  set (both := fun y : src_word LI E * (option doc * (cursor * (str * option (piece LI)))) =>
    match y with (z, (Some d, (c, (w, Some b)))) => Some (z, (d, (c, (w, b)))) | _ => None end).
  set (ol := map (map_line both) all).
  assert (AG : Forall (fun y => match fst (snd y), snd (snd (snd (snd y))) with Some d, Some b => good_doc d (f (fst (snd (snd (snd y)))) b) 0 | None, None => True | _, _ => False end) (flat_map words_of all)).
  { assert (X : Forall (fun z : option doc * (cursor * (str * option (piece LI))) => match fst z, snd (snd (snd z)) with Some d, Some b => good_doc d (f (fst (snd (snd z))) b) 0 | None, None => True | _, _ => False end) (combine (d :: ds) ((c, (w, b0)) :: lo))).
    { clear -G. induction G as [|a b x y H _ IH]; [constructor|]. cbn [combine]. constructor; [exact H|exact IH]. }
    rewrite <- WP in X. apply Forall_map in X. exact X. }
  assert (DLO : dl = map (map_line (option_map (fun z => fst (snd z)))) ol /\
    sparse_lines ((c, (w, b0)) :: lo) = map (map_line (option_map (fun z => snd (snd z)))) ol).
  { unfold sparse_lines. rewrite SL. unfold dl, ol. rewrite !map_map. clear -AG. induction all as [|a all IH]; [split; reflexivity|]. cbn [flat_map] in AG. apply Forall_app in AG as [A1 A2].
    destruct (IH A2) as [I1 I2]. cbn [map]. rewrite I1, I2.
    assert (E1 : forall y, In y (words_of a) -> fst (snd y) = option_map (fun z => fst (snd z)) (both y) /\ present (snd (snd y)) = option_map (fun z => snd (snd z)) (both y)).
    { intros y H. rewrite Forall_forall in A1. specialize (A1 y H). destruct y as [z9 [[d9|] [c9 [w9 [b9|]]]]]; cbn in *; try contradiction; auto. }
    split; f_equal; destruct a as [a1 a2 a3 a4]; unfold map_line; cbn [ln_empty ln_col ln_word ln_more]; rewrite ?map_map; (f_equal; [apply E1; left; reflexivity|]);
      apply map_ext_in; intros [g y] H; cbn; f_equal; apply E1; right; apply in_map_iff; exists (g, y); auto. }
  destruct DLO as [DL PLN].
  assert (RD : removable dl) by (rewrite DL; apply removable_map; rewrite PLN in RM; apply removable_map in RM; exact RM).
  set (kl := kept_lines 0 ol).
  assert (KD : kept_lines 0 dl = map (map_line (fun z => fst (snd z))) kl) by (rewrite DL; apply kept_lines_map).
  assert (HDC : map ln_col dl = line_starts (map fst ((c, x) :: ts))).
  { unfold dl, all, l0. cbn [map map_line ln_col fst line_starts c_start c_end c]. rewrite map_map. cbn [map_line ln_col]. rewrite <- T3. reflexivity. }
  assert (KIN : forall z, In z (flat_map words_of kl) -> In (Some z) (map both (flat_map words_of all))).
  { intros z H. apply in_kept_words in H. unfold ol in H. rewrite words_map in H. exact H. }
  assert (KX : Forall (fun z => good_doc (fst (snd z)) (f (fst (snd (snd (snd z)))) (snd (snd (snd (snd z))))) 0 /\ exists r k, fst (snd (snd z)) = src_cursor r k (fst z)) (flat_map words_of kl)).
  { assert (EX : Forall (fun y : src_word LI E * (option doc * (cursor * (str * option (piece LI)))) => exists r k, fst (snd (snd y)) = src_cursor r k (fst y)) (flat_map words_of all)).
    { assert (X : Forall2 (fun (y : src_word LI E) (k : cursor) => exists r j, k = src_cursor r j y) (map fst (flat_map words_of all)) (map fst ((c, (w, b0)) :: lo))).
      { rewrite <- words_map. assert (Y : map fst ((c, (w, b0)) :: lo) = map fst (word_tokens (p_line q) (map (map_line fst) all))).
        { rewrite <- AT'. cbn [map fst]. rewrite M. reflexivity. }
        rewrite Y. clear. generalize (p_line q) as row. generalize (map (map_line fst) all) as wl.
        induction wl as [|[k col v m] wl IH]; intros row; [constructor|]. cbn [flat_map words_of ln_word ln_more word_tokens map fst app ln_empty ln_col]. cbv zeta.
        constructor; [eauto|]. rewrite map_app. apply Forall2_app; [|apply IH]. generalize (c_end (src_cursor (row + k) col v)) as frm. clear. induction m as [|[g v] m IH]; intros frm; [constructor|].
        cbn. constructor; [eauto|apply IH]. }
      rewrite <- WO, map_map in X. clear -X. induction (flat_map words_of all) as [|y l IH]; [constructor|]. cbn [map] in X. inversion X; subst. constructor; auto. }
    apply Forall_forall. intros z H. apply KIN in H. apply in_map_iff in H as (y & H & I1). rewrite Forall_forall in AG, EX. specialize (AG y I1). specialize (EX y I1).
    destruct y as [z0 [[d0|] [c0 [w1 [b1|]]]]]; cbn in *; try discriminate; try contradiction. injection H as <-. cbn. auto. }
  assert (RA : l = put_lines (p_line q) (map (map_line (fun z => snd (snd z))) kl)).
  { unfold l, left_over. rewrite PLN, kept_lines_map. reflexivity. }
  set (pe := map (map_line (fun z : src_word LI E * (doc * (cursor * (str * piece LI))) => (fst z, snd (snd z)))) kl).
  set (te := map (map_line (fun z : src_word LI E * (doc * (cursor * (str * piece LI))) => (fst z, (fst (snd z), f (fst (snd (snd (snd z)))) (snd (snd (snd (snd z)))))))) kl).
  assert (ML : forall {U V T} (h : U -> V) (k : V -> T) (ul : list (line_of U)), map (map_line k) (map (map_line h) ul) = map (map_line (fun u => k (h u))) ul).
  { clear. intros U V T h k ul. rewrite map_map. apply map_ext. intros [a1 a2 a3 a4]. unfold map_line. cbn. f_equal. rewrite map_map. apply map_ext. intros [g y]; reflexivity. }
  assert (PE : l = put_lines (p_line q) (map (map_line snd) pe)) by (unfold pe; rewrite ML; exact RA).
  destruct (put_lines_tokens pe) with (row := p_line q) as [PT1 PT2].
  { unfold pe. rewrite words_map. apply Forall_map. eapply Forall_impl; [|exact KX]. intros z [_ H]. exact H. }
  rewrite <- PE in PT1, PT2.
  assert (FL : map (map_line fst) pe = map (map_line fst) kl /\ map (map_line fst) te = map (map_line fst) kl).
  { unfold pe, te. rewrite !ML. auto. }
  destruct FL as [FP FT]. rewrite FP in PT1.
  assert (LCOMB : map (fun '(c, (w, b)) => (c, f w b)) l = combine (map fst (word_tokens (p_line q) (map (map_line fst) te))) (map (fun x => snd (snd x)) (flat_map words_of te))).
  { rewrite FT, <- PT1. unfold te. rewrite words_map, map_map. cbn [snd]. unfold pe in PT2. rewrite words_map, map_map in PT2. cbn [snd] in PT2.
    rewrite <- (map_map (fun z : src_word LI E * (doc * (cursor * (str * piece LI))) => snd (snd (snd z))) (fun z => f (fst z) (snd z))), <- PT2. clear.
    induction l as [|[k9 [w9 b9]] l9 IH]; [reflexivity|]. cbn. rewrite IH. reflexivity. }
  assert (TD : map (map_line (fun y => fst (snd y))) te = kept_lines 0 dl) by (rewrite KD; unfold te; rewrite ML; reflexivity).
  assert (FIRST : hd None (flat_map words_of dl) = d) by (rewrite WD; reflexivity).
  assert (DF : exists d1, d = Some d1 /\ begins ops d1).
  { pose proof (pair_head _ _ _ _ _ G) as G1. cbn [fst snd] in G1. cbn [snd] in PF. destruct d as [d1|], b0 as [b1|]; try contradiction; try congruence. exists d1. split; [reflexivity|apply G1]. }
  destruct DF as (d1 & -> & BD).
  assert (DLAST : exists d2, last (flat_map words_of dl) None = Some d2).
  { rewrite WD. rewrite EL in G. apply Forall2_app_inv_r in G as (da & db & _ & G2 & ED). destruct db as [|d2 [|d3 db]]; [inversion G2| |inversion G2 as [|? ? ? ? _ G4]; inversion G4].
    pose proof (pair_head _ _ _ _ _ G2) as G3. rewrite ED, last_last.
    destruct d2 as [d2|]; [eauto|]. destruct (snd (snd x2)); [contradiction|congruence]. }
  destruct DLAST as (d2 & DLAST).
  destruct (silent_render ops cfg qs (p_line q) (map (map_line fst) all) dl e e') as (t & Q & O & CS & D).
  - rewrite AT. exact AT'.
  - intros before col after X NB. apply (F before col after); [|exact NB]. rewrite <- X. change (map fst ((c, (w, b0)) :: lo)) with (c :: map fst lo). rewrite <- M.
    change (c :: map fst ts) with (map fst ((c, x) :: ts)). rewrite <- HDC. unfold dl. rewrite !map_map. reflexivity.
  - split; [unfold dl; rewrite !ML; reflexivity|]. rewrite WL, WD. exact A.
  - exact RD.
  - destruct (D d1 d2 FIRST DLAST) as (k & ks & KE & ns & N1 & N2 & N3 & N4 & N5 & N6). exists t, ns.
    split; [exact Q|]. split; [exact N1|]. split; [exact N2|]. split; [exact N3|].
    assert (OKE : Forall entry_ok (flat_map words_of te)).
    { unfold te. rewrite words_map. apply Forall_map. eapply Forall_impl; [|exact KX]. intros z [(_ & H & _) _] n. cbn [fst snd]. apply H. }
    clearbody te. destruct te as [|te0 tes] eqn:TE; [rewrite KE in TD; discriminate|]. rewrite KE in TD. cbn [map] in TD. injection TD as TD1 TD2.
    assert (COL : ln_col te0 = ln_col k) by (rewrite <- TD1; reflexivity).
    assert (TX : forall n, text nl (shown_line ops cfg (Z.of_nat n) k ++ shown_from ops cfg (Z.of_nat n) [ln_col k] ks) = words_text n (map (fun '(c, (w, b)) => (c, f w b)) l)).
    { intros n. rewrite LCOMB, <- TD1, <- TD2. cbn [map_line ln_col]. apply (entries_text te0 tes (p_line q) n OKE). }
    split.
    { rewrite N5, PT1, tokens_line_starts. f_equal.
      assert (KC : map ln_col (map (map_line fst) kl) = map ln_col (kept_lines 0 dl)) by (rewrite KD, !map_map; reflexivity). rewrite KC.
      eapply kept_levels; [apply RD|exact FIRST|exact DLAST]. }
    split; [intros n; rewrite N6; exact (TX n)|]. split.
    { rewrite O. f_equal. rewrite <- (TX 0). rewrite KE. cbn [shown_lines app level Z.of_nat Nat.add]. rewrite shown_from_0.
      f_equal. replace (pad ind 0) with (@nil sym) by (unfold pad; destruct ind; cbn; rewrite ?Nat.mul_0_r; reflexivity). reflexivity. }
    destruct (CS d1 FIRST BD) as (z & rest & IT & BZ). destruct (first_item ops cfg ns _ N2 eq_refl N3) as (y & r & DI & _).
    exists y, r. split; [exact DI|]. rewrite N1, DI in IT. injection IT as -> _. exact BZ.
Qed.
End Assembled.

(** ** Values *)
Lemma value_parts {LI} : forall (v : value LI) s, value_text v = Some s -> exists i, parts v = [Literal i] /\ content i = s.
Proof.
  fix IH 1. intros [b|x|i|s'|br s'|s'|z|s'|vs|br vs|[v|]|v|l|r|cs] s H; cbn in H; try discriminate; try (injection H as <-; eexists; split; reflexivity).
  apply IH in H. exact H.
Qed.
Lemma imports_bare {LI} (a b : list (item LI)) : map (@HistoryFacts.erase LI) a = map (@HistoryFacts.erase LI) b -> imports_of a = imports_of b.
Proof.
  revert b. induction a as [|x a IH]; intros [|y b] H; try discriminate; [reflexivity|]. cbn [map] in H. injection H as X H. unfold imports_of. cbn [flat_map].
  f_equal; [clear -X; destruct x, y; try discriminate X; try reflexivity; cbn in X |- *; injection X; intros; subst; reflexivity|apply IH; exact H].
Qed.
Lemma begins_bare {LI} (fmt : LI -> list str) (x y : item LI) : HistoryFacts.erase x = HistoryFacts.erase y -> begins_text fmt x -> begins_text fmt y.
Proof. destruct x, y; cbn; intros H B; try discriminate H; try (injection H as ->); auto; try (injection H as _ ->); auto. Qed.

(** ** Separators *)
Section Separators.
Context {LI E : Type} (ops : lang_ops LI) (cfg : config).
Notation doc := (list (node LI)). Notation quoted := (quoted_item LI E).
Notation nl := (c_newline cfg). Notation ind := (c_indentation cfg).
Definition separates (sa : list atom) (sep : separator) : Prop := forall (n : nat) a l, visible_ends a ->
  exists o, text nl o = separator_text nl ind n sep /\
  layout_from ind false (Z.of_nat n) [] (sa ++ a ++ l) = o ++ layout_from ind false (Z.of_nat n) [] a ++ layout_from ind false (Z.of_nat n + net a)%Z [] l.
Definition control_atoms (k : option control) : list atom :=
  match k with None => [] | Some KSpace => [ASpace] | Some KPush => [APush] | Some KLine => [ALine] end.
Lemma controls_separate k n a l : visible_ends a -> exists o, text nl o = match k with Some k => control_text nl ind n k | None => [] end /\
  layout_from ind false (Z.of_nat n) [] (control_atoms k ++ a ++ l) = o ++ layout_from ind false (Z.of_nat n) [] a ++ layout_from ind false (Z.of_nat n + net a)%Z [] l.
Proof.
  intros V. assert (A : exists j, asks (control_atoms k) 0 j /\ j = match k with None => Beside 0 | Some KSpace => Beside 1 | Some KPush => Below | Some KLine => Apart end).
  { destruct k as [[]|]; eexists; (split; [constructor|reflexivity]). }
  destruct A as (j & A & ->). pose proof (joint_layout cfg _ 0 _ (Z.of_nat n) a l A V) as J. rewrite Z.add_0_r in J. rewrite J. clear J A.
  eexists. split; [|reflexivity]. destruct k as [[]|]; try reflexivity; cbn [control_text]; unfold new_line_at; rewrite text_app, pad_text, text_chars; cbn; rewrite ?app_nil_r, <- ?app_assoc; reflexivity.
Qed.
Lemma text_separates b w k : w <> [] -> separates ((if b : bool then [ASpace] else []) ++ [AText w] ++ control_atoms k) (mk_separator b w k).
Proof.
  intros N n a l V. assert (VW : visible_ends [AText w]).
  { split; [exists (AText w), []|exists [], (AText w)]; (split; [reflexivity|]); destruct w; congruence || reflexivity. }
  destruct (controls_separate k n a l V) as (o & T & O).
  assert (A : asks (if b then [ASpace] else []) 0 (Beside (if b then 1 else 0))) by (destruct b; constructor).
  pose proof (joint_layout cfg _ 0 _ (Z.of_nat n) [AText w] (control_atoms k ++ a ++ l) A VW) as J. rewrite Z.add_0_r in J. cbn [net a_indent] in J. rewrite !Z.add_0_r in J.
  rewrite <- !app_assoc. rewrite J, O. eexists ((if b then [Ch 32] else []) ++ map Ch w ++ o). split.
  - unfold separator_text. cbn [s_space s_text s_then]. rewrite !text_app, text_chars, T. destruct b; reflexivity.
  - destruct w as [|c w]; [congruence|]. cbn [layout_from a_text]. destruct b; cbn; rewrite ?app_nil_r, <- ?app_assoc; reflexivity.
Qed.
Lemma separator_docs join sep : @separated LI E join sep -> exists s : doc,
  (forall body bs e ds e', bodies_show ops cfg body bs e ds e' -> ds <> [] -> Forall (fun d => open_levels ops cfg d = 0%Z) ds ->
     rounds_show ops cfg join body bs e (intersperse s ds) e') /\
  imports_of (doc_items s) = [] /\ separates (doc_atoms ops cfg s) sep.
Proof.
  intros S. assert (J : forall paren (js : list quoted) its t, (forall e, quote (in_parens (Some paren) js) e = Some (e, t)) -> items t = its -> forallb SpecFmt.plain its = true ->
    open_levels ops cfg (map NItem its) = 0%Z -> forall body bs e ds e', bodies_show ops cfg body bs e ds e' -> ds <> [] -> Forall (fun d => open_levels ops cfg d = 0%Z) ds ->
     rounds_show ops cfg (Some (paren, js)) body bs e (intersperse (map NItem its) ds) e').
  { intros paren js its t Q IT P O body bs e ds e' B N F. apply (rounds_joined ops cfg body paren js (map NItem its) t Q); auto; [rewrite items_nodes; exact IT|].
    clear -P. unfold doc_ok. induction its as [|x its IH]; [reflexivity|]. cbn in *. apply andb_true_iff in P as [P1 P2]. rewrite P1. apply IH, P2. }
  destruct S as [|r c c' k H|r c c1 c' w H1 H2 N|r c c1 c' w k H1 H2 N].
  - exists []. split; [|split; [reflexivity|]].
    + intros body bs e ds e' B N F. assert (X : intersperse [] ds = closed_after ops cfg ds).
      { clear -F. induction F as [|d ds H F IH]; [reflexivity|]. destruct ds as [|d' ds]; [reflexivity|].
        change (intersperse [] (d :: d' :: ds)) with (d :: [] :: intersperse [] (d' :: ds)). cbn [closed_after] in *. rewrite H, <- IH. reflexivity. }
      rewrite X. apply rounds_plain; assumption.
    + exact (controls_separate None).
  - assert (X : exists t, (forall e, quote (in_parens (Some (mk_cursor (mk_pos r c) (mk_pos r c'))) [@QControl LI E (mk_cursor (mk_pos r (c + 1)) (mk_pos r (c' - 1))) k]) e = Some (e, t)) /\
       items t = [match k with KSpace => Space | KPush => Push | KLine => Line end]).
    { quoted. all: destruct k. all: cbn - [length]; eexists; repeat split; rewrite ?app_nil_r; reflexivity. }
    destruct X as (t & Q & IT). exists (map NItem [match k with KSpace => Space | KPush => Push | KLine => Line end]).
    split; [apply (J _ _ _ _ Q IT); destruct k; reflexivity|]. split; [destruct k; reflexivity|].
    replace (doc_atoms ops cfg _) with (control_atoms (Some k)) by (destruct k; reflexivity). exact (controls_separate (Some k)).
  - assert (X : exists t, (forall e, quote (in_parens (Some (mk_cursor (mk_pos r c) (mk_pos r c'))) [@QText LI E (mk_cursor (mk_pos r c1) (mk_pos r (c1 + length w))) w]) e = Some (e, t)) /\
       items t = (if c + 1 <? c1 then [Space] else []) ++ [Literal (Static w)] ++ (if c1 + length w <? c' - 1 then [Space] else [])).
    { destruct w as [|x w]; [congruence|]. set (w0 := x :: w) in *. quoted. all: cbn - [length]; eexists; repeat split; rewrite ?app_nil_r; reflexivity. }
    destruct X as (t & Q & IT). eexists (map NItem _).
    split; [apply (J _ _ _ _ Q IT); destruct (c + 1 <? c1), (c1 + length w <? c' - 1); reflexivity|].
    split; [destruct (c + 1 <? c1), (c1 + length w <? c' - 1); reflexivity|].
    replace (doc_atoms ops cfg _) with ((if c + 1 <? c1 then [ASpace] else []) ++ [AText w] ++ control_atoms (if c1 + length w <? c' - 1 then Some KSpace else None))
      by (destruct (c + 1 <? c1), (c1 + length w <? c' - 1); reflexivity).
    apply text_separates. exact N.
  - assert (X : exists t, (forall e, quote (in_parens (Some (mk_cursor (mk_pos r c) (mk_pos r c'))) [@QText LI E (mk_cursor (mk_pos r c1) (mk_pos r (c1 + length w))) w;
         QControl (mk_cursor (mk_pos r (c1 + length w)) (mk_pos r (c' - 1))) k]) e = Some (e, t)) /\
       items t = (if c + 1 <? c1 then [Space] else []) ++ [Literal (Static w)] ++ [match k with KSpace => Space | KPush => Push | KLine => Line end]).
    { destruct w as [|x w]; [congruence|]. set (w0 := x :: w) in *. quoted. all: destruct k. all: cbn - [length]; eexists; repeat split; rewrite ?app_nil_r; reflexivity. }
    destruct X as (t & Q & IT). eexists (map NItem _).
    split; [apply (J _ _ _ _ Q IT); destruct (c + 1 <? c1), k; reflexivity|].
    split; [destruct (c + 1 <? c1), k; reflexivity|].
    replace (doc_atoms ops cfg _) with ((if c + 1 <? c1 then [ASpace] else []) ++ [AText w] ++ control_atoms (Some k)) by (destruct (c + 1 <? c1), k; reflexivity).
    apply text_separates. exact N.
Qed.
(** Rounds and separators. *)
Lemma rounds_layout (s : doc) sep n : separates (doc_atoms ops cfg s) sep -> forall ds d, 
  Forall (fun d => visible_ends (doc_atoms ops cfg d) /\ open_levels ops cfg d = 0%Z) (d :: ds) ->
  text nl (layout_from ind false (Z.of_nat n) [] (doc_atoms ops cfg (concat (intersperse s (d :: ds))))) =
  join (separator_text nl ind n sep) (map (fun d => text nl (shown_at ops cfg (Z.of_nat n) d)) (d :: ds)).
Proof.
  intros SP ds d F. rewrite joined_atoms. revert d F. induction ds as [|d' ds IH]; intros d F.
  - cbn [flat_map map join]. rewrite app_nil_r. reflexivity.
  - inversion F as [|? ? [V1 O1] F']; subst. inversion F' as [|? ? [V2 O2] _]; subst. cbn [flat_map]. rewrite <- app_assoc.
    rewrite app_visible by exact V1. unfold open_levels in O1. rewrite O1. cbn [net]. rewrite !Z.add_0_r.
    destruct (SP n (doc_atoms ops cfg d') (flat_map (fun d => doc_atoms ops cfg s ++ doc_atoms ops cfg d) ds) V2) as (o & T & L). rewrite L.
    unfold open_levels in O2. rewrite !text_app, T. change (map ?f (d :: d' :: ds)) with (f d :: map f (d' :: ds)).
    change (join ?a (?x :: map ?f (d' :: ds))) with (x ++ a ++ join a (map f (d' :: ds))). rewrite <- (IH d' F').
    rewrite app_visible by exact V2. rewrite text_app, !app_assoc. cbn [net]. rewrite Z.add_0_r. reflexivity.
Qed.
(** Rounds that end deeper than they start. *)
Definition break_items (its : list (item LI)) (sep : separator) : Prop :=
  its = [] /\ sep = mk_separator false [] (Some KPush) \/ its = [Push] /\ sep = mk_separator false [] (Some KPush) \/ its = [Line] /\ sep = mk_separator false [] (Some KLine).
Lemma closed_with_nil (ds : list doc) : closed_with ops cfg [] ds = closed_after ops cfg ds.
Proof. induction ds as [|d ds IH]; [reflexivity|]. destruct ds as [|d2 ds]; [reflexivity|]. rewrite closed_with_cons, IH, app_nil_r. reflexivity. Qed.
Lemma break_docs join sep : @breaks LI E join sep -> exists its, break_items its sep /\
  forall body bs e ds e', bodies_show ops cfg body bs e ds e' -> ds <> [] -> Forall (fun d => open_levels ops cfg d <> 0%Z) ds ->
    rounds_show ops cfg join body bs e (closed_with ops cfg its ds) e'.
Proof.
  intros [|r c c' k H K].
  - exists []. split; [left; auto|]. intros body bs e ds e' B N _. rewrite closed_with_nil. apply rounds_plain; assumption.
  - assert (X : exists t, (forall e, quote (in_parens (Some (mk_cursor (mk_pos r c) (mk_pos r c'))) [@QControl LI E (mk_cursor (mk_pos r (c + 1)) (mk_pos r (c' - 1))) k]) e = Some (e, t)) /\
       items t = [match k with KSpace => Space | KPush => Push | KLine => Line end]).
    { quoted. all: destruct k. all: cbn - [length]; eexists; repeat split; rewrite ?app_nil_r; reflexivity. }
    assert (M : forall e : E, fst (quote_mean (in_parens (Some (mk_cursor (mk_pos r c) (mk_pos r c'))) [@QControl LI E (mk_cursor (mk_pos r (c + 1)) (mk_pos r (c' - 1))) k]) e) =
       [match k with KSpace => Space | KPush => Push | KLine => Line end]).
    { intros e. unfold quote_mean, in_parens. cbn - [Nat.ltb Nat.eqb Nat.add Nat.sub].
      unfold put, enter_chunks, enter, adjacent, gap; cbn - [Nat.ltb Nat.eqb Nat.add Nat.sub]. rewrite ?Nat.eqb_refl, ?Nat.ltb_irrefl; cbn - [Nat.ltb Nat.eqb Nat.add Nat.sub].
      rewrite ?Nat.eqb_refl, ?Nat.ltb_irrefl; cbn - [Nat.ltb Nat.eqb Nat.add Nat.sub]. reflexivity. }
    destruct X as (t & Q & _). exists [match k with KSpace => Space | KPush => Push | KLine => Line end].
    split; [unfold break_items; destruct k; [congruence|right; left|right; right]; auto|]. intros body bs e ds e' B N D. apply (rounds_deeper ops cfg body _ _ _ t); [exact Q|exact M|destruct k; [congruence|left|right]; reflexivity|exact B|exact N|exact D].
Qed.
Lemma closing_atoms k : k <> 0%Z -> doc_atoms ops cfg (map NItem (closing k)) = [AIndent (- k)].
Proof. intros K. unfold closing. destruct (Z.eqb_spec k 0); [congruence|]. reflexivity. Qed.
Lemma split_visible a l lvl : visible_ends a ->
  layout_from ind false lvl [] (a ++ l) = layout_from ind false lvl [] a ++ layout_from ind false (lvl + net a)%Z [] l.
Proof. intros V. rewrite app_visible by exact V. change (net []) with 0%Z. rewrite Z.add_0_r. reflexivity. Qed.
Lemma blocks_layout its sep n : break_items its sep -> forall ds d, Forall (fun d => visible_ends (doc_atoms ops cfg d) /\ open_levels ops cfg d <> 0%Z) (d :: ds) ->
  text nl (layout_from ind false (Z.of_nat n) [] (doc_atoms ops cfg (concat (closed_with ops cfg its (d :: ds))))) =
  join (separator_text nl ind n sep) (map (fun d => text nl (shown_at ops cfg (Z.of_nat n) d)) (d :: ds)).
Proof.
  intros BI. induction ds as [|d2 ds IH]; intros d F.
  - cbn [closed_with concat map join]. rewrite app_nil_r. reflexivity.
  - inversion F as [|? ? [V1 O1] F']; subst. inversion F' as [|? ? [V2 O2] _]; subst. specialize (IH d2 F').
    rewrite closed_with_cons, !atoms_concat, map_app.
    replace (doc_atoms ops cfg (map NItem (closing (open_levels ops cfg d)) ++ map NItem its)) with ([AIndent (- open_levels ops cfg d)] ++ doc_atoms ops cfg (map NItem its))
      by (unfold doc_atoms; rewrite flat_map_app; f_equal; symmetry; apply closing_atoms; exact O1).
    assert (R : exists rest, doc_atoms ops cfg (concat (closed_with ops cfg its (d2 :: ds))) = doc_atoms ops cfg d2 ++ rest) by (cbn [closed_with]; rewrite atoms_concat; eauto).
    destruct R as (rest & R). rewrite R in *. rewrite split_visible by exact V1.
    assert (A : exists j, asks ([AIndent (- open_levels ops cfg d)] ++ doc_atoms ops cfg (map NItem its)) (open_levels ops cfg d) j /\
      match s_then sep with Some KLine => j = Apart | _ => j = Below end /\ separator_text nl ind n sep = (match j with Apart => nl | _ => [] end) ++ new_line_at nl ind n).
    { destruct BI as [(-> & ->)|[(-> & ->)|(-> & ->)]]; cbn [map doc_atoms flat_map node_atoms atoms_of app s_then]; eexists; (split; [constructor; exact O1|]); split; reflexivity. }
    destruct A as (j & A & SJ & ST).
    pose proof (joint_layout cfg _ _ _ (Z.of_nat n) (doc_atoms ops cfg d2) rest A V2) as J. unfold open_levels in J at 1. rewrite J. clear J.
    rewrite <- (split_visible (doc_atoms ops cfg d2) rest _ V2).
    change (map ?f (d :: d2 :: ds)) with (f d :: map f (d2 :: ds)). change (join ?a (?x :: map ?f (d2 :: ds))) with (x ++ a ++ join a (map f (d2 :: ds))).
    rewrite <- IH, ST, !text_app. unfold shown_at, new_line_at.
    assert (JJ : j = Below \/ j = Apart) by (destruct (s_then sep) as [[| |]|]; auto).
    destruct JJ as [->| ->]; rewrite ?text_app, pad_text, ?text_chars; cbn; rewrite ?app_nil_r, <- ?app_assoc; reflexivity.
Qed.
Lemma blocks_imports its sep (ds : list doc) : break_items its sep -> imports_of (doc_items (concat (closed_with ops cfg its ds))) = flat_map (fun d => imports_of (doc_items d)) ds.
Proof.
  intros BI. induction ds as [|d ds IH]; [reflexivity|]. destruct ds as [|d2 ds]; [cbn; rewrite !app_nil_r; reflexivity|]. rewrite closed_with_cons. cbn [concat flat_map].
  unfold doc_items in *. rewrite !flat_map_app, !imports_app, IH. cbn [flat_map]. f_equal. rewrite map_app, flat_map_app, imports_app. unfold closing. destruct (Z.eqb _ _), BI as [(-> & _)|[(-> & _)|(-> & _)]]; reflexivity.
Qed.
End Separators.

(** ** Pieces and programs *)
Scheme stands_min := Minimality for stands_for Sort Prop
  with all_min := Minimality for all_stand Sort Prop
  with all_may_min := Minimality for all_may_stand Sort Prop
  with quotes_min := Minimality for quotes_program Sort Prop
  with rounds_min := Minimality for quotes_rounds Sort Prop.
Combined Scheme assembled_ind from stands_min, all_min, all_may_min, quotes_min, rounds_min.

Section Pieces.
Context {LI E : Type} (ops : lang_ops LI) (cfg : config).
Notation doc := (list (node LI)). Notation quoted := (quoted_item LI E).
Notation nl := (c_newline cfg). Notation ind := (c_indentation cfg).
Hypothesis OQ : l_open_quote ops false = [[34%N]].
Hypothesis CQ : l_close_quote ops false = [[34%N]].
Notation rt := (fun i => concat (l_format_item ops i)).
Notation ptext := (piece_text nl ind (written_literal ops) rt).
Notation prog := (program_text nl ind (written_literal ops) rt).
Notation visible us := (Forall (fun i => visible_ends (texts (l_format_item ops i))) us).

Lemma inline_good d s : inline ops cfg d -> visible_ends (doc_atoms ops cfg d) -> string_of ops cfg d = s -> begins ops d -> good_doc ops cfg d (fun _ => s) 0.
Proof.
  intros IN V S B. split; [apply inline_closed; exact IN|]. split; [|exact B]. intros n. cbv beta. rewrite (inline_shown ops cfg) by assumption. rewrite text_chars. exact S.
Qed.
Lemma quoted_doc (i : item_str) : let d := [NString false [PItem (Literal i)]] in
  doc_atoms ops cfg d = texts ([[34%N]] ++ l_write_quoted ops (content i) ++ [[34%N]]).
Proof. cbn. rewrite OQ, CQ, !app_nil_r. cbn. f_equal. symmetry. apply map_app. Qed.
Lemma show_imports (x : leaf LI E) e d e' : shows ops cfg x e d e' -> leaf_imports x e = (imports_of (doc_items d), e').
Proof.
  destruct x as [s|x]; intros [S _]; [destruct S as [-> ->]; reflexivity|]. destruct S as [(t & Q & IT) _]. destruct (quote_runs _ _ _ _ Q) as (its & M & T & _).
  unfold leaf_imports. rewrite M. cbn [fst snd]. f_equal. assert (X : imports_of (items t) = imports_of its).
  { rewrite T. unfold from_iter. rewrite extend_imports. reflexivity. }
  rewrite <- X, IT, imports_app. unfold closing. destruct (Z.eqb _ _); cbn; rewrite app_nil_r; reflexivity.
Qed.
Lemma nothing_hides (x : leaf LI E) e e' : stands_for_nothing x e e' -> hides x e e'.
Proof.
  intros H. destruct H as [c code v e e' H1 H2|c cond a e e' H1 H2|c it sep body e e' H1 H2|c f e|c f e].
  - eapply C72_empty_value; eauto.
  - apply C72_false; assumption.
  - apply C72_no_elements; assumption.
  - apply C72_bindings.
  - apply C72_bindings.
Qed.
Lemma hides_imports (x : leaf LI E) e e' : hides x e e' -> leaf_imports x e = ([], e').
Proof.
  destruct x as [s|x]; intros H; [destruct H|]. destruct H as ((t & Q) & M). destruct (quote_runs _ _ _ _ Q) as (its & M' & _).
  unfold leaf_imports. rewrite M' in *. cbn [fst snd] in *. subst its. reflexivity.
Qed.
Definition sparse_imports (l : sparse LI) : list LI := flat_map (fun x => match snd (snd x) with Some b => piece_imports b | None => [] end) l.
Lemma kept_imports {A} (h : A -> list LI) ws : forall k, flat_map (fun x => h (snd x)) (kept k ws) = flat_map (fun x => match snd x with Some w => h w | None => [] end) ws.
Proof. induction ws as [|[g [w|]] ws IH]; intros k; [reflexivity| |]; cbn; rewrite IH; reflexivity. Qed.
Lemma kept_line_imports {A} (h : A -> list LI) (l : line_of (option A)) :
  flat_map (fun w => match w with Some w => h w | None => [] end) (words_of l) = match kept_line l with Some l' => flat_map h (words_of l') | None => [] end.
Proof.
  unfold kept_line. change (words_of l) with (map snd (line_words l)). rewrite flat_map_concat_map, map_map, <- flat_map_concat_map.
  pose proof (kept_imports h (line_words l) 0) as K. rewrite <- K. destruct (kept 0 (line_words l)) as [|[g w] m]; [reflexivity|].
  cbn [flat_map snd words_of ln_word ln_more]. f_equal. rewrite (flat_map_concat_map h), map_map, <- flat_map_concat_map. reflexivity.
Qed.
Lemma kept_lines_imports {A} (h : A -> list LI) (ls : list (line_of (option A))) : forall k,
  flat_map h (flat_map words_of (kept_lines k ls)) = flat_map (fun w => match w with Some w => h w | None => [] end) (flat_map words_of ls).
Proof.
  induction ls as [|l ls IH]; intros k; [reflexivity|]. cbn [kept_lines flat_map]. rewrite flat_map_app, kept_line_imports. destruct (kept_line l) as [l'|]; [|apply IH].
  cbn [flat_map]. rewrite flat_map_app, IH. reflexivity.
Qed.
Lemma put_row_words {X} (m : list (nat * (cursor * X))) : forall p, map snd (put_row p m) = map (fun y => snd (snd y)) m.
Proof. induction m as [|[g [c x]] m IH]; intros p; [reflexivity|]. cbn. rewrite IH. reflexivity. Qed.
Lemma put_words {X} (ls : list (line_of (cursor * X))) : forall row, map snd (put_lines row ls) = map snd (flat_map words_of ls).
Proof.
  induction ls as [|[k col [c x] m] ls IH]; intros row; [reflexivity|]. cbn [put_lines flat_map words_of ln_word ln_more ln_empty ln_col map snd app]. cbv zeta. rewrite !map_app, IH, put_row_words.
  rewrite map_map. reflexivity.
Qed.
Lemma after_words {X} (l : list (cursor * X)) : forall p, let (more, ls) := lines_after p l in map snd more ++ flat_map words_of ls = l.
Proof.
  induction l as [|[c x] l IH]; intros p; [reflexivity|]. cbn [lines_after]. specialize (IH (c_end c)). destruct (lines_after (c_end c) l) as [more ls].
  destruct (_ =? _); cbn; rewrite IH; reflexivity.
Qed.
Lemma source_words {X} (l : list (cursor * X)) : flat_map words_of (source_lines l) = l.
Proof.
  destruct l as [|[c x] l]; [reflexivity|]. cbn [source_lines]. pose proof (after_words l (c_end c)) as H. destruct (lines_after (c_end c) l) as [more ls]. cbn. rewrite H. reflexivity.
Qed.
Lemma left_over_imports (l : sparse LI) : program_imports (left_over l) = sparse_imports l.
Proof.
  destruct l as [|[c x] l]; [reflexivity|]. unfold left_over. set (l0 := (c, x) :: l). unfold program_imports.
  assert (X : forall (p : program LI), flat_map (fun y => piece_imports (snd (snd y))) p = flat_map (fun y => piece_imports (snd y)) (map snd p)).
  { induction p as [|y p IH]; [reflexivity|]. cbn. rewrite IH. reflexivity. }
  rewrite X, put_words, <- X, (kept_lines_imports (fun y : cursor * (str * piece LI) => piece_imports (snd (snd y)))). unfold sparse_lines. rewrite words_map, source_words.
  unfold sparse_imports. clearbody l0. clear. induction l0 as [|[c [w [b|]]] l0 IH]; cbn; rewrite ?IH; reflexivity.
Qed.
Lemma all_imports (ts : list (cursor * leaf LI E)) : forall e ds e', all_show ops cfg (map snd ts) e ds e' ->
  leaves_imports ts e = (flat_map (fun d => imports_of (doc_items d)) ds, e').
Proof.
  induction ts as [|[c x] ts IH]; intros e [|d ds] e' A; cbn in A; try contradiction; [subst; reflexivity|].
  destruct A as (e1 & A1 & A2). cbn [leaves_imports flat_map]. rewrite (show_imports _ _ _ _ A1), (IH _ _ _ A2). reflexivity.
Qed.
Definition piece_of (x : cursor * (str * piece LI)) : nat -> str := ptext (fst (snd x)) (snd (snd x)).
Definition depth_of (x : cursor * (str * piece LI)) : nat := piece_depth (snd (snd x)).
Lemma shallow (ts : list (cursor * leaf LI E)) e l e' : all_may_stand ts e l e' -> Forall (fun x => match snd (snd x) with Some b => piece_depth b = 0 | None => True end) l.
Proof. induction 1; constructor; cbn; auto. Qed.
Lemma left_over_depth (l : sparse LI) : Forall (fun x => match snd (snd x) with Some b => piece_depth b = 0 | None => True end) l ->
  program_depth (left_over l) = level (line_starts (map fst (left_over l))).
Proof.
  intros F. unfold program_depth. cbn [piece_depth]. assert (X : Forall (fun k => k = 0) (map (fun y => piece_depth (snd (snd y))) (left_over l))).
  { destruct l as [|[c y] l]; [constructor|]. unfold left_over. set (kl := kept_lines 0 (sparse_lines ((c, y) :: l))).
    rewrite <- (map_map snd (fun y => piece_depth (snd y))), put_words, map_map. apply Forall_map, Forall_forall. intros z Z. apply in_kept_words in Z.
    unfold sparse_lines in Z. rewrite words_map, source_words in Z. apply in_map_iff in Z as ([c0 [w0 [b0|]]] & E0 & I0); cbn in E0; [|discriminate]. injection E0 as <-.
    rewrite Forall_forall in F. exact (F _ I0). }
  assert (Y : last (map (fun y => piece_depth (snd (snd y))) (left_over l)) 0 = 0); [|rewrite Y; apply Nat.add_0_r].
  clear F. induction X as [|k ks K _ IH]; [reflexivity|]. destruct ks; [exact K|exact IH].
Qed.
Lemma prog_combine n (l : program LI) : prog n l = words_text nl ind n (combine (map fst l) (map piece_of l)).
Proof. unfold program_text. f_equal. induction l as [|[c [w x]] l IH]; [reflexivity|]. cbn [map combine fst]. rewrite IH. reflexivity. Qed.
Lemma doc_items_app (a b : doc) : doc_items (a ++ b) = doc_items a ++ doc_items b.
Proof. apply flat_map_app. Qed.

Definition quote_good (qs : list quoted) e l e' : Prop :=
  exists ns, quote_shows ops cfg qs e ns e' /\ open_levels ops cfg ns = Z.of_nat (program_depth l) /\
    (forall n, text nl (shown_at ops cfg (Z.of_nat n) ns) = prog n l) /\ begins ops ns /\ imports_of (doc_items ns) = program_imports l /\
    forall t, quote qs e = Some (e', t) -> outcome (format_items ops cfg string_writer (items t) (formatter_new [])) = (prog 0 l, true) /\ text_first ops t.

Lemma assembled :
  (forall c x e w b e', @stands_for LI E c x e w b e' -> w <> [] -> visible (piece_imports b) ->
     exists d, shows ops cfg x e d e' /\ good_doc ops cfg d (ptext w b) (piece_depth b) /\ imports_of (doc_items d) = piece_imports b) /\
  (forall ts e l e', @all_stand LI E ts e l e' -> Forall (fun x => fst (snd x) <> []) l -> visible (program_imports l) ->
     map fst ts = map fst l /\ exists ds, all_show ops cfg (map snd ts) e ds e' /\ Forall2 (fun d fk => good_doc ops cfg d (fst fk) (snd fk)) ds (combine (map piece_of l) (map depth_of l)) /\
       flat_map (fun d => imports_of (doc_items d)) ds = program_imports l) /\
  (forall ts e l e', @all_may_stand LI E ts e l e' -> Forall (fun x => fst (snd x) <> []) l -> visible (sparse_imports l) ->
     map fst ts = map fst l /\ exists ds, all_may_show ops cfg (map snd ts) e ds e' /\
       Forall2 (fun d x => match d, snd (snd x) with Some d, Some b => good_doc ops cfg d (ptext (fst (snd x)) b) 0 | None, None => True | _, _ => False end) ds l /\
       fst (leaves_imports ts e) = sparse_imports l /\ snd (leaves_imports ts e) = e') /\
  (forall qs e l e', @quotes_program LI E qs e l e' -> l <> [] -> visible (program_imports l) -> quote_good qs e l e') /\
  (forall body bs e ls e', @quotes_rounds LI E body bs e ls e' -> visible (flat_map program_imports ls) ->
     exists ds, bodies_show ops cfg body bs e ds e' /\ Forall2 (fun d l => good_doc ops cfg d (fun n => prog n l) (program_depth l)) ds ls /\
       flat_map (fun d => imports_of (doc_items d)) ds = flat_map program_imports ls).
Proof.
  apply assembled_ind.
  - intros c w e W V. exists [NItem (Literal (Static w))]. destruct (text_string ops cfg w) as [I1 I2]. pose proof (text_shows ops cfg w e W) as SH.
    split; [exact SH|]. split; [|reflexivity]. apply inline_good; auto; [apply SH|]. eexists _, _. split; [reflexivity|exact W].
  - intros c v w e W V. exists (literal_doc v). pose proof (literal_string ops cfg v OQ CQ) as AT. pose proof (texts_inline _ _ _ _ AT) as [I1 I2].
    pose proof (@literal_shows LI E ops cfg c v e OQ CQ) as SH. split; [exact SH|]. split; [|reflexivity].
    apply inline_good; [exact I1|apply SH| |eexists _, _; split; [reflexivity|exact I]]. rewrite I2. unfold written_literal. rewrite !concat_app. cbn. reflexivity.
  - intros c code v s w e e' CE VT W V. destruct (value_parts v s VT) as (i & P & <-). pose proof (quoted_doc i) as AT. cbv zeta in AT.
    set (d := [NString false [PItem (Literal i)]]) in *. pose proof (texts_inline _ _ _ _ AT) as [I1 I2]. exists d.
    assert (SH : shows ops cfg (LOther (QEval c code)) e d e').
    { eapply (eval_shows ops cfg c code e (VQuoted v) e' d _ _ CE); [cbn [parts]; rewrite P; reflexivity|reflexivity| |reflexivity| |rewrite (inline_closed _ _ _ I1); lia].
      - rewrite (inline_closed _ _ _ I1). cbn [parts]. rewrite P. reflexivity.
      - rewrite AT. split; [exists (AText [34%N]), (texts (l_write_quoted ops (content i) ++ [[34%N]]))|exists (texts ([[34%N]] ++ l_write_quoted ops (content i))), (AText [34%N])];
          (split; [|reflexivity]); [reflexivity|]. rewrite app_assoc. unfold texts. rewrite map_app. reflexivity. }
    split; [exact SH|]. split; [|reflexivity]. apply inline_good; [exact I1|apply SH| |eexists _, _; split; [reflexivity|exact I]].
    rewrite I2. unfold written_literal. rewrite !concat_app. cbn. reflexivity.
  - intros c code v s w e e' CE VT NE W V. destruct (value_parts v s VT) as (i & P & <-). exists [NItem (Literal i)].
    assert (AT : doc_atoms ops cfg [NItem (Literal i)] = texts [content i]) by reflexivity. pose proof (texts_inline _ _ _ _ AT) as [I1 I2].
    assert (SH : shows ops cfg (LOther (QEval c code)) e [NItem (Literal i)] e').
    { eapply (eval_shows ops cfg c code e v e' _ _ _ CE P); [reflexivity| |reflexivity| |rewrite (inline_closed _ _ _ I1); lia].
      - rewrite (inline_closed _ _ _ I1). rewrite P. reflexivity.
      - rewrite AT. cbn. destruct (content i) eqn:CI; [congruence|]. split; [eexists _, []|exists []; eexists]; (split; [reflexivity|]); reflexivity. }
    split; [exact SH|]. split; [|reflexivity]. apply inline_good; [exact I1|apply SH|rewrite I2; cbn; apply app_nil_r|eexists _, _; split; [reflexivity|exact NE]].
  - intros c code i w e e' CE W V. cbn [piece_imports] in V. inversion V as [|? ? V1 _]; subst. exists [NItem (Lang 0 i)].
    assert (AT : doc_atoms ops cfg [NItem (Lang 0 i)] = texts (l_format_item ops i)) by (unfold doc_atoms; cbn; rewrite app_nil_r; reflexivity).
    destruct (texts_inline ops cfg _ _ AT) as [I1 R1]. pose proof (C69_reference _ _ ops cfg c code e i e' CE V1) as SH. split; [exact SH|]. split; [|reflexivity].
    apply inline_good; [exact I1|apply SH|exact R1|]. eexists _, _. split; [reflexivity|]. cbn. destruct V1 as [(a & l' & T & VA) _]. destruct (l_format_item ops i) as [|s ss]; [discriminate T|].
    injection T as <- _. destruct s; [discriminate VA|discriminate].
  - intros c code t qs e0 e1 l w e e' CE Q _ IH NE W V. destruct (IH NE V) as (ns & ((QS & _) & DO & VI & NN) & OL & TX & BG & IM & _).
    destruct QS as (t' & Q' & IT). rewrite Q in Q'. injection Q' as <-. destruct (C69_built _ _ _ _ _ _ Q) as (cs & ->). exists ns.
    split; [eapply C69_stream; eauto|]. split; [|exact IM]. split; [exact OL|]. split; [|exact BG]. intros n. rewrite TX. reflexivity.
  - intros c cond a b yes l w e e1 e' A CE _ IH NE W V. destruct (IH NE V) as (ns & QS & OL & TX & BG & IM & _). exists ns.
    split; [eapply C74_if; eauto|]. split; [|exact IM]. split; [exact OL|]. split; [|exact BG]. intros n. rewrite TX. reflexivity.
  - intros c sel arms i qs l w e e1 e' A CE NT _ IH NE W V. destruct (IH NE V) as (ns & QS & OL & TX & BG & IM & _). exists ns.
    split; [eapply C74_match; eauto|]. split; [|exact IM]. split; [exact OL|]. split; [|exact BG]. intros n. rewrite TX. reflexivity.
  - intros c it sep body s bs ls w e e1 e' A IT0 SP _ IH NE WH W V. destruct (IH V) as (ds & BS & G & IM).
    destruct (separator_docs ops cfg sep s SP) as (sd & RS & SI & SE).
    assert (ND : ds <> []) by (intros ->; inversion G; subst; congruence).
    assert (O0 : Forall (fun d => open_levels ops cfg d = 0%Z) ds).
    { clear -G WH. induction G as [|d l ds ls H G IH]; [constructor|]. inversion WH as [|? ? [_ W1] W2]; subst. constructor; [|apply IH; exact W2]. destruct H as [H _]. rewrite H, W1. reflexivity. }
    assert (PD : piece_depth (Rounds s ls) = 0).
    { change (piece_depth (Rounds s ls)) with (last (map program_depth ls) 0). clear -WH. induction WH as [|l ls [_ H] _ IH]; [reflexivity|]. destruct ls; [exact H|exact IH]. }
    rewrite PD. pose proof (bodies_length ops cfg _ _ _ _ _ BS) as VE.
    destruct (loop_documents _ _ ops cfg c it sep body e bs e1 _ e' A IT0 (RS body bs e1 ds e' BS ND O0)) as (ns & SH & AT & OL & BA).
    exists ns. split; [exact SH|]. destruct ds as [|d ds]; [congruence|]. split; [split; [|split]|].
    + rewrite OL, last_intersperse. clear -O0. induction O0 as [|x l H F IH]; [reflexivity|]. destruct l; [exact H|exact IH].
    + intros n. unfold shown_at. rewrite AT, (rounds_layout ops cfg sd s n SE ds d).
      2:{ clear -O0 VE. rewrite Forall_forall in *. intros x X. split; auto. }
      change (ptext w (Rounds s ls) n) with (join (separator_text nl ind n s) (map (fun l => prog n l) ls)). f_equal.
      clear -G. revert G. generalize (d :: ds). intros l G. induction G as [|x y l l' H G IH]; [reflexivity|]. cbn [map]. rewrite IH. f_equal. apply H.
    + inversion G as [|? ? ? ? G1 _]; subst. destruct G1 as (_ & _ & y1 & r & DI & BY). unfold begins.
      assert (X : exists r', doc_items (concat (intersperse sd (d :: ds))) = y1 :: r').
      { destruct ds as [|d2 ds]; [exists r; cbn; rewrite app_nil_r; exact DI|].
        change (intersperse sd (d :: d2 :: ds)) with (d :: sd :: intersperse sd (d2 :: ds)). cbn [concat]. rewrite doc_items_app, DI. eexists. reflexivity. }
      destruct X as (r' & X). rewrite X in BA. destruct (doc_items ns) as [|z rz]; [discriminate BA|]. exists z, rz. split; [reflexivity|].
      cbn [map] in BA. injection BA as BZ _. eapply begins_bare; [symmetry; exact BZ|exact BY].
    + rewrite (imports_bare _ _ BA). change (piece_imports (Rounds s ls)) with (flat_map program_imports ls). rewrite <- IM. clear -SI.
      revert d. induction ds as [|d2 ds IH]; intros d; [cbn; rewrite !app_nil_r; reflexivity|].
      change (intersperse sd (d :: d2 :: ds)) with (d :: sd :: intersperse sd (d2 :: ds)). cbn [concat]. rewrite !doc_items_app, !imports_app, SI, IH. reflexivity.
  - intros c it sep body s bs ls w e e1 e' A IT0 BR _ IH NE DP W V. destruct (IH V) as (ds & BS & G & IM).
    assert (ND : ds <> []) by (intros ->; inversion G; subst; congruence).
    pose proof (bodies_length ops cfg _ _ _ _ _ BS) as VE.
    assert (O0 : Forall (fun d => visible_ends (doc_atoms ops cfg d) /\ open_levels ops cfg d <> 0%Z) ds).
    { clear -G DP VE. induction G as [|d l ds ls H G IH]; [constructor|]. inversion DP as [|? ? D1 D2]; subst. inversion VE as [|? ? V1 V2]; subst.
      constructor; [|apply IH; assumption]. destruct H as [H _]. split; [exact V1|]. rewrite H. lia. }
    destruct (break_docs ops cfg sep s BR) as (its & BI & RS).
    assert (O1 : Forall (fun d => open_levels ops cfg d <> 0%Z) ds) by (eapply Forall_impl; [|exact O0]; intros a HA; exact (proj2 HA)).
    destruct (loop_documents _ _ ops cfg c it sep body e bs e1 _ e' A IT0 (RS body bs e1 ds e' BS ND O1)) as (ns & SH & AT & OL & BA). clear O1.
    exists ns. split; [exact SH|]. destruct ds as [|d ds]; [congruence|]. split; [split; [|split]|].
    + rewrite OL, last_closed_with. change (piece_depth (Rounds _ ls)) with (last (map program_depth ls) 0). revert G. generalize (d :: ds). intros l G. clear -G NE.
      induction G as [|x y l l' H G IH]; [congruence|]. destruct G as [|x2 y2 l l' H2 G]; [exact (proj1 H)|]. apply IH. discriminate.
    + intros n. unfold shown_at. rewrite AT, (blocks_layout ops cfg its s n BI ds d O0).
      change (ptext w (Rounds s ls) n) with (join (separator_text nl ind n s) (map (fun l => prog n l) ls)). f_equal.
      clear -G. revert G. generalize (d :: ds). intros l G. induction G as [|x y l l' H G IH]; [reflexivity|]. cbn [map]. rewrite IH. f_equal. apply H.
    + inversion G as [|? ? ? ? G1 _]; subst. destruct G1 as (_ & _ & y1 & r & DI & BY). unfold begins.
      assert (X : exists r', doc_items (concat (closed_with ops cfg its (d :: ds))) = y1 :: r').
      { destruct ds as [|d2 ds]; [exists r; cbn; rewrite app_nil_r; exact DI|]. rewrite closed_with_cons. cbn [concat]. rewrite doc_items_app, DI. eexists. reflexivity. }
      destruct X as (r' & X). rewrite X in BA. destruct (doc_items ns) as [|z rz]; [discriminate BA|]. exists z, rz. split; [reflexivity|].
      cbn [map] in BA. injection BA as BZ _. eapply begins_bare; [symmetry; exact BZ|exact BY].
    + rewrite (imports_bare _ _ BA), (blocks_imports ops cfg its s _ BI). exact IM.
  - intros e _ _. split; [reflexivity|]. exists []. split; [reflexivity|]. split; [constructor|reflexivity].
  - intros c x ts e w b e1 l e' _ IH1 _ IH2 W V. inversion W as [|? ? W1 W2]; subst. cbn [fst snd] in W1.
    change (program_imports ((c, (w, b)) :: l)) with (piece_imports b ++ program_imports l) in *. apply Forall_app in V as [V1 V2].
    destruct (IH1 W1 V1) as (d & SH & G & IM). destruct (IH2 W2 V2) as (MF & ds & A & GS & IMS). split; [cbn; rewrite MF; reflexivity|].
    exists (d :: ds). split; [cbn; eauto|]. split; [constructor; auto|]. cbn [flat_map]. rewrite IM, IMS. reflexivity.
  - intros e _ _. split; [reflexivity|]. exists []. split; [reflexivity|]. split; [constructor|split; reflexivity].
  - intros c x ts e w b e1 l e' _ IH1 PD _ IH2 W V. inversion W as [|? ? W1 W2]; subst. cbn [fst snd] in W1.
    change (sparse_imports ((c, (w, Some b)) :: l)) with (piece_imports b ++ sparse_imports l) in *. apply Forall_app in V as [V1 V2].
    destruct (IH1 W1 V1) as (d & SH & G & IM). rewrite PD in G. destruct (IH2 W2 V2) as (MF & ds & A & GS & IMS & IE). split; [cbn; rewrite MF; reflexivity|].
    exists (Some d :: ds). split; [exists e1; split; [split; [exact SH|apply G]|exact A]|]. split; [constructor; auto|]. cbn [leaves_imports]. rewrite (show_imports _ _ _ _ SH), IM.
    destruct (leaves_imports ts e1). cbn [fst snd] in *. subst. auto.
  - intros c x ts e w e1 l e' N _ IH2 W V. inversion W as [|? ? W1 W2]; subst.
    change (sparse_imports ((c, (w, None)) :: l)) with (sparse_imports l) in *.
    destruct (IH2 W2 V) as (MF & ds & A & GS & IMS & IE). split; [cbn; rewrite MF; reflexivity|]. pose proof (nothing_hides _ _ _ N) as H.
    exists (None :: ds). split; [exists e1; split; [exact H|exact A]|]. split; [constructor; auto; exact I|]. cbn [leaves_imports]. rewrite (hides_imports _ _ _ H).
    destruct (leaves_imports ts e1). cbn [fst snd] in *. subst. auto.
  - intros qs p s l e e' WR FIT _ IH EN NE V.
    assert (WN : Forall (fun x : cursor * (str * piece LI) => fst (snd x) <> []) l).
    { apply written_words in WR. rewrite Forall_forall in *. intros x H. apply (WR (fst x, fst (snd x))). apply in_map_iff. eauto. }
    destruct (IH WN V) as (M & ds & A & G & IM).
    assert (CM : combine (map fst l) (map (fun x => fst (snd x)) l) = map (fun x => (fst x, fst (snd x))) l).
    { clear. induction l as [|x l IH]; [reflexivity|]. cbn. rewrite IH. reflexivity. }
    assert (LEN : length (all_tokens qs) = length l) by (rewrite <- (map_length fst (all_tokens qs)), M; apply map_length).
    assert (ND : ds <> []) by (intros ->; inversion G as [X|]; destruct l; [congruence|discriminate]).
    destruct (program_document ops cfg qs p s (map (fun x => fst (snd x)) l) e ds (map piece_of l) (map depth_of l) e') as (t & ns & Q & IT & DO & VI & OL & TX & OUT & BG); auto.
    + rewrite M, CM. exact WR.
    + rewrite map_length. symmetry. exact LEN.
    + rewrite M. exact FIT.
    + rewrite !map_length. reflexivity.
    + rewrite M. intros c0 HC. destruct l as [|y l]; [congruence|]. injection HC as <-. cbn [ends_fit] in EN.
      replace (combine (map fst (y :: l)) (map depth_of (y :: l))) with (map (fun y => (fst y, piece_depth (snd (snd y)))) (y :: l)); [exact EN|].
      clear. generalize (y :: l). intros z. induction z as [|a z IH]; [reflexivity|]. cbn [map combine]. rewrite <- IH. reflexivity.
    + rewrite M in OL, TX, OUT. exists ns.
      assert (IMN : imports_of (doc_items ns) = program_imports l).
      { pose proof (quote_imports _ _ _ _ Q) as U. rewrite (all_imports _ _ _ _ A), IM in U. cbn [fst] in U. rewrite <- U. unfold uses. rewrite IT, imports_app.
        unfold closing. destruct (Z.eqb _ _); cbn; rewrite app_nil_r; reflexivity. }
      split; [split; [split|]|].
      * eauto.
      * destruct (all_tokens qs) as [|[c0 x0] ts0] eqn:AT; [destruct l; [congruence|discriminate LEN]|]. destruct ds as [|d ds]; [congruence|]. cbn [map snd] in A. destruct A as (e1 & A1 & _).
        eapply words_mean; [exact AT|exact A1].
      * split; [exact DO|]. split; [exact VI|]. rewrite OL. lia.
      * split; [exact OL|]. split; [intros n; rewrite TX, prog_combine; reflexivity|]. split; [exact BG|]. split; [exact IMN|].
        intros t' Q'. rewrite Q in Q'. injection Q' as <-. split; [rewrite OUT, prog_combine; reflexivity|].
        destruct BG as (y & r & DI & BY). exists y. rewrite IT, DI. eexists. split; [reflexivity|exact BY].
  - intros qs p s l e e' WR FIT AM IH MD NE V. apply shallow, left_over_depth in AM.
    assert (WN : Forall (fun x : cursor * (str * option (piece LI)) => fst (snd x) <> []) l).
    { apply written_words in WR. rewrite Forall_forall in *. intros x H. apply (WR (fst x, fst (snd x))). apply in_map_iff. eauto. }
    rewrite left_over_imports in V. destruct (IH WN V) as (M & ds & A & G & IM & IE).
    destruct (kept_document ops cfg qs p s l e ds e' ptext WR M FIT A G MD) as (t & ns & Q & IT & DO & VI & OL & TX & OUT & BG). cbv zeta in *. exists ns.
    assert (IMN : imports_of (doc_items ns) = program_imports (left_over l)).
    { pose proof (quote_imports _ _ _ _ Q) as U. rewrite IM in U. rewrite left_over_imports, <- U. unfold uses. rewrite IT, imports_app.
      unfold closing. destruct (Z.eqb _ _); cbn; rewrite app_nil_r; reflexivity. }
    split; [split; [split|]|].
    + eauto.
    + destruct MD as (_ & (x1 & l1 & EQ & PX) & _). subst l. destruct (all_tokens qs) as [|[c0 x0] ts0] eqn:AT; [discriminate M|]. destruct ds as [|[d|] ds]; [inversion G| |].
      * cbn [map snd] in A. destruct A as (e1 & [A1 _] & _). eapply words_mean; [exact AT|exact A1].
      * apply pair_head in G. destruct (snd (snd x1)); [contradiction|congruence].
    + split; [exact DO|]. split; [exact VI|]. rewrite OL. lia.
    + split; [rewrite AM; exact OL|]. split; [intros n; rewrite TX; reflexivity|]. split; [exact BG|]. split; [exact IMN|].
      intros t' Q'. rewrite Q in Q'. injection Q' as <-. split; [rewrite OUT; reflexivity|].
      destruct BG as (y & r & DI & BY). exists y. rewrite IT, DI. eexists. split; [reflexivity|exact BY].
  - intros body e _. exists []. split; [reflexivity|]. split; [constructor|reflexivity].
  - intros body b bs e l e1 ls e' _ IH1 NE _ IH2 V. cbn [flat_map] in V. apply Forall_app in V as [V1 V2].
    destruct (IH1 NE V1) as (ns & QS & OL & TX & BG & IM & _). destruct (IH2 V2) as (ds & BS & GS & IMS).
    exists (ns :: ds). split; [cbn; eauto|]. split; [constructor; [split; [exact OL|split; [exact TX|exact BG]]|exact GS]|]. cbn [flat_map]. rewrite IM, IMS. reflexivity.
Qed.
End Pieces.

(** ** Texts that agree *)
Section Agree.
Context {LI : Type} (newline : str) (ind : indentation_kind) (lit lit' : str -> str) (ref ref' : LI -> str).
Hypothesis SL : forall v, lit v = lit' v.
Notation same := (Forall2 (fun a b : cursor * (nat -> str) => fst a = fst b /\ forall n, snd a n = snd b n)).
Lemma following_agree n a b : same a b -> forall before prev, following newline ind n before prev a = following newline ind n before prev b.
Proof.
  induction 1 as [|[c f] [c' g] a b [H1 H2] _ IH]; intros before prev; [reflexivity|]. cbn [fst snd] in *. subst c'. cbn [following].
  destruct (_ =? _); rewrite IH, H2; reflexivity.
Qed.
Lemma words_agree n a b : same a b -> words_text newline ind n a = words_text newline ind n b.
Proof. destruct 1 as [|[c f] [c' g] a b [H1 H2] H]; [reflexivity|]. cbn [fst snd] in *. subst c'. cbn [words_text]. rewrite H2. f_equal. apply following_agree. exact H. Qed.
Lemma piece_agree : forall (x : piece LI) w n, (forall i, In i (piece_imports x) -> ref i = ref' i) ->
  piece_text newline ind lit ref w x n = piece_text newline ind lit' ref' w x n.
Proof.
  fix IH 1. intros [|v|v|i|l|sep ls] w n H; cbn [piece_text].
  - reflexivity.
  - apply SL.
  - reflexivity.
  - apply H. left. reflexivity.
  - apply words_agree. cbn [piece_imports] in H. induction l as [|[c [w' x]] l IHl]; constructor.
    + split; [reflexivity|]. intros m. cbn [snd]. apply IH. intros i Hi. apply H. cbn [flat_map]. apply in_or_app. left. exact Hi.
    + apply IHl. intros i Hi. apply H. cbn [flat_map]. apply in_or_app. right. exact Hi.
  - f_equal. cbn [piece_imports] in H. induction ls as [|l ls IHls]; [reflexivity|]. cbn [map]. f_equal.
    + apply words_agree. cbn [flat_map] in H. assert (H' := fun i Hi => H i (in_or_app _ _ _ (or_introl Hi))). clear H IHls. induction l as [|[c [w' x]] l IHl]; constructor.
      * split; [reflexivity|]. intros m. cbn [snd]. apply IH. intros i Hi. apply H'. cbn [flat_map]. apply in_or_app. left. exact Hi.
      * apply IHl. intros i Hi. apply H'. cbn [flat_map]. apply in_or_app. right. exact Hi.
    + apply IHls. intros i Hi. apply H. cbn [flat_map]. apply in_or_app. right. exact Hi.
Qed.
Lemma program_agree n (l : program LI) : (forall i, In i (program_imports l) -> ref i = ref' i) ->
  program_text newline ind lit ref n l = program_text newline ind lit' ref' n l.
Proof. intros H. exact (piece_agree (Fragment l) [] n H). Qed.
End Agree.

Lemma flat_ends (l : list (cursor * nat)) : Forall (fun x => snd x = 0) l -> forall col, ends_from col l.
Proof.
  induction 1 as [|[c k] l K _ IH]; intros col; [exact I|]. cbn [snd] in K. subst k. cbn [ends_from]. destruct l as [|[c' k'] l]; [exact I|]. destruct (_ =? _); auto.
Qed.
Lemma left_over_some {LI} (l : sparse LI) : may_delete l -> left_over l <> [].
Proof.
  intros (_ & ([c [w b]] & l' & -> & P) & _) H. cbn [snd] in P. destruct b as [b|]; [|congruence]. unfold left_over, sparse_lines in H. cbn [source_lines] in H.
  destruct (lines_after (c_end c) l') as [more ls]. cbn [map kept_lines] in H. discriminate H.
Qed.

(** ** The stream of an assembled program *)
Section Body.
Context {LI E C F : Type} (L : lang_def LI C F) (cfg : config) (c : C) (f : F).
Notation ops := (ld_ops L c f).
Hypothesis OQ : l_open_quote ops false = [[34%N]].
Hypothesis CQ : l_close_quote ops false = [[34%N]].
Lemma assembled_body (qs : list (quoted_item LI E)) e l e' : quotes_program qs e l e' ->
  Forall (fun i => visible_ends (texts (l_format_item ops i))) (program_imports l) ->
  exists t cs body, quote qs e = Some (e', t) /\ t = build cs /\ uses t = program_imports l /\
    body = program_text (c_newline cfg) (c_indentation cfg) (written_literal ops) (fun i => concat (l_format_item ops i)) 0 l /\
    body_of L cfg c f t body.
Proof.
  intros P V. destruct l as [|y l].
  - assert (X : all_tokens qs = [] /\ e' = e).
    { clear V. remember (@nil (cursor * (str * piece LI))) as l0 eqn:L0. destruct P as [qs' p s l e0 e1 W FIT A _|qs' p s l e0 e1 W FIT A MD]; [rewrite L0 in A; inversion A; auto|]. exfalso. apply (left_over_some l MD). exact L0. }
    destruct X as [AT ->].
    destruct (words_render ops cfg qs 0 [] [] e e) as (t & Q & O & _); [exact AT|intros ? ? ? X; destruct before; discriminate|split; [reflexivity|split; reflexivity]|].
    destruct (C69_built _ _ _ _ _ _ Q) as (cs & B). exists t, cs. eexists. split; [exact Q|]. split; [exact B|]. split; [rewrite (quote_imports _ _ _ _ Q), AT; reflexivity|].
    split; [reflexivity|]. split; [exact O|]. intros N. exfalso. apply N. reflexivity.
  - destruct (@assembled LI E ops cfg OQ CQ) as (_ & _ & _ & AS & _). destruct (AS qs e _ e' P ltac:(discriminate) V) as (ns & (((t & Q & IT) & _) & DO & VI & NN) & OL & TX & BG & IM & R).
    destruct (R t Q) as [O TF]. destruct (C69_built _ _ _ _ _ _ Q) as (cs & B). exists t, cs. eexists. split; [exact Q|]. split; [exact B|].
    split; [unfold uses; rewrite IT, imports_app, IM; unfold closing; destruct (Z.eqb _ _); cbn; rewrite app_nil_r; reflexivity|].
    split; [reflexivity|]. split; [exact O|]. intros _. apply text_first_clean. exact TF.
Qed.
End Body.
