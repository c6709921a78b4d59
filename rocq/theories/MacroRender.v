(** * Lemmas: the text of a quote of plain tokens. *)
From Verif Require Import Str Tokens SpecTokens TokensRun Values Fmt SpecFmt LayoutFacts RenderFacts HistoryFacts OutputFacts WriterFacts HeaderFacts
  Macro SpecMacro MacroFacts MacroTokens MacroLines.

Section Render.
Context {LI E : Type} (ops : lang_ops LI) (cfg : config).
Notation ind := (c_indentation cfg).
Notation stmt := (stmt LI E). Notation quoted := (quoted_item LI E).

(** Code that acts on the items as [hs]. *)
Definition acts (code : list stmt) (hs : list (@hact LI)) : Prop :=
  forall e t, fst (execs code (e, t)) = e /\ ritems (snd (execs code (e, t))) = hrun hs (ritems t).
Lemma hrun_app a b r : @hrun LI (a ++ b) r = hrun b (hrun a r).
Proof. apply fold_left_app. Qed.
Lemma acts_nil : acts [] [].
Proof. intros e t. split; reflexivity. Qed.
Lemma acts_app c1 c2 h1 h2 : acts c1 h1 -> acts c2 h2 -> acts (c1 ++ c2) (h1 ++ h2).
Proof.
  intros A B e t. rewrite execs_app. destruct (A e t) as [A1 A2]. destruct (execs c1 (e, t)) as [e1 t1]. cbn [fst snd] in *. subst e1.
  destruct (B e t1) as [B1 B2]. split; auto. rewrite B2, A2, hrun_app. reflexivity.
Qed.
Lemma acts_static s : acts [SStatic s] [h_text (Static s)].
Proof. intros e t. split; reflexivity. Qed.
Lemma acts_requests h : requests h -> acts (map act_stmt h) (map HReq h).
Proof.
  induction 1 as [|a h N _ IH]; [apply acts_nil|]. change (map act_stmt (a :: h)) with ([@act_stmt LI E a] ++ map act_stmt h).
  change (map HReq (a :: h)) with ([@HReq LI a] ++ map HReq h). apply acts_app; auto.
  intros e [r la]. destruct a; try (exfalso; eapply N; reflexivity); split; try reflexivity; cbn; unfold space; cbn; destruct r as [|[] r]; reflexivity.
Qed.
Lemma good_requests h : requests h -> Forall (good_hact ops cfg) (map HReq h).
Proof. induction 1; constructor; auto. Qed.
Lemma good_text s : s <> [] -> good_hact ops cfg (h_text (Static s)).
Proof. intros N. pose proof (writes_text ops cfg (Static s) N) as [F _]. inversion F; auto. Qed.
Lemma hist_text s rest first lvl p : s <> [] -> hist ops cfg first lvl p (h_text (Static s) :: rest) =
  let '(out, e) := hist ops cfg false (lvl + p_indent p)%Z nothing rest in
  (gap_text ind first (lvl + p_indent p)%Z p ++ map Ch s ++ out, e).
Proof.
  intros N. change (h_text (Static s) :: rest) with ([@h_text LI (Static s)] ++ rest). rewrite hist_app.
  destruct (writes_text ops cfg (Static s) N) as [_ W]. rewrite W. cbn [content]. destruct (hist ops cfg false _ nothing rest). rewrite <- app_assoc. reflexivity.
Qed.
Lemma hist_requests h rest first lvl p : requests h -> hist ops cfg first lvl p (map HReq h ++ rest) =
  hist ops cfg first lvl (fold_left (fun p a => request a p) h p) rest.
Proof. intros R. revert p. induction R as [|a h N _ IH]; intros p; [reflexivity|]. cbn [map app hist fold_left]. apply IH. Qed.

(** Separated texts. *)
Fixpoint spaced (first : bool) (lvl : Z) (l : list (pending * str)) : list sym :=
  match l with
  | [] => []
  | (p, s) :: l' =>
      gap_text ind first (lvl + p_indent p)%Z p ++ map Ch s ++ spaced false (lvl + p_indent p)%Z l'
  end.
Definition quiet (ap : bool * pending) : Prop := fst ap = true -> snd ap = nothing.
Lemma spaced_code ps : Forall quiet ps -> forall seps ss, Forall2 sep_ok ps seps -> length ss = length ps -> Forall (fun s => s <> []) ss ->
  forall b, b <> [] -> exists hs, acts (coalesce b (interleave seps (map CText ss))) hs /\ Forall (good_hact ops cfg) hs /\
  forall first lvl p, exists lvl', hist ops cfg first lvl p hs =
    (gap_text ind first (lvl + p_indent p)%Z p ++ map Ch b ++ spaced false (lvl + p_indent p)%Z (combine (map snd ps) ss), (false, lvl', nothing)).
Proof.
  induction 1 as [|[adj p1] ps Q _ IH]; intros seps ss F2 LN NE b NB.
  - destruct ss; [|discriminate]. inversion F2; subst. cbn. exists [h_text (Static b)]. destruct b as [|c b]; [congruence|].
    split; [apply acts_static|]. split; [constructor; [apply good_text; discriminate|constructor]|].
    intros first lvl p. exists (lvl + p_indent p)%Z. rewrite hist_text by discriminate. cbn [hist]. rewrite app_nil_r. reflexivity.
  - destruct ss as [|s ss]; [discriminate|]. inversion F2 as [|? sep ? seps' SO F2']; subst. inversion NE as [|? ? NS NE']; subst.
    injection LN as LN. cbn [map combine snd spaced interleave].
    destruct sep as [h|].
    + unfold sep_ok in SO. cbn [fst snd] in SO. destruct adj; [discriminate|]. destruct SO as (h' & X & R & RQ & _). injection X as <-.
      destruct (IH _ _ F2' LN NE' s NS) as (hs & A & G & H).
      exists (h_text (Static b) :: map HReq h ++ hs). split.
      { cbn [app coalesce]. destruct b as [|c b]; [congruence|]. apply (acts_app [SStatic (c :: b)] _ [h_text (Static (c :: b))]); [apply acts_static|].
        apply acts_app; [apply acts_requests; auto|exact A]. }
      split; [constructor; [apply good_text; auto|]; apply Forall_app; split; [apply good_requests; auto|auto]|].
      intros first lvl p. rewrite hist_text, hist_requests by auto. unfold requested in RQ. rewrite RQ.
      destruct (H false (lvl + p_indent p)%Z p1) as (lvl' & E1). exists lvl'. rewrite E1. reflexivity.
    + assert (AJ : adj = true).
      { unfold sep_ok in SO. cbn [fst] in SO. destruct adj; auto. destruct SO as (? & ? & _). discriminate. }
      subst adj. specialize (Q eq_refl). cbn [snd] in Q. subst p1.
      assert (NB2 : b ++ s <> []) by (destruct b; [congruence|discriminate]).
      destruct (IH _ _ F2' LN NE' (b ++ s) NB2) as (hs & A & G & H). exists hs. split; [exact A|]. split; [exact G|].
      intros first lvl p. destruct (H first lvl p) as (lvl' & E1). exists lvl'. rewrite E1. cbn [nothing p_indent]. rewrite Z.add_0_r, map_app, <- !app_assoc.
      reflexivity.
Qed.

(** A whole stream. *)
Lemma hist_doc hs (t : tokens LI) out e : Forall (good_hact ops cfg) hs -> ritems t = hrun hs [] ->
  hist ops cfg true 0%Z nothing hs = (out, e) ->
  exists ns, items t = doc_items ns /\ doc_ok ns = true /\ layout ind (doc_atoms ops cfg ns) = out.
Proof.
  intros G ET EH.
  destruct (hist_run ops cfg hs G true 0%Z false [] false 0%Z [] I I)
    as (ns & s' & lines' & p' & i' & base' & out' & first' & lvl' & E1 & E2 & E3 & E4 & E5 & E6 & E7).
  change (state_of false [] false 0) with nothing in E6. rewrite EH in E6. injection E6 as <- _.
  destruct (shape_nodes ops cfg s' lines' p' i') as [S1 [S2 S3]].
  exists (ns ++ map NItem (rev (shape s' lines' p' i'))). split.
  { unfold items. rewrite ET. cbn [shape sp app flat_map Z.eqb] in E1. cbn in E1.
    rewrite E1, rev_app_distr, E4. cbn [rev app]. unfold doc_items in *. rewrite flat_map_app, S1. reflexivity. }
  split; [unfold doc_ok in *; rewrite forallb_app, E5, S2; auto|].
  unfold layout, doc_atoms in *. rewrite flat_map_app, S3, E7.
  rewrite <- (app_nil_r (shape_atoms ops s' lines' p' i')), layout_from_invisible by apply shape_invisible. cbn. apply app_nil_r.
Qed.

(** A quote of plain tokens. *)
Lemma plain_quote (qs : list quoted) cs ss ps w : all_tokens qs = combine cs (map LText ss) -> length cs = length ss ->
  Forall (fun s => s <> []) ss -> gaps cs None = Some (ps, w) -> Forall quiet ps ->
  exists r code, quote_code qs = Some (r, code) /\ forall e, exists t, execs code (e, new) = (e, t) /\
  exists ns, items t = doc_items ns /\ doc_ok ns = true /\ layout ind (doc_atoms ops cfg ns) = spaced true 0 (combine (map snd ps) ss).
Proof.
  intros AT LN NE G QU.
  assert (MF : map fst (all_tokens qs) = cs).
  { rewrite AT. clear -LN. revert ss LN. induction cs as [|c cs IH]; intros [|s ss] LN; try discriminate; [reflexivity|]. cbn. f_equal. apply IH. cbn in LN. lia. }
  assert (MS : map snd (all_tokens qs) = map LText ss).
  { rewrite AT. clear -LN. revert cs LN. induction ss as [|s ss IH]; intros [|c cs] LN; try discriminate; [reflexivity|]. cbn. f_equal. apply IH. cbn in LN. lia. }
  pose proof (code_by_tokens qs) as C. rewrite MF, MS, G in C. destruct (quote_code qs) as [[r code]|].
  - exists r, code. split; [reflexivity|]. destruct C as (ps' & w' & seps & X & F2 & ks & K1 & K2 & K3 & K4). injection X as <- <-.
    rewrite MS in K1. assert (KS : ks = map CText ss).
    { clear -K1. revert ks K1. induction ss as [|s ss IH]; intros ks K1; inversion K1 as [|? k ? ks' H1 H2]; subst; [reflexivity|]. cbn in H1. subst k. cbn. f_equal. auto. }
    subst ks. rewrite K4. pose proof (gaps_length _ _ _ _ G) as LG.
    assert (ACT : exists hs, acts (coalesce [] (interleave seps (map CText ss))) hs /\ Forall (good_hact ops cfg) hs /\
      exists e, hist ops cfg true 0%Z nothing hs = (spaced true 0 (combine (map snd ps) ss), e)).
    { destruct ss as [|s ss].
      - destruct ps; [|cbn in LG; destruct cs; discriminate]. inversion F2; subst. exists []. split; [apply acts_nil|]. split; [constructor|]. cbn. eauto.
      - destruct cs as [|c cs]; [discriminate|]. destruct ps as [|ap ps]; [discriminate|]. pose proof (gaps_first _ _ _ _ G) as X. cbn in X. injection X as ->.
        inversion F2 as [|? sep ? seps' SO F2']; subst. unfold sep_ok in SO. cbn [fst] in SO. subst sep.
        inversion NE as [|? ? NS NE']; subst. inversion QU as [|? ? _ QU']; subst.
        assert (L2 : length ss = length ps) by (injection LN as LN; injection LG as LG; congruence).
        destruct (spaced_code ps QU' seps' ss F2' L2 NE' s NS) as (hs & A & GH & H).
        exists hs. split; [exact A|]. split; [exact GH|]. destruct (H true 0%Z nothing) as (lvl' & E1). rewrite E1. eexists. reflexivity. }
    destruct ACT as (hs & A & GH & [[f l] q] & EH).
    set (n := depth w).
    assert (A2 : acts (repeat SUnindent n) (map HReq (repeat TUnindent n))).
    { assert (RR : requests (repeat TUnindent n)) by (apply Forall_forall; intros a Ha; apply repeat_spec in Ha as ->; discriminate).
      assert (MR : map act_stmt (repeat TUnindent n) = repeat (@SUnindent LI E) n) by (clear; induction n; cbn; congruence).
      rewrite <- MR. apply acts_requests; auto. }
    assert (RR : requests (repeat TUnindent n)) by (apply Forall_forall; intros a Ha; apply repeat_spec in Ha as ->; discriminate).
    pose proof (acts_app _ _ _ _ A A2) as A3. intros e. destruct (A3 e new) as [X1 X2].
    destruct (execs (coalesce [] (interleave seps (map CText ss)) ++ repeat SUnindent n) (e, new)) as [e1 t1]. cbn [fst snd] in *. subst e1.
    exists t1. split; [reflexivity|]. eapply (hist_doc (hs ++ map HReq (repeat TUnindent n))).
    + apply Forall_app. split; [auto|apply good_requests; auto].
    + exact X2.
    + rewrite hist_app, EH. pose proof (hist_requests (repeat TUnindent n) [] f l q RR) as HR. rewrite app_nil_r in HR. rewrite HR.
      cbn [hist]. rewrite app_nil_r. reflexivity.
  - destruct C as [C|C]; [discriminate|]. exfalso. apply Exists_exists in C as (l & I & NA). apply NA.
    apply in_map_iff in I as (s & <- & _). exists (CText s). reflexivity.
Qed.

(** ** Lines of source *)
Definition more_gap (gw : nat * str) : bool * pending := (fst gw =? 0, mk_pending 0 (negb (fst gw =? 0)) 0 0).
Fixpoint end_col (col : nat) (more : list (nat * str)) : nat :=
  match more with [] => col | (g, w) :: more' => end_col (col + g + length w) more' end.
Lemma more_gaps row cols more : forall col rest,
  gaps (map fst (@more_tokens LI E row col more) ++ rest) (Some (mk_pos row col, cols)) =
  match gaps rest (Some (mk_pos row (end_col col more), cols)) with
  | Some (ps, w) => Some (map more_gap more ++ ps, w)
  | None => None
  end.
Proof.
  induction more as [|[g w] more IH]; intros col rest.
  - cbn. destruct (gaps rest _) as [[? ?]|]; reflexivity.
  - cbn [more_tokens map fst app gaps enter end_col]. unfold gap. cbn [word_cursor c_start c_end p_line p_col]. rewrite Nat.eqb_refl. cbn [option_map].
    rewrite IH. destruct (gaps rest _) as [[ps w']|]; [|reflexivity]. cbn [map app]. do 3 f_equal. unfold more_gap, adjacent.
    cbn [fst c_start p_line p_col word_cursor]. rewrite Nat.eqb_refl. cbn [andb].
    destruct (Nat.eqb_spec g 0) as [->|N].
    + rewrite !Nat.add_0_r, !Nat.ltb_irrefl. reflexivity.
    + destruct (Nat.ltb_spec col (col + g)); [reflexivity|lia].
Qed.
Definition line_words (l : src_line) : list str := sl_word l :: map snd (sl_more l).
Definition all_words (ls : list src_line) : list str := flat_map line_words ls.
Lemma source_tokens_words row ls : map snd (@source_tokens LI E row ls) = map LText (all_words ls).
Proof.
  revert row. induction ls as [|l ls IH]; intros row; [reflexivity|]. cbn [source_tokens map snd all_words flat_map line_words app]. f_equal.
  rewrite map_app, IH, map_app. f_equal. rewrite map_map. generalize (row + sl_empty l) (sl_col l + length (sl_word l)).
  induction (sl_more l) as [|[g w] m IHm]; intros r c; [reflexivity|]. cbn. f_equal. apply IHm.
Qed.
Lemma spaced_app a : forall b first lvl, Forall (fun q => p_indent (fst q) = 0%Z) a ->
  spaced first lvl (a ++ b) = spaced first lvl a ++ spaced (match a with [] => first | _ => false end) lvl b.
Proof.
  induction a as [|[p s] a IH]; intros b first lvl F; [reflexivity|]. inversion F as [|? ? H F']; subst. cbn [fst] in H.
  cbn [app spaced]. rewrite H, Z.add_0_r, IH by auto. rewrite <- !app_assoc. do 2 f_equal. destruct a; reflexivity.
Qed.
Lemma more_spaced more : forall lvl, spaced false lvl (combine (map snd (map more_gap more)) (map snd more)) =
  map Ch (flat_map (fun '(g, w) => (if g =? 0 then [] else $" ") ++ w) more).
Proof.
  induction more as [|[g w] more IH]; intros lvl; [reflexivity|]. cbn [map combine spaced flat_map more_gap snd fst p_indent].
  rewrite Z.add_0_r, IH, !map_app, <- !app_assoc. f_equal. unfold gap_text. cbn [p_breaks p_space Nat.eqb]. destruct (g =? 0); reflexivity.
Qed.
Lemma combine_app {A B} (a1 a2 : list A) (b1 b2 : list B) : length a1 = length b1 ->
  combine (a1 ++ a2) (b1 ++ b2) = combine a1 b1 ++ combine a2 b2.
Proof. revert b1. induction a1 as [|x a1 IH]; intros [|y b1] L; try discriminate; [reflexivity|]. cbn. f_equal. apply IH. cbn in L. lia. Qed.

Lemma match_same {A B} (l : list A) (b : B) : match l with [] => b | _ => b end = b.
Proof. destruct l; reflexivity. Qed.

Definition line_sep (l : src_line) : list sym := if sl_empty l =? 0 then [NL] else [NL; NL].
Fixpoint rest_out (ss : list nat) (ls : list src_line) : list sym :=
  match ls with
  | [] => []
  | l :: ls' => line_sep l ++ pad ind (Z.of_nat (level (ss ++ [sl_col l]))) ++ map Ch (line_text l) ++ rest_out (ss ++ [sl_col l]) ls'
  end.
Fixpoint fits (ss : list nat) (ls : list src_line) : Prop :=
  match ls with [] => True | l :: ls' => may_start ss (sl_col l) /\ fits (ss ++ [sl_col l]) ls' end.

Lemma lines_gaps ls : forall row frm ss, ss <> [] -> S (p_line frm) = row -> fits ss ls ->
  exists ps w, gaps (map fst (@source_tokens LI E row ls)) (Some (frm, enclosing ss)) = Some (ps, w) /\
    length ps = length (all_words ls) /\ Forall quiet ps /\
    spaced false (Z.of_nat (level ss)) (combine (map snd ps) (all_words ls)) = rest_out ss ls.
Proof.
  induction ls as [|l ls IH]; intros row frm ss N RW F.
  - cbn. exists [], (Some (frm, enclosing ss)). auto.
  - destruct F as [M F]. cbn [source_tokens map fst gaps enter]. cbv zeta. set (rw := row + sl_empty l) in *.
    assert (LT : p_line frm < p_line (mk_pos rw (sl_col l))) by (cbn; unfold rw; lia).
    cbn [word_cursor c_start c_end]. pose proof (gap_line frm (mk_pos rw (sl_col l)) ss N LT) as G. cbn [p_col] in G.
    destruct (gap frm (mk_pos rw (sl_col l)) (enclosing ss)) as [[p cols]|]; [|exfalso; apply (proj1 G); exact M].
    destruct G as [-> [[_ ->]|[X _]]]; [|exfalso; auto]. cbn [option_map].
    rewrite map_app, more_gaps.
    assert (N2 : ss ++ [sl_col l] <> []) by (destruct ss; discriminate).
    destruct (IH (S rw) (mk_pos rw (end_col (sl_col l + length (sl_word l)) (sl_more l))) _ N2 eq_refl F) as (ps & w & E1 & E2 & E3 & E4).
    rewrite E1. eexists; exists w. split; [reflexivity|]. split; [|split].
    + cbn [length all_words flat_map line_words app]. rewrite !app_length, !map_length. fold (all_words ls). rewrite E2. reflexivity.
    + constructor.
      * intros X. exfalso. cbn [p_line] in LT. cbn [fst adjacent c_start word_cursor p_line p_col] in X. apply andb_prop in X as [X _]. apply Nat.eqb_eq in X. lia.
      * apply Forall_app. split; auto. apply Forall_forall. intros [a p] I. apply in_map_iff in I as ([g w1] & X & _). unfold more_gap in X. injection X as <- <-.
        intros Q. cbn in *. rewrite Q. reflexivity.
    + cbn [map snd all_words flat_map line_words app combine spaced p_indent]. fold (all_words ls).
      replace (Z.of_nat (level ss) + (Z.of_nat (level (ss ++ [sl_col l])) - Z.of_nat (level ss)))%Z with (Z.of_nat (level (ss ++ [sl_col l]))) by lia.
      rewrite map_app, combine_app by (rewrite !map_length; reflexivity).
      rewrite spaced_app.
      2:{ apply Forall_forall. intros [p s] I. apply in_combine_l in I. apply in_map_iff in I as (ap & <- & I). apply in_map_iff in I as (gw & <- & _). reflexivity. }
      rewrite more_spaced. rewrite match_same.
      rewrite E4. cbn [rest_out]. unfold line_text. rewrite map_app, <- !app_assoc.
      assert (GT : gap_text ind false (Z.of_nat (level (ss ++ [sl_col l])))
        (mk_pending (breaks_of frm (mk_pos rw (sl_col l))) false 0 (Z.of_nat (level (ss ++ [sl_col l])) - Z.of_nat (level ss))) =
        line_sep l ++ pad ind (Z.of_nat (level (ss ++ [sl_col l])))).
      { unfold gap_text, breaks_of, line_sep. cbn [p_breaks p_space p_line]. unfold rw.
        destruct (Nat.eqb_spec (sl_empty l) 0) as [Z0|Z0].
        - destruct (Nat.ltb_spec 1 (row + sl_empty l - p_line frm)); [lia|]. cbn. rewrite app_nil_r. reflexivity.
        - destruct (Nat.ltb_spec 1 (row + sl_empty l - p_line frm)); [|lia]. cbn. rewrite app_nil_r. reflexivity. }
      rewrite GT, <- !app_assoc. reflexivity.
Qed.
Lemma fits_laid_out ls : forall before, laid_out (before ++ ls) -> before <> [] -> fits (map sl_col before) ls.
Proof.
  induction ls as [|l ls IH]; intros before L N; [exact I|]. split.
  - apply (L before l ls); auto.
  - change (map sl_col before ++ [sl_col l]) with (map sl_col before ++ map sl_col [l]). rewrite <- map_app. apply IH; [|destruct before; discriminate].
    rewrite <- app_assoc. exact L.
Qed.
Lemma rest_join ls : forall before x, before <> [] ->
  join (c_newline cfg) (x :: output_lines ind before ls) = x ++ text (c_newline cfg) (rest_out (map sl_col before) ls).
Proof.
  induction ls as [|l ls IH]; intros before x N; [cbn; rewrite app_nil_r; reflexivity|].
  destruct before as [|b0 before0] eqn:B; [congruence|]. rewrite <- B in *. cbn [output_lines rest_out].
  assert (X : (match before with [] => [] | _ => if sl_empty l =? 0 then [] else [[]] end) = (if sl_empty l =? 0 then [] else [[]] : list str)) by (rewrite B; reflexivity).
  rewrite X. assert (MP : map sl_col (before ++ [l]) = map sl_col before ++ [sl_col l]) by apply map_app. rewrite MP.
  assert (N2 : before ++ [l] <> []) by (rewrite B; discriminate).
  specialize (IH (before ++ [l]) (indent_text ind (Z.of_nat (level (map sl_col before ++ [sl_col l]))) ++ line_text l) N2). rewrite MP in IH.
  set (il := indent_text ind _ ++ line_text l) in *.
  rewrite !text_app, pad_text, !text_chars.
  assert (Q : forall a b ls', join (c_newline cfg) (a :: b :: ls') = a ++ c_newline cfg ++ join (c_newline cfg) (b :: ls')) by reflexivity.
  unfold line_sep. destruct (sl_empty l =? 0); cbn [app].
  - rewrite Q, IH. unfold il. cbn [text flat_map sym_text]. rewrite app_nil_r, <- !app_assoc. reflexivity.
  - rewrite !Q, IH. unfold il. cbn [text flat_map sym_text]. rewrite app_nil_r, <- !app_assoc. reflexivity.
Qed.

Theorem source_renders (qs : list quoted) row ls : all_tokens qs = source_tokens row ls -> Forall words_ok ls -> laid_out ls ->
  exists r code, quote_code qs = Some (r, code) /\ forall e, exists t, execs code (e, new) = (e, t) /\
  outcome (format_items ops cfg string_writer (items t) (formatter_new [])) = (join (c_newline cfg) (output_lines ind [] ls), true).
Proof.
  intros AT W L.
  assert (NE : Forall (fun s => s <> []) (all_words ls)).
  { clear -W. induction W as [|l ls [W1 W2] _ IH]; [constructor|]. cbn. constructor; auto. apply Forall_app. split; auto.
    apply Forall_forall. intros s I. apply in_map_iff in I as (gw & <- & I). rewrite Forall_forall in W2. auto. }
  assert (AC : all_tokens qs = combine (map fst (@source_tokens LI E row ls)) (map LText (all_words ls))).
  { rewrite AT, <- (source_tokens_words row ls). clear. induction (source_tokens row ls) as [|[c l] ts IH]; [reflexivity|]. cbn. f_equal. exact IH. }
  assert (LN : length (map fst (@source_tokens LI E row ls)) = length (all_words ls)).
  { rewrite map_length. rewrite <- (map_length snd), source_tokens_words, map_length. reflexivity. }
  assert (G : exists ps w, gaps (map fst (@source_tokens LI E row ls)) None = Some (ps, w) /\ Forall quiet ps /\
     text (c_newline cfg) (spaced true 0 (combine (map snd ps) (all_words ls))) = join (c_newline cfg) (output_lines ind [] ls)).
  { destruct ls as [|l ls]; [exists [], None; repeat split; constructor|].
    cbn [source_tokens map fst gaps enter]. cbv zeta. set (rw := row + sl_empty l). cbn [word_cursor c_start c_end p_col].
    change [sl_col l] with (enclosing [sl_col l]). rewrite map_app, more_gaps.
    assert (F : fits [sl_col l] ls) by (apply (fits_laid_out ls [l]); [exact L|discriminate]).
    destruct (lines_gaps ls (S rw) (mk_pos rw (end_col (sl_col l + length (sl_word l)) (sl_more l))) [sl_col l] ltac:(discriminate) eq_refl F) as (ps & w & E1 & E2 & E3 & E4).
    rewrite E1. eexists; exists w. split; [reflexivity|]. split.
    - constructor; [intros _; reflexivity|]. apply Forall_app. split; auto. apply Forall_forall. intros [a p] I. apply in_map_iff in I as ([g w1] & X & _). unfold more_gap in X. injection X as <- <-.
      intros Q. cbn in *. rewrite Q. reflexivity.
    - cbn [map snd all_words flat_map line_words app combine spaced p_indent nothing]. fold (all_words ls).
      rewrite map_app, combine_app by (rewrite !map_length; reflexivity).
      rewrite spaced_app.
      2:{ apply Forall_forall. intros [p s] I. apply in_combine_l in I. apply in_map_iff in I as (ap & <- & I). apply in_map_iff in I as (gw & <- & _). reflexivity. }
      rewrite more_spaced. rewrite match_same.
      change (0 + 0)%Z with (Z.of_nat (level [sl_col l])). rewrite E4.
      cbn [output_lines app]. pose proof (rest_join ls [l] (indent_text ind (Z.of_nat (level (map sl_col [l]))) ++ line_text l) ltac:(discriminate)) as J.
      cbn [map app] in J |- *. etransitivity; [|symmetry; exact J]. cbn [level]. unfold gap_text. cbn [p_frozen p_space]. cbn [Nat.add blanks repeat].
      rewrite !text_app, pad_text, !text_chars. cbn [text flat_map]. unfold line_text. rewrite app_nil_r, <- !app_assoc. reflexivity. }
  destruct G as (ps & w & G & Q & T).
  destruct (plain_quote qs _ _ ps w AC LN NE G Q) as (r & code & QC & H). exists r, code. split; auto. intros e.
  destruct (H e) as (t & X & ns & D1 & D2 & D3). exists t. split; auto. rewrite D1, doc_string by auto. rewrite D3, T. reflexivity.
Qed.
End Render.
