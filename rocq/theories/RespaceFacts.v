(** * Quotes respace their source. *)
From Verif Require Import Str SpecStr Tokens SpecTokens Values Fmt SpecFmt SpecFile RenderFacts LayoutFacts OutputFacts
  Macro SpecMacro SpecWords WordsFacts Parse SpecParse SpecLex SpecReread.
From Coq Require Import Lia.

(** ** Words and the space between them *)
Inductive spaced : list (bool * str) -> str -> Prop :=
| spaced_end b : all_white b -> spaced [] b
| spaced_word b fl w ws s : all_white b -> (b = [] <-> fl = false) -> spaced ws s -> spaced ((fl, w) :: ws) (b ++ w ++ s).
Lemma spaced_respaced fs : forall ws ws' s s', length ws = length fs -> length ws' = length fs ->
  spaced (combine fs ws) s -> spaced (combine fs ws') s' -> respaced (combine ws ws') s s'.
Proof.
  induction fs as [|f fs IH]; intros [|w ws] [|w' ws'] s s' L L' A A'; try discriminate; cbn [combine] in *.
  - inversion A; inversion A'; subst. constructor; auto.
  - inversion A as [|b ? ? ? t B1 B2 A2]; inversion A' as [|b' ? ? ? t' B1' B2' A2']; subst.
    apply respaced_word; auto.
    split; intros H; [apply B2', B2, H|apply B2, B2', H].
Qed.

(** ** Positions *)
Lemma advance_app p a b : advance p (a ++ b) = advance (advance p a) b.
Proof. revert p. induction a as [|c a IH]; intros p; [reflexivity|]. cbn. apply IH. Qed.
Lemma advance_line p w : p_line p <= p_line (advance p w).
Proof.
  revert p. induction w as [|c w IH]; intros p; [cbn; lia|]. cbn [advance]. etransitivity; [|apply IH]. destruct (N.eqb c 10); cbn; lia.
Qed.
Lemma advance_col p w : p_line (advance p w) = p_line p -> p_col (advance p w) = p_col p + length w.
Proof.
  revert p. induction w as [|c w IH]; intros p H; [cbn; lia|]. cbn [advance] in *. destruct (N.eqb c 10).
  - pose proof (advance_line (mk_pos (S (p_line p)) 0) w). cbn [p_line] in *. lia.
  - rewrite IH by exact H. cbn. lia.
Qed.

(** Whether there is white space in front of each word. *)
Definition more_flags {W} (m : list (nat * W)) : list bool := map (fun '(g, _) => negb (g =? 0)) m.
Definition line_flags {W} (ls : list (line_of W)) : list bool := flat_map (fun l => true :: more_flags (ln_more l)) ls.
Lemma more_flags_map {W V} (f : W -> V) m : more_flags (map (fun '(g, w) => (g, f w)) m) = more_flags m.
Proof. unfold more_flags. rewrite map_map. apply map_ext. intros [g w]. reflexivity. Qed.
Lemma line_flags_map {W V} (f : W -> V) ls : line_flags (map (map_line f) ls) = line_flags ls.
Proof. induction ls as [|l ls IH]; [reflexivity|]. cbn [map line_flags flat_map map_line ln_more]. rewrite more_flags_map. unfold line_flags in IH. rewrite IH. reflexivity. Qed.

Section Lines.
Context {LI E D : Type}.
Notation leaf := (leaf LI E).
Notation word := (src_word LI E * D)%type.
Definition source_more (m : list (nat * word)) : list (nat * src_word LI E) := map (fun '(g, x) => (g, fst x)) m.
Definition the_word (p : pos) (w : str) (x : leaf) : src_word LI E :=
  let q := advance p w in
  mk_src_word x (p_line q - p_line p) (if p_line q - p_line p =? 0 then p_col q - p_col p else p_col q).
Lemma word_at p w x : src_cursor (p_line p) (p_col p) (the_word p w x) = mk_cursor p (advance p w).
Proof.
  unfold src_cursor, the_word. cbn [sw_rows sw_width]. pose proof (advance_line p w) as H1. pose proof (advance_col p w) as H2.
  destruct p as [l c]. destruct (advance _ w) as [l' c'] eqn:A. cbn [p_line p_col] in *.
  destruct (Nat.eqb_spec (l' - l) 0) as [Z|Z].
  - assert (l' = l) by lia. rewrite H2 by lia. subst. do 2 f_equal. lia.
  - do 2 f_equal. lia.
Qed.
(** Tokens in a text are words in lines. *)
Lemma written_lines p s toks : written p s toks -> forall frm b (xs : list (leaf * D)), all_white b -> p = advance frm b ->
  length xs = length toks -> exists more ls,
  combine (map fst toks) (map fst xs) = row_tokens frm (source_more more) ++ word_tokens (S (p_line (row_end frm (source_more more)))) (map (map_line fst) ls) /\
  map (fun '(_, x) => (sw_leaf (fst x), snd x)) more ++ flat_map (fun l => map (fun x => (sw_leaf (fst x), snd x)) (words_of l)) ls = xs /\
  map ln_col ls = starts_after (p_line frm) (map fst toks) /\
  spaced (combine (more_flags more ++ line_flags ls) (map snd toks)) (b ++ s).
Proof.
  induction 1 as [p|p c s l W H IH|p w s l N H IH]; intros frm b xs B P L.
  - destruct xs; [|discriminate]. exists [], []. repeat split. rewrite (app_nil_r b). apply spaced_end. exact B.
  - destruct (IH frm (b ++ [c]) xs) as (more & ls & H1 & H2 & H3 & H4); [apply Forall_app; split; auto|rewrite advance_app, <- P; reflexivity|exact L|].
    exists more, ls. rewrite <- app_assoc in H4. auto.
  - destruct xs as [|[x d] xs]; [discriminate|]. cbn [length] in L.
    destruct (IH (advance p w) [] xs) as (more & ls & H1 & H2 & H3 & H4); [constructor|reflexivity|lia|]. cbn [app] in H4.
    pose proof (advance_line frm b) as AL. pose proof (advance_col frm b) as AC. rewrite <- P in *.
    destruct (Nat.eq_dec (p_line p) (p_line frm)) as [SL|SL].
    + specialize (AC SL). exists ((length b, (the_word p w x, d)) :: more), ls.
      assert (CE : src_cursor (p_line frm) (p_col frm + length b) (the_word p w x) = mk_cursor p (advance p w)).
      { rewrite <- AC, <- SL. apply word_at. }
      cbn [source_more map fst snd combine row_tokens row_end app sw_leaf the_word]. unfold source_more in H1. rewrite CE. cbn [c_end].
      split; [f_equal; exact H1|]. split; [rewrite H2; reflexivity|]. split.
      * cbn [starts_after c_start c_end]. rewrite SL, Nat.eqb_refl. cbn [app]. exact H3.
      * cbn [more_flags map combine app]. apply spaced_word; [exact B| |exact H4]. destruct b; cbn; split; intros; (reflexivity || discriminate).
    + exists [], (mk_line_of (p_line p - S (p_line frm)) (p_col p) (the_word p w x, d) more :: ls).
      assert (RE : S (p_line frm) + (p_line p - S (p_line frm)) = p_line p) by lia.
      cbn [source_more map fst snd combine row_tokens row_end app word_tokens map_line ln_empty ln_col ln_word ln_more sw_leaf the_word flat_map words_of].
      rewrite RE, word_at. cbn [c_end].
      split; [f_equal; exact H1|]. split; [cbn [fst snd sw_leaf]; rewrite map_map; f_equal; rewrite <- H2; f_equal; apply map_ext; intros [g y]; reflexivity|]. split.
      * cbn [starts_after c_start c_end]. destruct (Nat.eqb_spec (p_line frm) (p_line p)); [lia|]. cbn [app]. f_equal. exact H3.
      * cbn [more_flags map combine app line_flags flat_map ln_more]. apply spaced_word; [exact B| |exact H4].
        split; [|discriminate]. intros ->. cbn in P. subst p. congruence.
Qed.
Lemma written_first p s toks : written p s toks ->
  (toks = [] /\ all_white s) \/
  exists b q w s' toks', s = b ++ w ++ s' /\ all_white b /\ w <> [] /\ toks = (mk_cursor q (advance q w), w) :: toks' /\ written (advance q w) s' toks'.
Proof.
  induction 1 as [p|p c s l W H IH|p w s l N H IH].
  - left. split; [reflexivity|constructor].
  - destruct IH as [[-> A]|(b & q & w & s' & toks' & -> & B & N & -> & H')].
    + left. split; [reflexivity|constructor; auto].
    + right. exists (c :: b), q, w, s', toks'. repeat split; auto. constructor; auto.
  - right. exists [], p, w, s, l. repeat split; auto. constructor.
Qed.
End Lines.

(** ** Output *)
Lemma white_blank n : all_white (repeat 32%N n).
Proof. induction n; constructor; auto. Qed.
Lemma white_indent ind lvl : all_white (indent_text ind lvl).
Proof. unfold indent_text. destruct ind; [apply white_blank|]. induction (Z.to_nat (Z.max lvl 0)); constructor; auto. Qed.
Lemma comb_fst {A B} (a : list A) : forall b : list B, length a = length b -> map fst (combine a b) = a.
Proof. induction a as [|x a IH]; intros [|y b] L; try discriminate; [reflexivity|]. cbn. f_equal. apply IH. cbn in L; lia. Qed.
Lemma comb_snd {A B} (a : list A) : forall b : list B, length a = length b -> map snd (combine a b) = b.
Proof. induction a as [|x a IH]; intros [|y b] L; try discriminate; [reflexivity|]. cbn. f_equal. apply IH. cbn in L; lia. Qed.
Lemma words_map {W V} (f : W -> V) ls : flat_map words_of (map (map_line f) ls) = map f (flat_map words_of ls).
Proof.
  induction ls as [|l ls IH]; [reflexivity|]. cbn [map flat_map]. rewrite IH, map_app. f_equal. unfold words_of. cbn. rewrite !map_map. f_equal.
  apply map_ext. intros [g w]; reflexivity.
Qed.
Section Output.
Context {LI E : Type} (ops : lang_ops LI) (cfg : config).
Notation doc := (list (node LI)).
Notation nl := (c_newline cfg).
Notation shown := (string_of ops cfg).
Notation ok := (fun d : doc => visible_ends (doc_atoms ops cfg d) /\ inline ops cfg d).
Context (white : all_white nl) (some : nl <> []).
Lemma spaced_more (m : list (nat * doc)) rest fs ws : spaced (combine fs ws) rest ->
  spaced (combine (more_flags m ++ fs) (map shown (map snd m) ++ ws))
    (flat_map (fun '(g, w) => (if g =? 0 then [] else $" ") ++ w) (map (fun '(g, d) => (g, shown d)) m) ++ rest).
Proof.
  intros H. induction m as [|[g d] m IH]; [exact H|]. cbn [more_flags map app combine flat_map snd].
  rewrite <- !app_assoc. apply spaced_word; [destruct (g =? 0); repeat constructor| |exact IH].
  destruct (g =? 0); split; intros; (reflexivity || discriminate).
Qed.
Lemma spaced_lines (ls : list (line_of doc)) : docs_ok ok ls -> forall before, before <> [] ->
  spaced (combine (line_flags ls) (map shown (flat_map words_of ls))) (text nl (shown_lines ops cfg before ls)).
Proof.
  induction ls as [|l ls IH]; intros F before N; [constructor; constructor|].
  unfold docs_ok in F. cbn [flat_map] in F. apply Forall_app in F as [F1 F2].
  cbn [shown_lines]. cbv zeta. rewrite !text_app, (inline_line _ _ _ l F1), pad_text, !text_chars.
  cbn [line_flags flat_map words_of map app combine]. rewrite map_app. unfold line_text. cbn [as_source sl_word sl_more].
  rewrite <- !app_assoc. rewrite (app_assoc _ (indent_text _ _)). apply spaced_word.
  - apply Forall_app. split; [|apply white_indent]. destruct before; [constructor|].
    destruct (ln_empty l =? 0); cbn; rewrite ?app_nil_r; [exact white|apply Forall_app; auto].
  - destruct before; [congruence|]. split; [|discriminate]. intros X. exfalso. destruct (ln_empty l =? 0); cbn in X; destruct nl; try discriminate; apply some; reflexivity.
  - apply spaced_more. apply IH; [exact F2|destruct before; discriminate].
Qed.
Lemma inline_closed d : inline ops cfg d -> open_levels ops cfg d = 0%Z.
Proof.
  unfold inline, open_levels. induction 1 as [|a l A _ IH]; [reflexivity|]. cbn [net]. rewrite IH. destruct a as [| | | |z]; try reflexivity.
  cbn [a_break] in A. cbn [a_indent]. destruct z; (reflexivity || discriminate).
Qed.
Lemma all_closed (ds : list (line_of doc)) : Forall (inline ops cfg) (flat_map words_of ds) -> lines_closed ops cfg ds.
Proof.
  induction ds as [|d ds IH]; intros F; [exact I|]. cbn [flat_map] in F. apply Forall_app in F as [F1 F2]. cbn [lines_closed]. split; [|split; [|apply IH; exact F2]].
  - unfold line_closed. apply Forall_forall. intros x X. apply inline_closed. rewrite Forall_forall in F1. apply F1.
    clear -X. induction (words_of d) as [|a l IH]; [destruct X|]. cbn [removelast] in X. destruct l; [destruct X|]. destruct X; [left; auto|right; auto].
  - destruct ds as [|d' ds]; [exact I|]. intros O. exfalso. assert (Q : open_levels ops cfg (last (words_of d) []) = 0%Z); [|rewrite Q in O; discriminate].
    apply inline_closed. rewrite Forall_forall in F1. apply F1. clear. unfold words_of. generalize (ln_word d). induction (map snd (ln_more d)) as [|b l IH]; intros a; [left; reflexivity|].
    right. cbn [last]. apply IH.
Qed.

(** ** A quote respaces its source *)
Theorem quote_respaces_clean (qs : list (quoted_item LI E)) p s ws e ds e' :
  written p s (combine (map fst (all_tokens qs)) ws) -> length ws = length (all_tokens qs) -> starts_fit (map fst (all_tokens qs)) ->
  all_show ops cfg (map snd (all_tokens qs)) e ds e' -> Forall (inline ops cfg) ds ->
  exists t out b s1, quote qs e = Some (e', t) /\
    outcome (format_items ops cfg string_writer (items t) (formatter_new [])) = (out, true) /\
    s = b ++ s1 /\ all_white b /\ respaced (combine ws (map shown ds)) s1 out /\
    (match ds with d :: _ => exists y r, doc_items d = y :: r /\ begins_text (l_format_item ops) y | [] => False end ->
     clean_start (l_format_item ops) t).
Proof.
  intros W L F A N.
  assert (LD : forall (xs : list (leaf LI E)) e0 ds0 e0', all_show ops cfg xs e0 ds0 e0' -> length ds0 = length xs).
  { clear. induction xs as [|x xs IH]; intros e0 [|d ds0] e0' H; try (reflexivity || contradiction). destruct H as (e1 & _ & H). cbn. f_equal. eapply IH; eauto. }
  pose proof (LD _ _ _ _ A) as LL. rewrite map_length in LL.
  destruct (written_first _ _ _ W) as [[Z WS]|(b & q & w & s' & toks & -> & B & WN & TK & W')].
  - destruct (all_tokens qs) as [|[c x] ts] eqn:AT; [|destruct ws; discriminate]. destruct ws; [|discriminate]. destruct ds; [|discriminate].
    cbn [map all_show] in A. subst e'.
    destruct (words_render ops cfg qs 0 [] [] e e) as (t & Q & O & _); [exact AT|intros ? ? ? X; destruct before; discriminate|split; [reflexivity|split; reflexivity]|].
    exists t, [], s, []. split; [exact Q|]. split; [exact O|]. split; [apply app_nil_end|]. split; [exact WS|]. split; [constructor; constructor|intros []].
  - destruct (all_tokens qs) as [|[c x] ts] eqn:AT; [discriminate|]. destruct ws as [|w0 ws]; [discriminate|]. destruct ds as [|d ds]; [discriminate|].
    cbn [map fst combine] in TK. injection TK as -> <- <-. cbn [length] in L, LL.
    destruct (written_lines _ _ _ W' (advance q w0) [] (combine (map snd ts) ds)) as (more & ls & T1 & T2 & T3 & T4); [constructor|reflexivity|
      rewrite !combine_length, !map_length; lia|]. cbn [app] in T4.
    set (l := mk_line_of 0 (p_col q) (the_word q w0 x, d) more).
    assert (LT : length (map fst ts) = length ws) by (rewrite map_length; lia).
    assert (LX : length (map snd ts) = length ds) by (rewrite map_length; lia).
    rewrite (comb_fst _ _ LT) in T1, T3. rewrite (comb_fst _ _ LX) in T1. rewrite (comb_snd _ _ LT) in T4.
    assert (LN : flat_map words_of (l :: ls) = (the_word q w0 x, d) :: map snd more ++ flat_map words_of ls) by reflexivity.
    assert (T2' : map (fun y => (sw_leaf (fst y), snd y)) (map snd more ++ flat_map words_of ls) = combine (map snd ts) ds).
    { rewrite <- T2, map_app, map_map. f_equal; [apply map_ext; intros [g y]; reflexivity|]. clear. induction ls as [|l0 ls IH]; [reflexivity|].
      cbn [flat_map]. rewrite map_app, IH. reflexivity. }
    assert (FL : length (more_flags more ++ line_flags ls) = length ts).
    { transitivity (length (combine (map snd ts) ds)); [|rewrite combine_length, map_length; lia]. rewrite <- T2', map_length, !app_length. f_equal; [unfold more_flags; rewrite !map_length; reflexivity|].
      clear. induction ls as [|l0 ls IH]; [reflexivity|]. cbn [line_flags flat_map]. rewrite !app_length. f_equal; [cbn; unfold more_flags; rewrite !map_length; reflexivity|exact IH]. }
    assert (WL : map sw_leaf (flat_map words_of (map (map_line fst) (l :: ls))) = x :: map snd ts).
    { rewrite words_map, LN, map_map. cbn [map fst the_word sw_leaf]. f_equal. rewrite <- (comb_fst _ _ LX), <- T2', map_map. reflexivity. }
    assert (WD : flat_map words_of (map (map_line snd) (l :: ls)) = d :: ds).
    { rewrite words_map, LN. cbn [map snd]. f_equal. rewrite <- (comb_snd _ _ LX), <- T2', map_map. reflexivity. }
    assert (SH : docs_ok ok (map (map_line snd) (l :: ls))).
    { unfold docs_ok. rewrite WD. apply all_show_visible in A. rewrite Forall_forall in *. auto. }
    destruct (words_render ops cfg qs (p_line q) (map (map_line fst) (l :: ls)) (map (map_line snd) (l :: ls)) e e') as (t & Q & O & CL & _).
    + rewrite AT. unfold l. cbn [map map_line ln_empty ln_col ln_word ln_more fst word_tokens]. cbv zeta. rewrite Nat.add_0_r, word_at. cbn [c_end].
      f_equal. fold (source_more more). rewrite <- T1. symmetry. clear. induction ts as [|[a b] ts IH]; [reflexivity|]. cbn. f_equal. exact IH.
    + unfold lines_fit. intros before col after X. apply (F before col after). rewrite <- X. unfold l. cbn [map fst line_starts c_start c_end map_line ln_col].
      rewrite <- T3. f_equal. rewrite map_map. reflexivity.
    + split; [rewrite !map_map; apply map_ext; intros [a1 a2 a3 a4]; unfold map_line; cbn; f_equal; rewrite !map_map; apply map_ext; intros [g y]; reflexivity|].
      split; [rewrite WL, WD; exact A|]. apply all_closed. rewrite WD. exact N.
    + exists t. eexists. exists b, (w0 ++ s'). split; [exact Q|]. split; [exact O|]. split; [reflexivity|]. split; [exact B|]. split; [|intros H; apply text_first_clean; apply CL; exact H].
      unfold l in *. cbn [map] in SH |- *. unfold docs_ok in SH. cbn [flat_map] in SH. apply Forall_app in SH as [S1 S2].
      cbn [shown_lines]. cbv zeta. rewrite (inline_line _ _ _ _ S1), !text_app, pad_text, !text_chars.
      cbn [map_line ln_col ln_empty ln_word ln_more snd as_source]. unfold line_text. cbn [sl_word sl_more app]. 
      rewrite <- !app_assoc. cbn [combine].
      replace (indent_text (c_indentation cfg) (Z.of_nat (level [p_col q]))) with (@nil BinNums.N) by (cbn; destruct (c_indentation cfg); cbn; rewrite ?Nat.mul_0_r; reflexivity).
      cbn [text flat_map app]. apply (respaced_word [] []); [constructor|constructor|tauto|].
      apply (spaced_respaced (more_flags more ++ line_flags ls)); [| |exact T4|].
      * rewrite FL. lia.
      * rewrite map_length, FL. lia.
      * assert (DD : ds = map snd (map (fun '(g, y) => (g, snd y)) more) ++ flat_map words_of (map (map_line snd) ls)).
        { cbn [map flat_map] in WD. unfold words_of at 1 in WD. cbn [map_line ln_word ln_more snd app] in WD. injection WD as <-. reflexivity. }
        rewrite DD, map_app, <- (more_flags_map snd more), <- (line_flags_map snd ls). apply spaced_more. apply spaced_lines; [exact S2|discriminate].
Qed.
Corollary quote_respaces (qs : list (quoted_item LI E)) p s ws e ds e' :
  written p s (combine (map fst (all_tokens qs)) ws) -> length ws = length (all_tokens qs) -> starts_fit (map fst (all_tokens qs)) ->
  all_show ops cfg (map snd (all_tokens qs)) e ds e' -> Forall (inline ops cfg) ds ->
  exists t out b s1, quote qs e = Some (e', t) /\
    outcome (format_items ops cfg string_writer (items t) (formatter_new [])) = (out, true) /\
    s = b ++ s1 /\ all_white b /\ respaced (combine ws (map shown ds)) s1 out.
Proof.
  intros W L F A N. destruct (quote_respaces_clean qs p s ws e ds e' W L F A N) as (t & out & b & s1 & H1 & H2 & H3 & H4 & H5 & _).
  exists t, out, b, s1. auto.
Qed.
End Output.

(** ** Words *)
Definition lead (s : str) : bool := next_satisfies (fun c => negb (is_white c)) s.
Lemma words_white b s : all_white b -> words (b ++ s) = words s.
Proof. induction 1 as [|c b W B IH]; [reflexivity|]. cbn. rewrite W. exact IH. Qed.
Lemma words_cons c r : words (c :: r) = if is_white c then words r else match r with [] => [[c]] | d :: _ =>
  if is_white d then [c] :: words r else match words r with w :: ws => (c :: w) :: ws | [] => [[c]] end end.
Proof. reflexivity. Qed.
Lemma words_prefix w : forall s s', words s = words s' -> lead s = lead s' ->
  words (w ++ s) = words (w ++ s') /\ lead (w ++ s) = lead (w ++ s').
Proof.
  induction w as [|c w IH]; intros s s' H L; [auto|]. destruct (IH s s' H L) as [H' L']. split; [|reflexivity].
  cbn [app]. rewrite (words_cons c (w ++ s)), (words_cons c (w ++ s')). destruct (is_white c); [exact H'|].
  destruct (w ++ s) as [|d x], (w ++ s') as [|d' x']; unfold lead in L'; cbn [next_satisfies] in L'; try reflexivity.
  - destruct (is_white d'); [|discriminate]. rewrite <- H'. reflexivity.
  - destruct (is_white d); [|discriminate]. rewrite H'. reflexivity.
  - rewrite H'. destruct (is_white d), (is_white d'); try discriminate; reflexivity.
Qed.
Lemma respaced_words ws : forall s s', respaced (map (fun w => (w, w)) ws) s s' -> words s = words s' /\ lead s = lead s'.
Proof.
  induction ws as [|w ws IH]; intros s s' R; cbn [map] in R.
  - inversion R as [b b' B B'|]; subst. rewrite <- (app_nil_r s), <- (app_nil_r s') at 1. rewrite (words_white s), (words_white s') by assumption. split; [reflexivity|].
    destruct B as [|c b W], B' as [|c' b' W']; cbn; rewrite ?W, ?W'; reflexivity.
  - inversion R as [|b b' ? ? ? t t' B B' BB RS]; subst. destruct (IH _ _ RS) as [H L]. destruct (words_prefix w _ _ H L) as [H' L'].
    rewrite (words_white b), (words_white b') by assumption. split; [exact H'|]. destruct b as [|c b].
    + rewrite (proj1 BB eq_refl). exact L'.
    + destruct b' as [|c' b']; [destruct BB as [_ BB]; discriminate (BB eq_refl)|]. inversion B as [|? ? W]; inversion B' as [|? ? W']; subst. cbn. rewrite W, W'. reflexivity.
Qed.
