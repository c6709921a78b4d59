(** * Comments as the languages read them (C89).

    Vocabulary: [SpecReadComment.v]. *)
From Verif Require Import Str Tokens SpecTokens TokensRun Values Fmt SpecFmt RenderFacts OutputFacts StringFacts SpecFile SpecStr
  HeaderFacts LangBase LangDart LangJava LangCsharp SpecComment CommentFacts PropsFmt PropsLang PropsComment LayoutFacts SpecReadComment.

(** ** The text of a comment at a level of indentation *)
Lemma own_history nl ind lines : forall lvl, text nl (history_from ind false lvl nothing (own_lines lines)) =
  flat_map (fun l => nl ++ indent_text ind lvl ++ l) lines.
Proof.
  induction lines as [|l lines IH]; intros lvl; [reflexivity|]. change (own_lines (l :: lines)) with (TPush :: TText l :: own_lines lines).
  cbn [history_from request p_breaks p_space p_frozen p_indent nothing Nat.max flat_map]. cbv zeta. rewrite Z.add_0_r, !text_app, IH.
  unfold gap_text. cbn [p_breaks p_space Nat.eqb repeat]. rewrite !text_app, pad_text, !text_chars. cbn [text flat_map sym_text blanks repeat app]. rewrite ?app_nil_r, <- ?app_assoc. reflexivity.
Qed.
Lemma indents_from ind k h : forall i, (0 < i)%Z -> history_from ind true 0 (mk_pending 1 false 0 i) (repeat TIndent k ++ h) =
  history_from ind true 0 (mk_pending 1 false 0 (i + Z.of_nat k)) h.
Proof.
  induction k as [|k IH]; intros i P; [cbn [repeat app]; rewrite Z.add_0_r; reflexivity|]. cbn [repeat app history_from request]. unfold change_indent. cbn [p_indent].
  destruct (Z.eqb_spec (i + 1) 0); [lia|]. rewrite IH by lia. do 2 f_equal. lia.
Qed.
Lemma comment_text nl ind k lines : lines <> [] -> text nl (history_layout ind (repeat TIndent k ++ own_lines lines ++ [])) =
  stack nl (map (fun l => indent_text ind (Z.of_nat k) ++ l) lines).
Proof.
  intros NE. rewrite app_nil_r. destruct lines as [|l lines]; [congruence|]. clear NE.
  assert (E : exists p, p_space p = false /\ p_frozen p = 0 /\ p_indent p = Z.of_nat k /\ history_layout ind (repeat TIndent k ++ own_lines (l :: lines)) =
    gap_text ind true (Z.of_nat k) p ++ map Ch l ++ history_from ind false (Z.of_nat k) nothing (own_lines lines)).
  { unfold history_layout. destruct k as [|k].
    - exists (mk_pending 1 false 0 0). repeat split.
    - change (repeat TIndent (S k)) with (TIndent :: repeat TIndent k). exists (mk_pending 1 false 0 (1 + Z.of_nat k)). cbn [p_space p_frozen p_indent]. repeat split; [lia|].
      change (history_from ind true 0 nothing ((TIndent :: repeat TIndent k) ++ own_lines (l :: lines))) with
        (history_from ind true 0 (mk_pending 1 false 0 1) (repeat TIndent k ++ own_lines (l :: lines))). rewrite indents_from by lia.
      change (own_lines (l :: lines)) with (TPush :: TText l :: own_lines lines). cbn [history_from request p_breaks p_space p_frozen p_indent Nat.max]. cbv zeta.
      replace (0 + (1 + Z.of_nat k))%Z with (Z.of_nat (S k)) by lia. reflexivity. }
  destruct E as (p & P1 & P2 & P3 & ->). rewrite !text_app, own_history, text_chars. unfold gap_text. rewrite P1, P2, text_app, pad_text. cbn [Nat.add blanks repeat text flat_map]. rewrite ?app_nil_r, ?text_chars.
  revert l. induction lines as [|l2 lines IH]; intros l; [cbn; rewrite ?app_nil_r; reflexivity|]. cbn [flat_map map]. 
  change (stack nl (?a :: ?b :: ?c)) with (a ++ nl ++ stack nl (b :: c)). cbn [map] in IH. rewrite <- IH, <- !app_assoc. reflexivity.
Qed.

(** ** Lines *)
Section Lines.
Context (term : N -> bool) (lf : term 10%N = true) (cr : term 13%N = true).
Definition unended (s : str) : Prop := Forall (fun c => term c = false) s.
Lemma read_unended s : Forall unended (read_lines term s).
Proof.
  assert (H : forall n s, length s <= n -> Forall unended (read_lines term s)).
  { clear s. induction n as [|n IH]; intros [|c s] L; cbn [length] in L; try lia; try (repeat constructor; fail). cbn [read_lines]. destruct (term c) eqn:T.
    - destruct s as [|d s]; [repeat constructor|]. cbn [length] in L. destruct (_ && _); (constructor; [constructor|apply IH; cbn [length]; lia]).
    - specialize (IH s ltac:(lia)). destruct (read_lines term s) as [|l ls]; [repeat constructor; exact T|]. inversion IH; subst. constructor; [constructor; assumption|assumption]. }
  apply (H (length s)). apply Nat.le_refl.
Qed.
Lemma read_more a nl r : unended a -> nl = [10%N] \/ nl = [13; 10]%N -> read_lines term (a ++ nl ++ r) = a :: read_lines term r.
Proof.
  intros U NL. induction U as [|c a T _ IH].
  - cbn [app]. destruct NL as [->| ->]; cbn [app read_lines].
    + rewrite lf. destruct r; [reflexivity|]. cbn [N.eqb Pos.eqb andb]. reflexivity.
    + rewrite cr. reflexivity.
  - cbn [app read_lines]. rewrite T, IH. reflexivity.
Qed.
Lemma read_last a : unended a -> read_lines term a = [a].
Proof. induction 1 as [|c a T _ IH]; [reflexivity|]. cbn [read_lines]. rewrite T, IH. reflexivity. Qed.
Lemma read_stack nl ls : nl = [10%N] \/ nl = [13; 10]%N -> ls <> [] -> (read_lines term (stack nl ls) = ls <-> Forall unended ls).
Proof.
  intros NL NE. split; [intros <-; apply read_unended|]. intros F. induction F as [|a ls U F IH]; [congruence|].
  destruct ls as [|b ls]; [apply read_last; exact U|]. change (stack nl (a :: b :: ls)) with (a ++ nl ++ stack nl (b :: ls)).
  rewrite read_more by assumption. f_equal. apply IH. discriminate.
Qed.
Lemma unended_app a b : unended (a ++ b) <-> unended a /\ unended b.
Proof. apply Forall_app. Qed.
Lemma unended_indent ind k : term 32%N = false -> term 9%N = false -> unended (indent_text ind k).
Proof. intros T1 T2. apply Forall_forall. intros c H. unfold indent_text in H. destruct ind; apply repeat_spec in H; subst; assumption. Qed.
End Lines.

Lemma blanks_indent ind k : Forall (fun c => c = 32%N \/ c = 9%N) (indent_text ind k).
Proof. apply Forall_forall. intros c H. unfold indent_text in H. destruct ind; apply repeat_spec in H; subst; auto. Qed.

(** [helper] on a fresh stream at level [k]: the text is read as one comment line for each
    line that is given, exactly if none of these contains a line terminator; then every
    line of the text is only a comment. *)
Definition read_as_lines {LI C F} (L : lang_def LI C F) (term : N -> bool)
    (helper : list item_str -> tokens LI -> tokens LI) (prefix : str) : Prop :=
  forall cfg c f k ls, ls <> [] -> c_newline cfg = [10%N] \/ c_newline cfg = [13; 10]%N ->
  exists s, renders L cfg c f (helper ls (build (repeat CIndent k))) s /\
    let given := Forall (fun l => Forall (fun c => term c = false) (content l)) ls in
    (read_lines term s = map (fun l => indent_text (c_indentation cfg) (Z.of_nat k) ++ comment_line prefix l) ls <-> given) /\
    (given -> Forall only_comment (read_lines term s)).

Lemma as_lines {LI C F} (L : lang_def LI C F) term helper prefix more : prefix = $"//" ++ more ->
  term 10%N = true -> term 13%N = true -> term 32%N = false -> term 9%N = false -> Forall (fun c => term c = false) prefix ->
  writes_comment L helper (line_comment prefix) -> read_as_lines L term helper prefix.
Proof.
  intros EP T1 T2 T3 T4 TP W cfg c f k ls NE NL. specialize (W cfg c f (repeat TIndent k) [] ls).
  assert (A1 : texts_not_empty (repeat TIndent k)) by (intros s H; apply repeat_spec in H; discriminate).
  assert (A2 : texts_not_empty []) by (intros s []). assert (A3 : next_starts_line []) by (intros [|] ? ? H; discriminate).
  specialize (W A1 A2 A3). rewrite comment_text in W by (unfold line_comment; destruct ls; [congruence|discriminate]).
  assert (EC : map act_call (repeat TIndent k) = repeat (@CIndent LI) k) by (clear; induction k; cbn; congruence). rewrite EC in W. cbn [map] in W.
  unfold line_comment in W. rewrite map_map in W. eexists. split; [exact W|]. intros given.
  assert (MN : map (fun l => indent_text (c_indentation cfg) (Z.of_nat k) ++ comment_line prefix l) ls <> []) by (destruct ls; [congruence|discriminate]).
  assert (U : Forall (unended term) (map (fun l => indent_text (c_indentation cfg) (Z.of_nat k) ++ comment_line prefix l) ls) <-> given).
  { unfold given. rewrite Forall_map. rewrite !Forall_forall. split; intros H l Hl; specialize (H l Hl).
    - apply unended_app in H as [_ H]. unfold comment_line in H. destruct (content l) as [|x y]; [constructor|]. apply unended_app in H as [_ H]. apply unended_app in H as [_ H]. exact H.
    - apply unended_app. split; [apply unended_indent; assumption|]. unfold comment_line. destruct (content l) as [|x y]; [exact TP|]. apply unended_app. split; [exact TP|]. apply unended_app. split; [repeat constructor; exact T3|exact H]. }
  split.
  - rewrite (read_stack term T1 T2 _ _ NL MN). exact U.
  - intros G. rewrite (proj2 (read_stack term T1 T2 _ _ NL MN)) by (apply U; exact G). apply Forall_map, Forall_forall. intros l _.
    exists (indent_text (c_indentation cfg) (Z.of_nat k)). unfold comment_line. rewrite EP. destruct (content l) as [|x y]; [exists more|exists (more ++ $" " ++ x :: y)]; (split; [rewrite <- ?app_assoc; reflexivity|apply blanks_indent]).
Qed.
Theorem C89_dart : read_as_lines dart_lang dart_terminator dart_doc_comment $"///".
Proof. apply as_lines with (more := $"/"); try reflexivity; [repeat constructor|apply C49_dart]. Qed.
Print Assumptions C89_dart.
Theorem C89_csharp : read_as_lines csharp_lang cs_terminator cs_comment $"//".
Proof. apply as_lines with (more := []); try reflexivity; [repeat constructor|apply C49_csharp]. Qed.
Print Assumptions C89_csharp.
Theorem C89_csharp_doc : read_as_lines csharp_lang cs_terminator cs_block_comment $"///".
Proof. apply as_lines with (more := $"/"); try reflexivity; [repeat constructor|apply C49_csharp_doc]. Qed.
Print Assumptions C89_csharp_doc.

(** ** Blocks *)
Fixpoint star_after (star : bool) (s : str) : bool := match s with [] => star | c :: s' => star_after (N.eqb c 42) s' end.
Lemma block_app a : forall star r, after_block star (a ++ r) =
  match after_block star a with Some x => Some (x ++ r) | None => after_block (star_after star a) r end.
Proof. induction a as [|c a IH]; intros star r; [reflexivity|]. cbn [app after_block star_after]. destruct (_ && _); [reflexivity|apply IH]. Qed.
Lemma block_contains s : forall star, after_block star s <> None <-> (star = true /\ exists s', s = 47%N :: s') \/ contains $"*/" s.
Proof.
  induction s as [|c s IH]; intros star; cbn [after_block].
  - split; [congruence|]. intros [[_ [s' H]]|(b & a & H)]; [discriminate|]. destruct b; discriminate.
  - destruct (star && N.eqb c 47) eqn:EC.
    + split; [|discriminate]. intros _. left. apply andb_prop in EC as [-> EC]. apply N.eqb_eq in EC as ->. eauto.
    + rewrite IH. clear IH. split.
      * intros [[H (s' & ->)]|(b & a & ->)]; right; [apply N.eqb_eq in H as ->; exists [], s'; reflexivity|exists (c :: b), a; reflexivity].
      * intros [[-> (s' & H)]|([|x b] & a & H)].
        -- injection H as -> ->. discriminate.
        -- injection H as -> ->. left. split; [reflexivity|]. exists a. reflexivity.
        -- injection H as -> ->. right. exists b, a. reflexivity.
Qed.
Lemma quiet_block s : ~ In 47%N s -> forall star, after_block star s = None.
Proof. induction s as [|c s IH]; intros H star; [reflexivity|]. cbn [after_block]. destruct (N.eqb_spec c 47) as [->|N]; [exfalso; apply H; left; reflexivity|]. rewrite andb_false_r. apply IH. intros X. apply H. right. exact X. Qed.
Lemma star_snoc s c : forall star, star_after star (s ++ [c]) = N.eqb c 42.
Proof. induction s as [|x s IH]; intros star; [reflexivity|]. apply IH. Qed.
Lemma quiet_indent ind k : ~ In 47%N (indent_text ind k).
Proof. intros H. unfold indent_text in H. destruct ind; apply repeat_spec in H; discriminate. Qed.

Section Block.
Context (ind : indentation_kind) (lvl : Z) (nl : str) (NL : nl = [10%N] \/ nl = [13; 10]%N).
Let pad_ (l : str) : str := indent_text ind lvl ++ l.
Lemma star_nl s star : star_after star (s ++ nl) = false.
Proof. destruct NL as [->| ->]; [apply star_snoc|]. change [13; 10]%N with ([13%N] ++ [10%N]). rewrite app_assoc. apply star_snoc. Qed.
Lemma quiet_nl : ~ In 47%N nl.
Proof. destruct NL as [->| ->]; cbn; intuition discriminate. Qed.
(** A line of the comment and its end. *)
Lemma block_line l r star : after_block star (pad_ (comment_line $" *" l) ++ nl ++ r) =
  match after_block false (content l) with
  | Some x => Some (x ++ nl ++ r)
  | None => after_block false r
  end.
Proof.
  unfold pad_, comment_line. rewrite <- app_assoc, block_app, (quiet_block _ (quiet_indent ind lvl)).
  assert (E : forall star, after_block star ((match content l with [] => $" *" | s => $" *" ++ $" " ++ s end) ++ nl ++ r) =
    match after_block false (content l) with Some x => Some (x ++ nl ++ r) | None => after_block false r end).
  { intros st. assert (EN : forall s st, after_block st s = None -> after_block st (s ++ nl ++ r) = after_block false r).
    { intros s st2 H. rewrite app_assoc, block_app. rewrite block_app, H, (quiet_block nl quiet_nl), star_nl. reflexivity. }
    destruct (content l) as [|x y].
    - apply EN. destruct st; reflexivity.
    - cbn [app]. change ($" *" ++ $" " ++ x :: y) with ([32; 42; 32]%N ++ x :: y). rewrite <- app_assoc, block_app.
      assert (Q : after_block st [32; 42; 32]%N = None) by (destruct st; reflexivity). rewrite Q. cbn [star_after]. change (N.eqb 32 42) with false.
      destruct (after_block false (x :: y)) as [z|] eqn:B; [rewrite block_app, B; reflexivity|apply EN; exact B]. }
  apply E.
Qed.
Lemma block_rest ls : forall star, after_block star (stack nl (map pad_ (line_comment $" *" ls ++ [$" */"]))) = Some [] <->
  Forall (fun l => ~ contains $"*/" (content l)) ls.
Proof.
  induction ls as [|l ls IH]; intros star.
  - cbn [line_comment map app stack]. unfold pad_. rewrite block_app, (quiet_block _ (quiet_indent ind lvl)). split; [intros _; constructor|intros _].
    generalize (star_after star (indent_text ind lvl)). intros []; reflexivity.
  - assert (ST : stack nl (map pad_ (line_comment $" *" (l :: ls) ++ [$" */"])) =
      pad_ (comment_line $" *" l) ++ nl ++ stack nl (map pad_ (line_comment $" *" ls ++ [$" */"]))) by (destruct ls; reflexivity).
    rewrite ST, block_line. pose proof (block_contains (content l) false) as BC. destruct (after_block false (content l)) as [x|].
    + split.
      * intros H. exfalso. assert (L : length (x ++ nl ++ stack nl (map pad_ (line_comment $" *" ls ++ [$" */"]))) = 0) by (injection H as H; rewrite H; reflexivity).
        rewrite !app_length in L. destruct NL as [->| ->]; cbn in L; lia.
      * intros F. apply Forall_inv in F. exfalso. destruct (proj1 BC ltac:(discriminate)) as [[? _]|C]; [discriminate|contradiction].
    + rewrite IH. split; [intros F; constructor; [|exact F]|intros F; inversion F; assumption]. intros C. apply (proj2 BC); [right; exact C|reflexivity].
Qed.
End Block.

Lemma one_block_exact ind k nl ls : ls <> [] -> nl = [10%N] \/ nl = [13; 10]%N ->
  (one_block (stack nl (map (fun l => indent_text ind (Z.of_nat k) ++ l) (block_comment ls))) <-> Forall (fun l => ~ contains $"*/" (content l)) ls).
Proof.
  intros NE NL. destruct ls as [|l ls]; [congruence|]. cbn [block_comment].
  pose proof (block_rest ind (Z.of_nat k) nl NL (l :: ls) false) as BR.
  set (rest := stack nl (map (fun l0 => indent_text ind (Z.of_nat k) ++ l0) (line_comment $" *" (l :: ls) ++ [$" */"]))).
  assert (ST : stack nl (map (fun l0 => indent_text ind (Z.of_nat k) ++ l0) ($"/**" :: line_comment $" *" (l :: ls) ++ [$" */"])) =
    indent_text ind (Z.of_nat k) ++ $"/*" ++ [42%N] ++ nl ++ rest) by (transitivity ((indent_text ind (Z.of_nat k) ++ $"/**") ++ nl ++ rest); [reflexivity|rewrite <- app_assoc; reflexivity]).
  rewrite ST. assert (AB : after_block false ([42%N] ++ nl ++ rest) = after_block false rest).
  { cbn [app after_block]. rewrite block_app, (quiet_block nl (quiet_nl nl NL)). change nl with ([] ++ nl). rewrite (star_nl nl NL []). reflexivity. }
  change (after_block false rest = Some [] <-> Forall (fun l => ~ contains $"*/" (content l)) (l :: ls)) in BR. rewrite <- BR, <- AB. split.
  - intros (b & r & E & F & H). assert (EQ : [42%N] ++ nl ++ rest = r); [|rewrite EQ; exact H].
    pose proof (blanks_indent ind (Z.of_nat k)) as F2. clearbody rest. clear -E F F2. revert b E F. induction F2 as [|x i X _ IH]; intros [|y b] E F.
    + cbn [app] in E. injection E as E. exact E.
    + apply Forall_inv in F. injection E as <- _. destruct F; discriminate.
    + injection E as -> _. destruct X; discriminate.
    + injection E as _ E. inversion F; subst. apply (IH b E). assumption.
  - intros H. eexists _, _. split; [reflexivity|]. split; [apply blanks_indent|exact H].
Qed.


(** *** Unicode escapes *)
Definition translated : str -> option str := java_escapes JText.
Definition joined (a b : option str) : option str := match a, b with Some x, Some y => Some (x ++ y) | _, _ => None end.
Lemma joined_char c a b : joined (emit_char c a) b = emit_char c (joined a b).
Proof. destruct a, b; reflexivity. Qed.
Lemma escapes_end a x r : N.eqb x 92 = false -> N.eqb x 117 = false -> hex_digit x = None ->
  forall st, java_escapes st (a ++ x :: r) = joined (java_escapes st a) (emit_char x (translated r)).
Proof.
  intros H1 H2 H3.
  induction a as [|c a IH]; intros st.
  - destruct st; cbn [app java_escapes]; rewrite ?H1, ?H2, ?H3; try reflexivity; unfold translated; destruct (java_escapes JText r); reflexivity.
  - cbn [app java_escapes]. destruct st.
    + destruct (N.eqb c 92); rewrite IH, ?joined_char; reflexivity.
    + destruct (N.eqb c 117); rewrite IH, ?joined_char; reflexivity.
    + destruct (N.eqb c 117); [apply IH|]. destruct (hex_digit c); [apply IH|reflexivity].
    + destruct (hex_digit c); [|reflexivity]. destruct (n =? 3); rewrite IH, ?joined_char; reflexivity.
Qed.
Lemma translated_plain a r : Forall (fun c => N.eqb c 92 = false) a -> translated (a ++ r) = joined (Some a) (translated r).
Proof.
  unfold translated. induction 1 as [|c a H _ IH]; [cbn [app]; destruct (java_escapes JText r); reflexivity|]. cbn [app java_escapes]. rewrite H, IH. destruct (java_escapes JText r); reflexivity.
Qed.
Lemma translated_line a nl r : nl = [10%N] \/ nl = [13; 10]%N -> translated (a ++ nl ++ r) = joined (translated a) (joined (Some nl) (translated r)).
Proof.
  intros [->| ->]; cbn [app]; unfold translated; rewrite escapes_end by reflexivity.
  - unfold translated. destruct (java_escapes JText r); reflexivity.
  - unfold translated. cbn [java_escapes N.eqb Pos.eqb]. destruct (java_escapes JText r); reflexivity.
Qed.
Lemma escapes_empty s : translated s = Some [] -> s = [].
Proof.
  assert (H : forall st, java_escapes st s = Some [] -> st = JText /\ s = []).
  { induction s as [|c s IH]; intros st; cbn [java_escapes].
    - destruct st; try discriminate. auto.
    - destruct st.
      + destruct (N.eqb c 92); [intros E; apply IH in E as [E _]; discriminate|]. destruct (java_escapes JText s); discriminate.
      + destruct (N.eqb c 117); [intros E; apply IH in E as [E _]; discriminate|]. destruct (java_escapes JText s); discriminate.
      + destruct (N.eqb c 117); [intros E; apply IH in E as [E _]; discriminate|]. destruct (hex_digit c); [|discriminate]. intros E; apply IH in E as [E _]; discriminate.
      + destruct (hex_digit c); [|discriminate]. destruct (n =? 3); [destruct (java_escapes JText s); discriminate|]. intros E; apply IH in E as [E _]; discriminate. }
  intros E. apply H in E. tauto.
Qed.
Lemma indent_plain ind k : Forall (fun c => N.eqb c 92 = false) (indent_text ind k).
Proof. apply Forall_forall. intros c H. unfold indent_text in H. destruct ind; apply repeat_spec in H; subst; reflexivity. Qed.
Lemma translated_comment ind k l : translated (indent_text ind k ++ comment_line $" *" l) =
  option_map (fun w => indent_text ind k ++ comment_line $" *" (Box w)) (translated (content l)).
Proof.
  rewrite translated_plain by apply indent_plain. unfold comment_line. cbn [content]. pose proof (escapes_empty (content l)) as EE.
  destruct (content l) as [|x y] eqn:C; [reflexivity|]. rewrite (app_assoc $" *"), translated_plain by (repeat constructor).
  destruct (translated (x :: y)) as [[|a b]|] eqn:T; [discriminate (EE eq_refl)| |reflexivity]. cbn [joined option_map]. rewrite <- app_assoc. reflexivity.
Qed.
(** What the lines become. *)
Inductive all_translated : list item_str -> list item_str -> Prop :=
| AtNil : all_translated [] []
| AtCons l ls w ws : translated (content l) = Some w -> all_translated ls ws -> all_translated (l :: ls) (Box w :: ws).
Lemma translated_body ind k nl ls : nl = [10%N] \/ nl = [13; 10]%N -> forall s',
  let body ls := stack nl (map (fun l => indent_text ind k ++ l) (line_comment $" *" ls ++ [$" */"])) in
  translated (body ls) = Some s' <-> exists ws, all_translated ls ws /\ s' = body ws.
Proof.
  intros NL. induction ls as [|l ls IH]; intros s' body.
  - unfold body at 1. cbn [line_comment map app stack]. rewrite translated_plain by apply indent_plain. change (translated $" */") with (Some $" */"). cbn [joined].
    split; [intros E; injection E as <-; exists []; split; [constructor|reflexivity]|]. intros (ws & A & ->). inversion A; subst. reflexivity.
  - assert (ST : forall l ls, body (l :: ls) = (indent_text ind k ++ comment_line $" *" l) ++ nl ++ body ls) by (intros ? [|]; reflexivity).
    rewrite ST, translated_line, translated_comment by exact NL. split.
    + intros E. destruct (translated (content l)) as [w|] eqn:T; [|discriminate]. cbn [option_map joined] in E.
      destruct (translated (body ls)) as [b|] eqn:B; [|discriminate]. apply IH in B as (ws & A & ->). injection E as <-. exists (Box w :: ws). split; [constructor; assumption|]. rewrite ST. reflexivity.
    + intros (ws & A & ->). inversion A as [|? ? w ws2 T A2]; subst. rewrite T. cbn [option_map joined]. rewrite ST.
      assert (B : translated (body ls) = Some (body ws2)) by (apply IH; exists ws2; split; [exact A2|reflexivity]).
      rewrite B. reflexivity.
Qed.
Lemma translated_block ind k nl ls s' : ls <> [] -> nl = [10%N] \/ nl = [13; 10]%N ->
  let whole ls := stack nl (map (fun l => indent_text ind k ++ l) (block_comment ls)) in
  translated (whole ls) = Some s' <-> exists ws, all_translated ls ws /\ s' = whole ws.
Proof.
  intros NE NL whole. assert (ST : forall ls, ls <> [] -> whole ls = (indent_text ind k ++ $"/**") ++ nl ++ stack nl (map (fun l => indent_text ind k ++ l) (line_comment $" *" ls ++ [$" */"])))
    by (intros [|]; [congruence|reflexivity]).
  rewrite ST, translated_line, translated_plain by (exact NL || apply indent_plain || exact NE). change (translated $"/**") with (Some $"/**"). cbn [joined].
  pose proof (translated_body ind k nl ls NL) as TB. cbv zeta in TB. split.
  - intros E. destruct (translated (stack nl _)) as [b|] eqn:B; [|discriminate]. apply TB in B as (ws & A & ->). cbn [joined] in E. injection E as <-. exists ws. split; [exact A|].
    rewrite ST; [reflexivity|]. destruct A; [congruence|discriminate].
  - intros (ws & A & ->). rewrite ST by (destruct A; [congruence|discriminate]). rewrite (proj2 (TB _)) by (exists ws; split; [exact A|reflexivity]). reflexivity.
Qed.

(** Java: the text is one block comment and nothing else exactly if the Unicode escapes of
    each line that is given are complete, and none contains the end of a comment once they
    are replaced. *)
Theorem C89_java : forall cfg k ls, ls <> [] -> c_newline cfg = [10%N] \/ c_newline cfg = [13; 10]%N -> forall c f,
  exists s, renders java_lang cfg c f (java_block_comment ls (build (repeat CIndent k))) s /\
    ((exists s', java_escapes JText s = Some s' /\ one_block s') <->
     Forall (fun l => exists w, java_escapes JText (content l) = Some w /\ ~ contains $"*/" w) ls).
Proof.
  intros cfg k ls NE NL c f. pose proof (C49_java cfg c f (repeat TIndent k) [] ls) as W.
  assert (A1 : texts_not_empty (repeat TIndent k)) by (intros s H; apply repeat_spec in H; discriminate).
  assert (A2 : texts_not_empty []) by (intros s []). assert (A3 : next_starts_line []) by (intros [|] ? ? H; discriminate).
  specialize (W A1 A2 A3). rewrite comment_text in W by (destruct ls; [congruence|discriminate]).
  assert (EC : map act_call (repeat TIndent k) = repeat (@CIndent java_import) k) by (clear; induction k; cbn; congruence). rewrite EC in W. cbn [map] in W.
  eexists. split; [exact W|]. split.
  - intros (s' & T & B). apply (translated_block _ _ _ _ _ NE NL) in T as (ws & A & ->).
    apply one_block_exact in B; [|destruct A; [congruence|discriminate]|exact NL]. clear -A B. induction A as [|l ls w ws T A IH]; [constructor|].
    inversion B; subst. constructor; [exists w; split; assumption|apply IH; assumption].
  - intros G. assert (A : exists ws, all_translated ls ws /\ Forall (fun l => ~ contains $"*/" (content l)) ws).
    { clear -G. induction G as [|l ls (w & T & B) G (ws & A & F)]; [exists []; split; constructor|]. exists (Box w :: ws). split; constructor; assumption. }
    destruct A as (ws & A & F). eexists. split; [apply (translated_block _ _ _ _ _ NE NL); exists ws; split; [exact A|reflexivity]|].
    apply one_block_exact; [destruct A; [congruence|discriminate]|exact NL|exact F].
Qed.
Print Assumptions C89_java.

(** A line that ends the comment, as it is and by escapes; one with an incomplete escape;
    lines that do not; and a line separator. *)
Example C89_example :
  renders java_lang (mk_config (ISpace 2) [10%N]) None [] (java_block_comment [Box $"a */ b"] (build [CIndent]))
    ($"  /**" ++ [10%N] ++ $"   * a */ b" ++ [10%N] ++ $"   */") /\
  java_escapes JText $"a \u002a\uu002F b" = Some $"a */ b" /\
  java_escapes JText $"C:\users" = None /\
  (let good := fun l => exists w, java_escapes JText (content l) = Some w /\ ~ contains $"*/" w in
   ~ good (Box $"a */ b") /\ Forall good [Box $"a * / b"; Box []; Box $"C:\\users\"]) /\
  ~ Forall (fun l => Forall (fun c => cs_terminator c = false) (content l)) [Box ($"a" ++ [8232%N] ++ $"b();")].
Proof.
  assert (X : forall s, after_block false s = None -> ~ contains $"*/" s) by (intros s H C; apply (proj2 (block_contains s false)); [right; exact C|exact H]).
  split; [vm_compute; reflexivity|]. split; [reflexivity|]. split; [reflexivity|]. split; [split|].
  - intros (w & E & F). apply F. exists $"a ", $" b". injection E as <-. reflexivity.
  - repeat constructor; (eexists; split; [reflexivity|apply X; reflexivity]).
  - intros F. apply Forall_inv in F. inversion F as [|? ? _ F2]; subst. apply Forall_inv in F2. discriminate F2.
Qed.
