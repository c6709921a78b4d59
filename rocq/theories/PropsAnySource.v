(** * The text of every quote of words, also with lines further left than the first
    (C52, C53). *)
From Verif Require Import Str Tokens SpecTokens TokensRun Values Fmt SpecFmt LayoutFacts RenderFacts HistoryFacts OutputFacts WriterFacts HeaderFacts
  Macro SpecMacro MacroFacts MacroTokens MacroLines MacroRender PropsMacro.

Section Spec.
(** A line further left than all lines before it. *)
Definition outside (before : list nat) (col : nat) : bool := forallb (fun d => col <? d) before.
(** The last line is as far left as any. *)
Definition leftmost (before : list nat) : Prop := Forall (fun d => last before 0 <= d) before.
(** Every line but the first may start where it does, or is further left than all lines
    before it and comes directly after a leftmost one. *)
Definition accepted_lines (ls : list src_line) : Prop :=
  forall before l after, ls = before ++ l :: after -> before <> [] ->
  may_start (map sl_col before) (sl_col l) \/
  outside (map sl_col before) (sl_col l) = true /\ leftmost (map sl_col before).
(** The text: a line break in front of each line that is not outside, and an empty line
    if there are any in the source; nothing in front of one that is. *)
Fixpoint any_text (ind : indentation_kind) (nl : str) (before ls : list src_line) : str :=
  match ls with
  | [] => []
  | l :: ls' =>
      match before with
      | [] => []
      | _ =>
          if outside (map sl_col before) (sl_col l) then []
          else nl ++ (if sl_empty l =? 0 then [] else nl) ++
               indent_text ind (Z.of_nat (level (map sl_col (before ++ [l]))))
      end ++ line_text l ++ any_text ind nl (before ++ [l]) ls'
  end.
End Spec.

Section Facts.
Lemma last_in (ss : list nat) : ss <> [] -> In (last ss 0) ss.
Proof. intros N. destruct (exists_last N) as (l & x & ->). rewrite last_last. apply in_elt. Qed.
Lemma may_inside ss col : ss <> [] -> may_start ss col -> outside ss col = false.
Proof.
  intros N M. apply not_true_is_false. intros O. unfold outside in O. rewrite forallb_forall in O. destruct M as [M|(pre & post & -> & _)].
  - specialize (O _ (last_in ss N)). apply Nat.ltb_lt in O. lia.
  - specialize (O col (in_elt _ _ _)). apply Nat.ltb_lt in O. lia.
Qed.
Lemma flat_leftmost ss : ss <> [] -> (level ss = 0 <-> leftmost ss).
Proof.
  unfold leftmost. induction ss as [|c ss IH]; intros N; [congruence|]. destruct ss as [|c2 ss]; [cbn; split; [intros _; repeat constructor|reflexivity]|].
  assert (N2 : c2 :: ss <> []) by discriminate. specialize (IH N2). change (last (c :: c2 :: ss) 0) with (last (c2 :: ss) 0). cbn [level]. cbn [level] in IH.
  split.
  - intros H. assert (H1 : forallb (fun d => c <? d) (c2 :: ss) = false) by (destruct (forallb _ (c2 :: ss)); [discriminate H|reflexivity]).
    rewrite H1 in H. cbn [Nat.add] in H. apply IH in H. constructor; [|exact H].
    destruct (le_lt_dec (last (c2 :: ss) 0) c) as [L|L]; [exact L|]. exfalso. rewrite <- not_true_iff_false in H1. apply H1. apply forallb_forall. intros d D.
    rewrite Forall_forall in H. specialize (H d D). apply Nat.ltb_lt. lia.
  - intros H. apply Forall_cons_iff in H as [H1 H2]. apply IH in H2. rewrite H2. assert (F : forallb (fun d => c <? d) (c2 :: ss) = false).
    { apply not_true_is_false. intros X. rewrite forallb_forall in X. specialize (X _ (last_in _ N2)). apply Nat.ltb_lt in X. lia. }
    rewrite F. reflexivity.
Qed.
Lemma left_case ss col : ss <> [] -> (~ may_start ss col /\ level ss = 0 <-> outside ss col = true /\ leftmost ss).
Proof.
  intros N. rewrite (flat_leftmost ss N). split; intros [A B]; (split; [|exact B]).
  - unfold outside. apply forallb_forall. intros d D. apply Nat.ltb_lt. unfold leftmost in B. rewrite Forall_forall in B. specialize (B d D).
    destruct (le_lt_dec (last ss 0) col) as [L|L]; [exfalso; apply A; left; exact L|lia].
  - intros M. apply (may_inside ss col N) in M. congruence.
Qed.
Lemma outside_level ss col : outside ss col = true -> level (ss ++ [col]) = 0.
Proof.
  intros O. apply flat_leftmost; [destruct ss; discriminate|]. unfold leftmost. rewrite last_last. apply Forall_app. split; [|repeat constructor].
  unfold outside in O. rewrite forallb_forall in O. apply Forall_forall. intros d D. apply O, Nat.ltb_lt in D. lia.
Qed.

Context {LI E : Type} (ops : lang_ops LI) (cfg : config).
Notation ind := (c_indentation cfg).
Fixpoint fits_any (ss : list nat) (ls : list src_line) : Prop :=
  match ls with
  | [] => True
  | l :: ls' => (may_start ss (sl_col l) \/ outside ss (sl_col l) = true /\ leftmost ss) /\ fits_any (ss ++ [sl_col l]) ls'
  end.
Fixpoint rest_any (ss : list nat) (ls : list src_line) : list sym :=
  match ls with
  | [] => []
  | l :: ls' =>
      (if outside ss (sl_col l) then [] else line_sep l ++ pad ind (Z.of_nat (level (ss ++ [sl_col l])))) ++
      map Ch (line_text l) ++ rest_any (ss ++ [sl_col l]) ls'
  end.
Lemma more_quiet more : Forall quiet (map more_gap more).
Proof. apply Forall_forall. intros [a p] I. apply in_map_iff in I as ([g w1] & X & _). unfold more_gap in X. injection X as <- <-. intros Q. cbn in *. rewrite Q. reflexivity. Qed.
Lemma more_flat {A} (more : list (nat * str)) (ss : list A) : Forall (fun q : pending * A => p_indent (fst q) = 0%Z) (combine (map snd (map more_gap more)) ss).
Proof. apply Forall_forall. intros [p s] I. apply in_combine_l in I. apply in_map_iff in I as (ap & <- & I). apply in_map_iff in I as (gw & <- & _). reflexivity. Qed.
Lemma any_gaps ls : forall row frm ss, ss <> [] -> S (p_line frm) = row ->
  match gaps (map fst (@source_tokens LI E row ls)) (Some (frm, enclosing ss)) with
  | Some (ps, w) => fits_any ss ls /\ length ps = length (all_words ls) /\ Forall quiet ps /\
      spaced cfg false (Z.of_nat (level ss)) (combine (map snd ps) (all_words ls)) = rest_any ss ls
  | None => ~ fits_any ss ls
  end.
Proof.
  induction ls as [|l ls IH]; intros row frm ss N RW; [cbn; auto|].
  cbn [source_tokens map fst gaps enter fits_any]. cbv zeta. set (rw := row + sl_empty l) in *.
  assert (LT : p_line frm < p_line (mk_pos rw (sl_col l))) by (cbn; unfold rw; lia).
  cbn [word_cursor c_start c_end]. pose proof (gap_line frm (mk_pos rw (sl_col l)) ss N LT) as G. cbn [p_col] in G.
  destruct (gap frm (mk_pos rw (sl_col l)) (enclosing ss)) as [[p cols]|].
  2:{ cbn [option_map]. intros [[M|M] _]; [tauto|]. apply (left_case ss (sl_col l) N) in M. tauto. }
  destruct G as [-> G]. cbn [option_map]. rewrite map_app, more_gaps.
  assert (N2 : ss ++ [sl_col l] <> []) by (destruct ss; discriminate).
  specialize (IH (S rw) (mk_pos rw (end_col (sl_col l + length (sl_word l)) (sl_more l))) _ N2 eq_refl).
  destruct (gaps (map fst (source_tokens (S rw) ls)) _) as [[ps w]|]; [|tauto]. destruct IH as (E0 & E2 & E3 & E4).
  assert (OKL : may_start ss (sl_col l) \/ outside ss (sl_col l) = true /\ leftmost ss).
  { destruct G as [[M _]|(M & L0 & _)]; [left; exact M|right; apply left_case; auto]. }
  split; [split; [exact OKL|exact E0]|]. split; [|split].
  - cbn [length all_words flat_map line_words app]. rewrite !app_length, !map_length. fold (all_words ls). rewrite E2. reflexivity.
  - constructor; [|apply Forall_app; split; [apply more_quiet|exact E3]].
    intros X. exfalso. cbn [p_line] in LT. cbn [fst adjacent c_start word_cursor p_line p_col] in X. apply andb_prop in X as [X _]. apply Nat.eqb_eq in X. lia.
  - cbn [map snd all_words flat_map line_words app combine spaced]. fold (all_words ls).
    rewrite map_app, combine_app by (rewrite !map_length; reflexivity). rewrite spaced_app by apply more_flat. rewrite more_spaced, match_same.
    assert (LV : (Z.of_nat (level ss) + p_indent p)%Z = Z.of_nat (level (ss ++ [sl_col l]))).
    { destruct G as [[M ->]|(M & L0 & ->)]; cbn [p_indent nothing]; [lia|]. rewrite outside_level by (apply left_case; auto). lia. }
    rewrite LV, E4. cbn [rest_any]. unfold line_text. rewrite map_app, <- !app_assoc.
    assert (GT : gap_text ind false (Z.of_nat (level (ss ++ [sl_col l]))) p =
      if outside ss (sl_col l) then [] else line_sep l ++ pad ind (Z.of_nat (level (ss ++ [sl_col l])))).
    { destruct G as [[M ->]|(M & L0 & ->)].
      - rewrite (may_inside ss _ N M). unfold gap_text, breaks_of, line_sep. cbn [p_breaks p_space p_line]. unfold rw.
        destruct (Nat.eqb_spec (sl_empty l) 0) as [Z0|Z0].
        + destruct (Nat.ltb_spec 1 (row + sl_empty l - p_line frm)); [lia|]. cbn. rewrite app_nil_r. reflexivity.
        + destruct (Nat.ltb_spec 1 (row + sl_empty l - p_line frm)); [|lia]. cbn. rewrite app_nil_r. reflexivity.
      - assert (O : outside ss (sl_col l) = true) by (apply left_case; auto). rewrite O. reflexivity. }
    rewrite GT. reflexivity.
Qed.
Lemma fits_accepted ls : forall before, before <> [] -> (fits_any (map sl_col before) ls <->
  forall mid l after, ls = mid ++ l :: after -> may_start (map sl_col (before ++ mid)) (sl_col l) \/
    outside (map sl_col (before ++ mid)) (sl_col l) = true /\ leftmost (map sl_col (before ++ mid))).
Proof.
  induction ls as [|l ls IH]; intros before N; [split; [intros _ [|] ? ? H; discriminate|exact (fun _ => I)]|]. cbn [fits_any].
  assert (N2 : before ++ [l] <> []) by (destruct before; discriminate). specialize (IH _ N2). rewrite map_app in IH. cbn [map] in IH. rewrite IH. split.
  - intros [A B] [|x mid] l' after H.
    + injection H as <- _. rewrite app_nil_r. exact A.
    + injection H as <- H. specialize (B mid l' after H). rewrite <- app_assoc in B. exact B.
  - intros H. split; [specialize (H [] l ls eq_refl); rewrite app_nil_r in H; exact H|].
    intros mid l' after E0. specialize (H (l :: mid) l' after). rewrite <- app_assoc. apply H. rewrite E0. reflexivity.
Qed.
Lemma any_join ls : forall before, before <> [] -> any_text ind (c_newline cfg) before ls = text (c_newline cfg) (rest_any (map sl_col before) ls).
Proof.
  induction ls as [|l ls IH]; intros before N; [reflexivity|]. cbn [any_text rest_any].
  assert (MP : map sl_col (before ++ [l]) = map sl_col before ++ [sl_col l]) by apply map_app.
  assert (N2 : before ++ [l] <> []) by (destruct before; discriminate). rewrite (IH _ N2), MP. destruct before as [|b0 before0] eqn:B; [congruence|]. rewrite <- B in *.
  rewrite !text_app, text_chars. f_equal. destruct (outside _ _); [reflexivity|]. rewrite text_app, pad_text, ?text_chars. unfold line_sep.
  destruct (sl_empty l =? 0); cbn [text flat_map sym_text app]; rewrite ?app_nil_r, <- ?app_assoc; reflexivity.
Qed.
Theorem any_renders (qs : list (quoted_item LI E)) row ls : all_tokens qs = source_tokens row ls -> Forall words_ok ls ->
  match quote_code qs with
  | Some (r, code) => accepted_lines ls /\ forall e, exists t, execs code (e, new) = (e, t) /\
      outcome (format_items ops cfg string_writer (items t) (formatter_new [])) = (any_text ind (c_newline cfg) [] ls, true)
  | None => ~ accepted_lines ls
  end.
Proof.
  intros AT W.
  assert (NE : Forall (fun s => s <> []) (all_words ls)).
  { clear -W. induction W as [|l ls [W1 W2] _ IH]; [constructor|]. cbn. constructor; auto. apply Forall_app. split; auto.
    apply Forall_forall. intros s I. apply in_map_iff in I as (gw & <- & I). rewrite Forall_forall in W2. auto. }
  assert (AC : all_tokens qs = combine (map fst (@source_tokens LI E row ls)) (map LText (all_words ls))).
  { rewrite AT, <- (source_tokens_words row ls). clear. induction (source_tokens row ls) as [|[c l] ts IH]; [reflexivity|]. cbn. f_equal. exact IH. }
  assert (LN : length (map fst (@source_tokens LI E row ls)) = length (all_words ls)).
  { rewrite map_length. rewrite <- (map_length snd), source_tokens_words, map_length. reflexivity. }
  assert (ACC : accepted_lines ls <-> match ls with [] => True | l :: ls' => fits_any [sl_col l] ls' end).
  { destruct ls as [|l ls]; [split; [exact (fun _ => I)|intros _ [|] ? ? H; discriminate]|]. rewrite (fits_accepted ls [l] ltac:(discriminate)). split.
    - intros H mid l' after E0. apply (H (l :: mid) l' after); [rewrite E0; reflexivity|discriminate].
    - intros H [|x mid] l' after E0 N; [congruence|]. injection E0 as <- E0. apply (H mid l' after E0). }
  assert (G : match gaps (map fst (@source_tokens LI E row ls)) None with
    | Some (ps, w) => match ls with [] => True | l :: ls' => fits_any [sl_col l] ls' end /\ Forall quiet ps /\
        text (c_newline cfg) (spaced cfg true 0 (combine (map snd ps) (all_words ls))) = any_text ind (c_newline cfg) [] ls
    | None => ~ match ls with [] => True | l :: ls' => fits_any [sl_col l] ls' end end).
  { clear ACC. destruct ls as [|l ls]; [repeat split; constructor|].
    cbn [source_tokens map fst gaps enter]. cbv zeta. set (rw := row + sl_empty l). cbn [word_cursor c_start c_end p_col].
    change [sl_col l] with (enclosing [sl_col l]) at 1. rewrite map_app, more_gaps.
    pose proof (any_gaps ls (S rw) (mk_pos rw (end_col (sl_col l + length (sl_word l)) (sl_more l))) [sl_col l] ltac:(discriminate) eq_refl) as H.
    destruct (gaps (map fst (source_tokens (S rw) ls)) _) as [[ps w]|]; [|exact H]. destruct H as (E1 & E2 & E3 & E4). split; [exact E1|]. split.
    - constructor; [intros _; reflexivity|]. apply Forall_app. split; [apply more_quiet|exact E3].
    - cbn [map snd all_words flat_map line_words app combine spaced p_indent nothing]. fold (all_words ls).
      rewrite map_app, combine_app by (rewrite !map_length; reflexivity). rewrite spaced_app by apply more_flat. rewrite more_spaced, match_same.
      change (0 + 0)%Z with (Z.of_nat (level [sl_col l])). rewrite E4. cbn [any_text app map]. rewrite (any_join ls [l]) by discriminate. cbn [map].
      cbn [level]. unfold gap_text. cbn [p_breaks p_space nothing].
      rewrite !text_app, !text_chars. unfold line_text. rewrite <- !app_assoc.
      assert (I0 : text (c_newline cfg) (pad ind (Z.of_nat (0 + 0))) = []) by (destruct ind; reflexivity). rewrite I0. reflexivity. }
  destruct (gaps (map fst (source_tokens row ls)) None) as [[ps w]|] eqn:GE.
  - destruct G as (A & Q & T). destruct (plain_quote ops cfg qs _ _ ps w AC LN NE GE Q) as (r & code & QC & H). rewrite QC. split; [apply ACC; exact A|]. intros e.
    destruct (H e) as (t & X & ns & D1 & D2 & D3). exists t. split; auto. rewrite D1, doc_string by auto. rewrite D3, T. reflexivity.
  - pose proof (code_by_tokens qs) as C. rewrite AT, GE in C. destruct (quote_code qs) as [[r code]|]; [|rewrite ACC; exact G]. destruct C as (? & ? & ? & X & _). discriminate.
Qed.
End Facts.

(** Exactly which sources are accepted, and what each renders to: lines are separated by
    line breaks, with an empty line for any number of empty lines, but for those further
    left than all lines before them, which are not separated at all. *)
Theorem C52_source : forall LI E (ops : lang_ops LI) cfg (qs : list (quoted_item LI E)) row ls,
  all_tokens qs = source_tokens row ls -> Forall words_ok ls ->
  (quote_code qs <> None <-> accepted_lines ls) /\
  (accepted_lines ls -> forall e, exists t, quote qs e = Some (e, t) /\
   outcome (format_items ops cfg string_writer (items t) (formatter_new [])) =
     (any_text (c_indentation cfg) (c_newline cfg) [] ls, true)).
Proof.
  intros LI E ops cfg qs row ls T W. pose proof (any_renders ops cfg qs row ls T W) as H. unfold quote. destruct (quote_code qs) as [[r code]|] eqn:Q.
  - destruct H as [A H]. split; [split; [intros _; exact A|discriminate]|]. intros _ e. destruct (H e) as (t & X & O). exists t. cbn [option_map snd]. rewrite X. auto.
  - split; [split; [congruence|contradiction]|contradiction].
Qed.
Print Assumptions C52_source.

(** The output is that of C54, with a line break before each line, exactly if no line is
    further left than all before it. *)
Theorem C52_exact : forall LI E (ops : lang_ops LI) cfg (qs : list (quoted_item LI E)) row ls,
  all_tokens qs = source_tokens row ls -> Forall words_ok ls -> accepted_lines ls -> c_newline cfg <> [] -> forall e,
  ((exists t, quote qs e = Some (e, t) /\
    outcome (format_items ops cfg string_writer (items t) (formatter_new [])) =
     (join (c_newline cfg) (output_lines (c_indentation cfg) [] ls), true)) <-> laid_out ls).
Proof.
  intros LI E ops cfg qs row ls T W A NL e. split; [|intros L; apply (C54_source _ _ ops cfg qs row ls T W L)].
  intros (t & Q & O). destruct (proj2 (C52_source _ _ ops cfg qs row ls T W) A e) as (t' & Q' & O'). rewrite Q in Q'. injection Q' as <-. rewrite O in O'. injection O' as O'. clear -O' A NL.
  destruct ls as [|l ls]; [intros [|] ? ? H; discriminate|]. cbn [output_lines any_text app] in O'. rewrite (rest_join cfg ls [l]) in O' by discriminate.
  rewrite (any_join cfg ls [l]) in O' by discriminate. cbn [level map app] in O'. assert (I0 : indent_text (c_indentation cfg) (Z.of_nat (0 + 0)) = []) by (destruct (c_indentation cfg); reflexivity).
  rewrite I0 in O'. cbn [app] in O'. apply app_inv_head in O'.
  assert (LE : forall ls ss, length (text (c_newline cfg) (rest_any cfg ss ls)) <= length (text (c_newline cfg) (rest_out cfg ss ls)) /\
     (length (text (c_newline cfg) (rest_any cfg ss ls)) = length (text (c_newline cfg) (rest_out cfg ss ls)) ->
      forall mid l' after, ls = mid ++ l' :: after -> outside (ss ++ map sl_col mid) (sl_col l') = false)).
  { clear -NL. induction ls as [|l ls IH]; intros ss; [split; [apply Nat.le_refl|intros _ [|] ? ? H; discriminate]|]. specialize (IH (ss ++ [sl_col l])) as [I1 I2]. cbn [rest_any rest_out].
    assert (LS : 0 < length (text (c_newline cfg) (line_sep l))).
    { unfold line_sep. destruct (c_newline cfg); [congruence|]. destruct (sl_empty l =? 0); cbn; lia. }
    destruct (outside ss (sl_col l)) eqn:O; cbn [app]; rewrite !text_app, !app_length.
    - split; [lia|intros H; exfalso; lia].
    - split; [lia|]. intros H. assert (H2 : length (text (c_newline cfg) (rest_any cfg (ss ++ [sl_col l]) ls)) = length (text (c_newline cfg) (rest_out cfg (ss ++ [sl_col l]) ls))) by lia.
      specialize (I2 H2). intros [|x mid] l' after E0.
      + injection E0 as <- _. cbn [map]. rewrite app_nil_r. exact O.
      + injection E0 as <- E0. specialize (I2 mid l' after E0). rewrite <- app_assoc in I2. exact I2. }
  specialize (LE ls [sl_col l]) as [_ LE]. cbn [map] in O'. rewrite O' in LE. specialize (LE eq_refl).
  intros [|x mid] l' after E0 N; [congruence|]. injection E0 as <- E0. destruct (A (l :: mid) l' after) as [M|[M _]]; [rewrite E0; reflexivity|discriminate|exact M|].
  specialize (LE mid l' after E0). cbn [map] in M. change ([sl_col l] ++ map sl_col mid) with (sl_col l :: map sl_col mid) in LE. congruence.
Qed.
Print Assumptions C52_exact.

(** <<
        a b
          c

        d
      e
    f
        g
    >> *)
Example C52_source_example : let ls :=
    [mk_src_line 0 4 $"a" [(1, $"b")]; mk_src_line 0 6 $"c" []; mk_src_line 1 4 $"d" []; mk_src_line 0 2 $"e" [];
     mk_src_line 2 0 $"f" []; mk_src_line 0 4 $"g" []] in
  accepted_lines ls /\ Forall words_ok ls /\ ~ laid_out ls /\
  any_text (ISpace 2) [10%N] [] ls = $"a b" ++ [10%N] ++ $"  c" ++ [10; 10]%N ++ $"def" ++ [10%N] ++ $"  g".
Proof.
  cbv zeta. split; [|split; [|split]].
  - intros before l after H N. destruct before as [|x0 before]; [congruence|]. clear N.
    do 5 (destruct before as [|? before];
      [injection H; intros; subst;
       first [right; split; [reflexivity|repeat constructor; cbn; lia]|left; left; cbn; lia|left; right; exists [], [6]; split; [reflexivity|repeat constructor; lia]]|]).
    injection H; intros X; intros; destruct before; discriminate X.
  - repeat constructor; discriminate.
  - intros L. specialize (L [mk_src_line 0 4 $"a" [(1, $"b")]; mk_src_line 0 6 $"c" []; mk_src_line 1 4 $"d" []] _ _ eq_refl ltac:(discriminate)).
    destruct L as [L|(pre & post & H & _)]; [cbn in L; lia|]. assert (X : In 2 [4; 6; 4]) by (cbn in H; rewrite H; apply in_elt). cbn in X. intuition discriminate.
  - vm_compute. reflexivity.
Qed.
