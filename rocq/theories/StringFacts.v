(** * Lemmas: string literals in the output. *)
From Verif Require Import Tokens SpecTokens TokensRun Values Fmt SpecFmt RenderFacts LayoutFacts
  OutputFacts LangBase Quote.

(** ** Texts without whitespace between them *)

Lemma layout_texts_from ind ss : layout_from ind false 0 [] (texts ss) = map Ch (concat ss).
Proof.
  induction ss as [|s ss IH]; cbn [texts map concat]; [reflexivity|].
  unfold texts in *. cbn [layout_from a_text]. destruct s as [|c s].
  - cbn [app]. rewrite <- IH. clear IH.
    assert (G : forall l gap, Forall (fun a => a = AText []) gap ->
              layout_from ind false 0 gap (map AText l) = layout_from ind false 0 [] (map AText l)).
    { induction l as [|x l IHl]; intros gap F; cbn [map layout_from a_text]; auto.
      destruct x as [|d x].
      - rewrite IHl; [|apply Forall_app; auto]. symmetry. apply IHl. constructor; auto.
      - assert (N : net gap = 0%Z) by (induction F as [|? ? -> F IHF]; cbn; auto).
        assert (B : existsb a_break gap = false /\ existsb a_line gap = false /\ count_spaces gap = 0).
        { clear - F. induction F as [|? ? -> F [? [? ?]]]; cbn; auto. }
        destruct B as [B1 [B2 B3]]. rewrite N. unfold separator. rewrite B1, B2, B3. reflexivity. }
    apply G. constructor; auto.
  - cbn [net Z.add]. rewrite IH. cbn. rewrite map_app. reflexivity.
Qed.
Lemma layout_texts ind ss : layout ind (texts ss) = map Ch (concat ss).
Proof.
  unfold layout.
  assert (H : forall gap, Forall (fun a => a = AText []) gap ->
              layout_from ind true 0 gap (texts ss) = map Ch (concat ss)); [|apply H; auto].
  induction ss as [|s ss IH]; intros gap F; cbn [texts map concat]; [reflexivity|].
  cbn [layout_from a_text]. destruct s as [|c s].
  - apply IH. apply Forall_app; auto.
  - assert (N : net gap = 0%Z) by (induction F as [|? ? -> F IHF]; cbn; auto).
    assert (B : count_spaces gap = 0).
    { clear - F. induction F as [|? ? -> F IHF]; cbn; auto. }
    rewrite N. unfold separator, pad. rewrite B. cbn [Z.add].
    pose proof (layout_texts_from ind ss) as T. unfold texts in T. rewrite T.
    change (Z.to_nat (Z.max 0 0)) with 0.
    rewrite map_app. destruct ind; reflexivity.
Qed.

(** ** Results *)

Section Strings.
Context {LI Config Format : Type} (L : lang_def LI Config Format).

Lemma to_string_outcome t s : 
  outcome (format L string_writer (config_from_lang L) t (ld_default_config L)
             (ld_default_format L) (formatter_new [])) = (s, true) ->
  to_string L t = Some s.
Proof.
  unfold to_string, outcome, result. destruct (format _ _ _ _ _ _ _) as [st ok].
  cbn. intros [= <- ->]. reflexivity.
Qed.

Let ops := ld_ops L (ld_default_config L) (ld_default_format L).

Lemma to_string_texts t ns ss :
  items t = doc_items ns -> doc_ok ns = true ->
  doc_atoms ops (config_from_lang L) ns = texts ss ->
  to_string L t = Some (concat ss).
Proof.
  intros E D A. apply to_string_outcome. unfold format. rewrite E, doc_string by auto.
  fold ops. rewrite A, layout_texts, text_chars. reflexivity.
Qed.

(** A quoted value made of literals is one literal. *)
Lemma quoted_to_string s :
  l_open_quote ops false = [[34%N]] -> l_close_quote ops false = [[34%N]] ->
  to_string L (append (VQuoted (VStr s)) new) =
  Some (34%N :: concat (l_write_quoted ops s) ++ [34%N]).
Proof.
  intros O C.
  rewrite (to_string_texts _ [NString false [PItem (Literal (Box s))]]
             ([[34%N]] ++ l_write_quoted ops s ++ [[34%N]])).
  - rewrite !concat_app. reflexivity.
  - reflexivity.
  - reflexivity.
  - cbn. rewrite O, C, !app_nil_r. cbn. f_equal. symmetry. apply map_app.
Qed.

Lemma quoted_quoted_to_string s :
  l_open_quote ops false = [[34%N]] -> l_close_quote ops false = [[34%N]] ->
  to_string L (append (VQuoted (VQuoted (VStr s))) new) =
  Some (34%N :: concat (l_write_quoted ops (34%N :: s ++ [34%N])) ++ [34%N]).
Proof.
  intros O C.
  rewrite (to_string_texts _ [NString false [PQuoted [Literal (Box s)]]]
             ([[34%N]] ++ l_write_quoted ops (34%N :: s ++ [34%N]) ++ [[34%N]])).
  - rewrite !concat_app. reflexivity.
  - reflexivity.
  - reflexivity.
  - unfold doc_atoms. cbn [flat_map]. rewrite node_atoms_string. cbn [flat_map part_atoms].
    rewrite O, C, !app_nil_r. unfold quoted_source.
    rewrite O, C. cbn [atoms flat_map atoms_of content].
    change (texts [[34%N]] ++ ([AText s] ++ []) ++ texts [[34%N]]) with (texts [[34%N]; s; [34%N]]).
    rewrite layout_texts, text_chars. cbn [concat app].
    unfold texts. cbn [map app]. f_equal. rewrite map_app. reflexivity.
Qed.

End Strings.

Lemma concat_map_flat {A B} (f : A -> list B) l : concat (map f l) = flat_map f l.
Proof. symmetry. apply flat_map_concat_map. Qed.

(** A literal in the middle of a document appears in one piece. *)
Lemma literal_in_context {LI} (ops : lang_ops LI) cfg before after s :
  doc_ok before = true -> doc_ok after = true ->
  l_open_quote ops false = [[34%N]] -> l_close_quote ops false = [[34%N]] ->
  exists sep tail,
  Forall (fun c => In c (c_newline cfg) \/ c = 32%N \/ c = 9%N) sep /\
  outcome (format_items ops cfg string_writer
             (doc_items (before ++ NString false [PItem (Literal (Box s))] :: after))
             (formatter_new [])) =
  (text (c_newline cfg) (layout (c_indentation cfg) (doc_atoms ops cfg before)) ++ sep ++
   (34%N :: concat (l_write_quoted ops s) ++ [34%N]) ++ tail, true).
Proof.
  intros B A O C.
  rewrite doc_string by (unfold doc_ok in *; rewrite forallb_app; cbn; rewrite B, A; auto).
  unfold doc_atoms. rewrite flat_map_app. cbn [flat_map]. rewrite node_atoms_string.
  cbn [flat_map part_atoms string_item content]. rewrite O, C, app_nil_r.
  set (pre := flat_map (node_atoms ops cfg) before).
  set (post := flat_map (node_atoms ops cfg) after).
  set (ws := l_write_quoted ops s).
  assert (E : pre ++ (texts [[34%N]] ++ texts ws ++ texts [[34%N]]) ++ post =
              pre ++ AText [34%N] :: (texts (ws ++ [[34%N]]) ++ post)).
  { unfold texts. rewrite !map_app, <- !app_assoc. reflexivity. }
  rewrite E, layout_at by reflexivity.
  rewrite !text_app, text_chars. cbn [a_text].
  assert (T : exists tail, layout_from (c_indentation cfg) false (net pre) [] (texts (ws ++ [[34%N]]) ++ post) =
              map Ch (concat (ws ++ [[34%N]])) ++ tail).
  { clear E. revert pre. enough (G : forall l lvl gap, Forall (fun a => a = AText []) gap -> exists tail,
      layout_from (c_indentation cfg) false lvl gap (texts l ++ post) = map Ch (concat l) ++ tail) by (intros; apply G; auto).
    induction l as [|x l IH]; intros lvl gap F; cbn [texts map app layout_from a_text concat].
    { eexists. reflexivity. }
    destruct x as [|d x].
    - destruct (IH lvl (gap ++ [AText []])) as [tl Ht]; [apply Forall_app; auto|]. exists tl. exact Ht.
    - assert (N : net gap = 0%Z) by (induction F as [|? ? -> F IHF]; cbn; auto).
      assert (B' : existsb a_break gap = false /\ existsb a_line gap = false /\ count_spaces gap = 0).
      { clear - F. induction F as [|? ? -> F [? [? ?]]]; cbn; auto. }
      destruct B' as [B1 [B2 B3]]. unfold separator. rewrite B1, B2, B3, N.
      destruct (IH (lvl + 0)%Z []) as [tl Ht]; auto. exists tl.
      unfold texts in Ht. rewrite Ht. cbn [blanks repeat app map]. f_equal. rewrite map_app, <- app_assoc. reflexivity. }
  destruct T as [tail T]. rewrite T.
  exists (text (c_newline cfg) (separator (c_indentation cfg) (negb (existsb visible pre)) (net pre) (after_last visible pre))),
         (text (c_newline cfg) tail).
  split.
  - unfold separator.
    assert (P : forall lvl, Forall (fun c => In c (c_newline cfg) \/ c = 32%N \/ c = 9%N)
        (text (c_newline cfg) (pad (c_indentation cfg) lvl))).
    { intros lvl. rewrite pad_text, text_chars. unfold indent_text.
      destruct (c_indentation cfg); apply Forall_forall; intros c Hc; apply repeat_spec in Hc; auto. }
    assert (Q : forall n, Forall (fun c => In c (c_newline cfg) \/ c = 32%N \/ c = 9%N)
        (text (c_newline cfg) (blanks n))).
    { intros n. rewrite blanks_text, text_chars. apply Forall_forall; intros c Hc; apply repeat_spec in Hc; auto. }
    assert (R : Forall (fun c => In c (c_newline cfg) \/ c = 32%N \/ c = 9%N) (c_newline cfg)).
    { apply Forall_forall. auto. }
    destruct (negb _); [|destruct (existsb a_line _); [|destruct (existsb a_break _)]];
      rewrite ?text_app; repeat (apply Forall_app; split); auto; cbn; rewrite ?app_nil_r; auto;
      repeat (apply Forall_app; split); auto.
  - f_equal. rewrite text_app, text_chars, concat_app. cbn [concat app]. rewrite <- !app_assoc. reflexivity.
Qed.
