(** * Properties of quoting: C22-C35.

    Vocabulary: [SpecLex.v] (literals of the target languages), [SpecStr.v]
    (UTF-8), [SpecFmt.v]; model: [Quote.v], [Fmt.v] and the language files. *)
From Verif Require Import Str SpecStr StrFacts Quote SpecLex LexFacts QuoteFacts Tokens Values Fmt
  SpecFmt RenderFacts OutputFacts StringFacts AlphabetFacts SpecCode CodeFacts.
From Verif Require Import LangBase LangC LangCsharp LangDart LangGo LangJava LangJs LangNix
  LangPython LangRust LangSwift.
From Coq Require Import ZifyBool ZifyNat ZifyN.

(** The stream holding the quoted form of a string. *)
Definition quoted_string {LI} (s : str) : tokens LI := append (VQuoted (VStr s)) new.

(** For examples: a string with quotes, escapes, control characters, characters
    of two, three and four UTF-8 bytes. *)
Definition sample : str :=
  $"say " ++ [34%N] ++ $"$x" ++ [92%N; 10; 9; 13; 27; 127; 133; 233; 8232; 8364; 128512; 57344]%N.
Lemma sample_valid : valid sample.
Proof. repeat constructor; unfold scalar; lia. Qed.

Lemma literal_source {LI CFG FMT} (L : lang_def LI CFG FMT) (f : N -> str) s :
  l_open_quote (ld_ops L (ld_default_config L) (ld_default_format L)) false = [[34%N]] -> l_close_quote (ld_ops L (ld_default_config L) (ld_default_format L)) false = [[34%N]] ->
  (forall s, l_write_quoted (ld_ops L (ld_default_config L) (ld_default_format L)) s = map f s) ->
  to_string L (quoted_string s) = Some (34%N :: flat_map f s ++ [34%N]).
Proof.
  intros H1 H2 H. unfold quoted_string. rewrite quoted_to_string by auto.
  rewrite H. rewrite <- (concat_map_flat f s). auto.
Qed.
Ltac open_literal := eexists; split; [apply literal_source; intros; reflexivity|].
Lemma denotes_quoted g (f : N -> str) v s :
  (forall rest, g_stop g 34 (hd_error rest) = true) ->
  (forall rest, lex g MText (flat_map f s ++ 34%N :: rest) = emit v (lex g MText (34%N :: rest))) ->
  denotes g (34%N :: flat_map f s ++ [34%N]) v.
Proof.
  intros S H rest. cbn [app]. rewrite <- app_assoc. cbn [app].
  apply read_quoted; auto. intros rest' ->. apply H.
Qed.
Lemma valid_in s p c q : valid s -> s = p ++ c :: q -> scalar c.
Proof. intros H ->. apply Forall_app in H as [_ H]. inversion H; auto. Qed.
Lemma flat_map_ext_in' {A B} (f g : A -> list B) l :
  (forall x, In x l -> f x = g x) -> flat_map f l = flat_map g l.
Proof. induction l as [|a l IH]; cbn; intros H; auto. rewrite H, IH; auto. Qed.
Lemma fix_id s : ~ In 17%N s -> ~ In 18%N s -> map vf_fix s = s.
Proof.
  intros H1 H2. rewrite <- (map_id s) at 2. apply map_ext_in. intros c Hc.
  apply vf_fix_other; intros ->; auto.
Qed.
Lemma flat_map_singleton {A} (l : list A) : flat_map (fun x => [x]) l = l.
Proof. induction l; cbn; congruence. Qed.
Lemma flat_map_map {A B C} (g : B -> list C) (f : A -> B) l :
  flat_map g (map f l) = flat_map (fun x => g (f x)) l.
Proof. induction l; cbn; congruence. Qed.
Lemma vf_fix_valid s : valid s -> valid (map vf_fix s).
Proof.
  intros H. apply Forall_map. eapply Forall_impl; [|exact H]. intros c Hc. unfold vf_fix.
  destruct (N.eqb c 18); [unfold scalar; lia|]. destruct (N.eqb c 17); [unfold scalar; lia|auto].
Qed.

(** ** C22: Rust *)

Theorem C22_rust_round_trip : forall s, valid s -> exists src,
  to_string rust_lang (quoted_string s) = Some src /\ denotes rust_grammar src s.
Proof.
  intros s H. open_literal. apply denotes_quoted; [reflexivity|]. intros rest.
  rewrite (lex_text _ _ (fun c => [c]) (fun c _ => scalar c)).
  - rewrite flat_map_singleton. auto.
  - intros; apply rust_char_ok; auto.
  - intros; eapply valid_in; eauto.
Qed.
Print Assumptions C22_rust_round_trip.
Example C22_example : exists src,
  to_string rust_lang (quoted_string sample) = Some src /\
  read_literal rust_grammar (src ++ $" + x") = Some (sample, $" + x").
Proof. eexists. split; [vm_compute; reflexivity|vm_compute; reflexivity]. Qed.

(** ** C23: Swift *)

Theorem C23_swift_round_trip : forall s, valid s -> exists src,
  to_string swift_lang (quoted_string s) = Some src /\ denotes swift_grammar src s.
Proof.
  intros s H. open_literal. apply denotes_quoted; [reflexivity|]. intros rest.
  rewrite (lex_text _ _ (fun c => [c]) (fun c _ => scalar c)).
  - rewrite flat_map_singleton. auto.
  - intros; apply swift_char_ok; auto.
  - intros; eapply valid_in; eauto.
Qed.
Print Assumptions C23_swift_round_trip.
Example C23_example : exists src,
  to_string swift_lang (quoted_string sample) = Some src /\
  read_literal swift_grammar (src ++ $";") = Some (sample, $";").
Proof. eexists. split; [vm_compute; reflexivity|vm_compute; reflexivity]. Qed.

(** ** C24: Java *)

(** The literal denotes the string with U+0007 read as U+0008, and U+0014 as
    U+000C. *)
Theorem C24_java_denotes : forall s, valid s -> exists src units,
  to_string java_lang (quoted_string s) = Some src /\ java_denotes src units /\
  utf16_decodes units
    (map (fun c => if N.eqb c 7 then 8%N else if N.eqb c 20 then 12%N else c) s).
Proof.
  intros s H. change (fun c : N => _) with java_fix. eexists _, _. split.
  { apply literal_source; intros; reflexivity. }
  destruct (java_text_ok s H) as [u [H1 H2]]. split.
  - intros rest after E. exists (34%N :: u ++ 34%N :: after). split.
    + cbn [app]. rewrite translate_raw by discriminate. rewrite <- app_assoc, H1.
      cbn [app]. rewrite translate_raw by discriminate. rewrite E. reflexivity.
    + apply (read_quoted java_grammar u (flat_map (fun c => utf16_units (java_fix c)) s));
        [reflexivity|]. intros rest' ->. apply H2.
  - rewrite <- flat_map_map. apply utf16_ok. apply Forall_map.
    eapply Forall_impl; [|exact H]. intros c Hc. unfold java_fix.
    destruct (N.eqb c 7); [unfold scalar; lia|]. destruct (N.eqb c 20); [unfold scalar; lia|auto].
Qed.
Print Assumptions C24_java_denotes.

Theorem C24_java_round_trip_partial : forall s, valid s -> ~ In 7%N s -> ~ In 20%N s ->
  exists src units,
  to_string java_lang (quoted_string s) = Some src /\ java_denotes src units /\
  utf16_decodes units s.
Proof.
  intros s H H1 H2. destruct (C24_java_denotes s H) as [src [units [E [D U]]]].
  exists src, units. split; [auto|split; [auto|]].
  rewrite <- (map_id s). erewrite map_ext_in; [exact U|]. intros c Hc. cbn.
  destruct (N.eqb_spec c 7) as [->|]; [tauto|]. destruct (N.eqb_spec c 20) as [->|]; [tauto|auto].
Qed.
Print Assumptions C24_java_round_trip_partial.

(** A bell character comes back as a backspace. *)
Theorem C24_java_round_trip_refuted : exists src,
  to_string java_lang (quoted_string [7%N]) = Some src /\ java_denotes src [8%N].
Proof.
  eexists. split; [vm_compute; reflexivity|]. intros rest after E.
  exists (34 :: 92 :: 98 :: 34 :: after)%N. split; [|reflexivity].
  change (java_translate JEven (34 :: 92 :: 98 :: 34 :: rest)%N =
          Some (34 :: 92 :: 98 :: 34 :: after)%N).
  rewrite translate_raw by discriminate. rewrite translate_esc by discriminate.
  rewrite translate_raw by discriminate. rewrite E. reflexivity.
Qed.
Print Assumptions C24_java_round_trip_refuted.
Example C24_example : valid sample /\ ~ In 7%N sample /\ ~ In 20%N sample.
Proof. split; [apply sample_valid|]. split; cbn; lia. Qed.

(** ** C25: JavaScript *)

(** No NUL directly followed by a decimal digit. *)
Definition no_nul_digit (s : str) : Prop :=
  forall p d q, s = p ++ 0%N :: d :: q -> is_digit (Some d) = false.

Lemma js_next s rest p c q : no_nul_digit s -> s = p ++ c :: q ->
  c = 0%N -> is_digit (hd_error (flat_map js_char q ++ 34%N :: rest)) = false.
Proof.
  intros H -> ->. destruct q as [|d q]; [reflexivity|]. cbn [flat_map].
  rewrite <- app_assoc. destruct (js_first d (flat_map js_char q ++ 34%N :: rest)) as [x [r [-> [-> | ->]]]].
  - reflexivity.
  - cbn [hd_error]. apply (H p d q). auto.
Qed.

(** The literal denotes the string with U+0012 read as U+000C, and U+0011 as
    U+000B. *)
Theorem C25_js_denotes : forall relative s, valid s -> no_nul_digit s -> exists src units,
  to_string (js_lang relative) (quoted_string s) = Some src /\ denotes js_grammar src units /\
  utf16_decodes units
    (map (fun c => if N.eqb c 18 then 12%N else if N.eqb c 17 then 11%N else c) s).
Proof.
  intros relative s H Z. change (fun c : N => _) with vf_fix. eexists _, _. split.
  { apply literal_source; intros; reflexivity. }
  split.
  - apply denotes_quoted; [reflexivity|]. intros rest.
    apply (lex_text _ _ (fun c => utf16_units (vf_fix c))
             (fun c r => scalar c /\ (c = 0%N -> is_digit (hd_error r) = false))).
    + intros c r [H1 H2]. apply js_char_ok; auto. intros E. exfalso.
      apply (f_equal (fun g => g_stop g 96 None)) in E. discriminate E.
    + intros p c q E. split; [eapply valid_in; eauto|]. eapply js_next; eauto.
  - rewrite <- flat_map_map. apply utf16_ok, vf_fix_valid, H.
Qed.
Print Assumptions C25_js_denotes.

Theorem C25_js_round_trip_partial : forall relative s,
  valid s -> no_nul_digit s -> ~ In 17%N s -> ~ In 18%N s -> exists src units,
  to_string (js_lang relative) (quoted_string s) = Some src /\ denotes js_grammar src units /\
  utf16_decodes units s.
Proof.
  intros relative s H Z H1 H2. destruct (C25_js_denotes relative s H Z) as [src [units [E [D U]]]].
  exists src, units. change (fun c : N => _) with vf_fix in U. rewrite fix_id in U by auto. auto.
Qed.
Print Assumptions C25_js_round_trip_partial.

(** U+0012 comes back as a form feed; NUL before a digit is an illegal octal
    escape. *)
Theorem C25_js_round_trip_refuted : forall relative,
  (exists src, to_string (js_lang relative) (quoted_string [18%N]) = Some src /\
               denotes js_grammar src [12%N]) /\
  (exists src, to_string (js_lang relative) (quoted_string (0%N :: $"1")) = Some src /\
               forall rest, read_literal js_grammar (src ++ rest) = None).
Proof.
  intros relative. split; eexists; (split; [vm_compute; reflexivity|]); intros rest; reflexivity.
Qed.
Print Assumptions C25_js_round_trip_refuted.

Definition sample0 : str := sample ++ [0%N] ++ $"x".
Lemma sample0_valid : valid sample0.
Proof. repeat constructor; unfold scalar; lia. Qed.
Lemma sample0_nul : no_nul_digit sample0.
Proof.
  intros p d q E. destruct (is_digit (Some d)) eqn:D; auto. exfalso.
  do 30 (destruct p as [|? p]; [cbn in E; inversion E; subst; discriminate|]).
  apply (f_equal (@length N)) in E. rewrite app_length in E. cbn in E. lia.
Qed.
Example C25_example : valid sample0 /\ no_nul_digit sample0 /\ ~ In 17%N sample0 /\ ~ In 18%N sample0.
Proof.
  split; [apply sample0_valid|]. split; [apply sample0_nul|]. split; cbn; lia.
Qed.

(** ** C26: JavaScript template text *)

Definition no_pair_of (a b : N) (s : str) : Prop := forall p q, s <> p ++ a :: b :: q.

(** The text of a template up to its end or the next evaluation is exactly the
    constant part, for strings without backticks and [${]. *)
Theorem C26_template_round_trip_partial : forall s rest,
  valid s -> no_nul_digit s -> ~ In 17%N s -> ~ In 18%N s ->
  ~ In (chr "`") s -> no_pair_of (chr "$") (chr "{") s ->
  (exists r, rest = $"`" ++ r) \/ (exists r, rest = $"${" ++ r) ->
  exists units,
  lex js_template_grammar MText (concat (l_write_quoted js_ops s) ++ rest) = Some (units, rest) /\
  utf16_decodes units s.
Proof.
  intros s rest H Z H1 H2 B D R.
  exists (flat_map utf16_units s). split; [|apply utf16_ok; auto].
  assert (E : lex js_template_grammar MText rest = Some ([], rest))
    by (destruct R as [[r ->]|[r ->]]; reflexivity).
  change (concat (l_write_quoted js_ops s)) with (concat (map js_char s)).
  replace (concat (map js_char s)) with (flat_map js_char s)
    by (symmetry; exact (concat_map_flat js_char s)).
  rewrite (lex_text _ _ (fun c => utf16_units (vf_fix c))
             (fun c r => (c <> chr "`" /\ (c = chr "$" -> next_is (chr "{") (hd_error r) = false)) /\
                         scalar c /\ (c = 0%N -> is_digit (hd_error r) = false))).
  - rewrite E. cbn [emit]. rewrite app_nil_r. do 2 f_equal.
    rewrite <- flat_map_map, fix_id by auto. reflexivity.
  - intros c r [A1 [A2 A3]]. apply js_char_ok; auto.
  - intros p c q Eq. split; [split|split].
    + intros ->. apply B. rewrite Eq. apply in_or_app; right; left; auto.
    + intros ->. destruct q as [|d q].
      * cbn [flat_map app]. destruct R as [[r ->]|[r ->]]; reflexivity.
      * cbn [flat_map]. rewrite <- app_assoc.
        destruct (js_first d (flat_map js_char q ++ rest)) as [x [r [-> [-> | ->]]]]; [reflexivity|].
        cbn [hd_error next_is]. apply N.eqb_neq. intros ->. apply (D p q). auto.
    + eapply valid_in; eauto.
    + intros ->. destruct q as [|d q].
      * cbn [flat_map app]. destruct R as [[r ->]|[r ->]]; reflexivity.
      * cbn [flat_map]. rewrite <- app_assoc.
        destruct (js_first d (flat_map js_char q ++ rest)) as [x [r [-> [-> | ->]]]]; [reflexivity|].
        apply (Z p d q). auto.
Qed.
Print Assumptions C26_template_round_trip_partial.
Example C26_example : valid sample0 /\ no_nul_digit sample0 /\ ~ In 17%N sample0 /\
  ~ In 18%N sample0 /\ ~ In (chr "`") sample0 /\ no_pair_of (chr "$") (chr "{") sample0.
Proof.
  split; [apply sample0_valid|]. split; [apply sample0_nul|].
  repeat (split; [vm_compute; lia|]).
  intros p q E.
  do 30 (destruct p as [|? p]; [cbn in E; inversion E|]).
  apply (f_equal (@length N)) in E. rewrite app_length in E. cbn in E. lia.
Qed.

(** A backtick in a constant part ends the template; [${] starts an evaluation. *)
Theorem C26_template_round_trip_refuted :
  (exists r, lex js_template_grammar MText (concat (l_write_quoted js_ops $"a`b") ++ $"`") =
             Some ($"a", $"`" ++ r)) /\
  (exists r, lex js_template_grammar MText (concat (l_write_quoted js_ops $"a${b}") ++ $"`") =
             Some ($"a", $"${" ++ r)).
Proof. split; eexists; vm_compute; reflexivity. Qed.
Print Assumptions C26_template_round_trip_refuted.

(** ** C27: Dart *)

Theorem C27_dart_denotes : forall s, valid s -> exists src units,
  to_string dart_lang (quoted_string s) = Some src /\ denotes dart_grammar src units /\
  utf16_decodes units
    (map (fun c => if N.eqb c 18 then 12%N else if N.eqb c 17 then 11%N else c) s).
Proof.
  intros s H. change (fun c : N => _) with vf_fix. eexists _, _. split.
  { apply literal_source; intros; reflexivity. }
  split.
  - apply denotes_quoted; [reflexivity|]. intros rest.
    apply (lex_text _ _ (fun c => utf16_units (vf_fix c)) (fun c _ => scalar c)).
    + intros c r H1. apply dart_char_ok; auto.
    + intros p c q E. eapply valid_in; eauto.
  - rewrite <- flat_map_map. apply utf16_ok, vf_fix_valid, H.
Qed.
Print Assumptions C27_dart_denotes.

Theorem C27_dart_round_trip_partial : forall s,
  valid s -> ~ In 17%N s -> ~ In 18%N s -> exists src units,
  to_string dart_lang (quoted_string s) = Some src /\ denotes dart_grammar src units /\
  utf16_decodes units s.
Proof.
  intros s H H1 H2. destruct (C27_dart_denotes s H) as [src [units [E [D U]]]].
  exists src, units. change (fun c : N => _) with vf_fix in U. rewrite fix_id in U by auto. auto.
Qed.
Print Assumptions C27_dart_round_trip_partial.
Example C27_example : valid sample0 /\ ~ In 17%N sample0 /\ ~ In 18%N sample0.
Proof. split; [apply sample0_valid|]. split; cbn; lia. Qed.

Theorem C27_dart_round_trip_refuted : exists src,
  to_string dart_lang (quoted_string [18%N]) = Some src /\ denotes dart_grammar src [12%N].
Proof. eexists; (split; [vm_compute; reflexivity|]); intros rest; reflexivity. Qed.
Print Assumptions C27_dart_round_trip_refuted.

(** ** C28: Python *)

Theorem C28_python_denotes : forall s, valid s -> exists src,
  to_string python_lang (quoted_string s) = Some src /\
  denotes python_grammar src
    (map (fun c => if N.eqb c 18 then 12%N else if N.eqb c 17 then 11%N else c) s).
Proof.
  intros s H. change (fun c : N => _) with vf_fix. open_literal.
  apply denotes_quoted; [reflexivity|]. intros rest.
  rewrite (lex_text _ _ (fun c => [vf_fix c]) (fun c _ => scalar c)).
  - rewrite <- (flat_map_map (fun c => [c]) vf_fix), flat_map_singleton. auto.
  - intros c r H1. apply python_char_ok; auto.
  - intros p c q E. eapply valid_in; eauto.
Qed.
Print Assumptions C28_python_denotes.

Theorem C28_python_round_trip_partial : forall s,
  valid s -> ~ In 17%N s -> ~ In 18%N s -> exists src,
  to_string python_lang (quoted_string s) = Some src /\ denotes python_grammar src s.
Proof.
  intros s H H1 H2. destruct (C28_python_denotes s H) as [src [E D]].
  exists src. change (fun c : N => _) with vf_fix in D. rewrite fix_id in D by auto. auto.
Qed.
Print Assumptions C28_python_round_trip_partial.
Example C28_example : valid sample0 /\ ~ In 17%N sample0 /\ ~ In 18%N sample0.
Proof. split; [apply sample0_valid|]. split; cbn; lia. Qed.

Theorem C28_python_round_trip_refuted : exists src,
  to_string python_lang (quoted_string [17%N]) = Some src /\ denotes python_grammar src [11%N].
Proof. eexists; (split; [vm_compute; reflexivity|]); intros rest; reflexivity. Qed.
Print Assumptions C28_python_round_trip_refuted.

(** ** C29: Go *)

Theorem C29_go_denotes : forall s, valid s -> ~ In 39%N s -> exists src bytes,
  to_string go_lang (quoted_string s) = Some src /\ denotes go_grammar src bytes /\
  utf8_decodes bytes
    (map (fun c => if N.eqb c 18 then 12%N else if N.eqb c 17 then 11%N else c) s).
Proof.
  intros s H Q. change (fun c : N => _) with vf_fix. eexists _, _. split.
  { apply literal_source; intros; reflexivity. }
  split.
  - apply denotes_quoted; [reflexivity|]. intros rest.
    apply (lex_text _ _ (fun c => utf8_char (vf_fix c)) (fun c _ => scalar c /\ c <> 39%N)).
    + intros c r [H1 H2]. apply go_char_ok; auto.
    + intros p c q E. split; [eapply valid_in; eauto|]. intros ->. apply Q. rewrite E.
      apply in_or_app; right; left; auto.
  - rewrite <- flat_map_map. apply utf8_ok, vf_fix_valid, H.
Qed.
Print Assumptions C29_go_denotes.

Theorem C29_go_round_trip_partial : forall s,
  valid s -> ~ In 17%N s -> ~ In 18%N s -> ~ In 39%N s -> exists src bytes,
  to_string go_lang (quoted_string s) = Some src /\ denotes go_grammar src bytes /\
  utf8_decodes bytes s.
Proof.
  intros s H H1 H2 H3. destruct (C29_go_denotes s H H3) as [src [units [E [D U]]]].
  exists src, units. change (fun c : N => _) with vf_fix in U. rewrite fix_id in U by auto. auto.
Qed.
Print Assumptions C29_go_round_trip_partial.
Example C29_example : valid sample0 /\ ~ In 17%N sample0 /\ ~ In 18%N sample0 /\ ~ In 39%N sample0.
Proof. split; [apply sample0_valid|]. repeat split; cbn; lia. Qed.

(** Any string with an apostrophe is written as an illegal Go literal. *)
Theorem C29_go_apostrophe_refuted : forall s, valid s -> In 39%N s -> exists src,
  to_string go_lang (quoted_string s) = Some src /\
  forall rest, read_literal go_grammar (src ++ rest) = None.
Proof.
  intros s H Q. open_literal. intros rest. cbn [app read_literal]. rewrite N.eqb_refl.
  rewrite <- app_assoc. cbn [app].
  enough (E : lex go_grammar MText (flat_map c_family_char s ++ 34%N :: rest) = None) by (rewrite E; auto).
  induction H as [|c s Hc Hs IH]; [destruct Q|].
  cbn [flat_map]. rewrite <- app_assoc. destruct (N.eq_dec c 39) as [->|Hne].
  - apply go_single_quote_illegal.
  - rewrite go_char_ok by auto. destruct Q as [Q|Q]; [congruence|]. rewrite IH by auto. reflexivity.
Qed.
Print Assumptions C29_go_apostrophe_refuted.

(** ** C30: C *)

(** No control character that has no letter escape is directly followed by a
    hexadecimal digit. *)
Definition no_control_hex (s : str) : Prop :=
  forall p c d q, s = p ++ c :: d :: q -> (c < 32 \/ c = 127)%N ->
  ~ In c [7; 8; 9; 10; 13]%N -> is_hex (Some d) = false.

Lemma c_next s rest p c q : no_control_hex s -> s = p ++ c :: q ->
  hex_escaped c = true -> is_hex (hd_error (flat_map c_family_char q ++ 34%N :: rest)) = false.
Proof.
  intros H -> X. destruct q as [|d q]; [reflexivity|]. cbn [flat_map].
  rewrite <- app_assoc.
  destruct (c_family_first d (flat_map c_family_char q ++ 34%N :: rest)) as [x [r [-> [-> | ->]]]].
  - reflexivity.
  - cbn [hd_error]. apply (H p c d q); auto;
      unfold hex_escaped, is_control, is_ascii in X; cbn [existsb In] in *; lia.
Qed.

Theorem C30_c_round_trip_partial : forall s,
  valid s -> ~ In 17%N s -> ~ In 18%N s ->
  Forall (fun c => c < 128 \/ 160 <= c)%N s -> no_control_hex s -> exists src bytes,
  to_string c_lang (quoted_string s) = Some src /\ denotes c_grammar src bytes /\
  utf8_decodes bytes s.
Proof.
  intros s H H1 H2 F N. eexists _, (utf8 s). split; [|split; [|apply utf8_ok; auto]].
  { apply literal_source; intros; reflexivity. }
  apply denotes_quoted; [reflexivity|]. intros rest.
  rewrite (lex_text _ _ (fun c => utf8_char (vf_fix c))
     (fun c r => scalar c /\ (c < 128 \/ 160 <= c)%N /\
                 (hex_escaped c = true -> is_hex (hd_error r) = false))).
  - rewrite <- flat_map_map, fix_id by auto. reflexivity.
  - intros c r [A1 [A2 A3]]. apply c_char_ok; auto.
  - intros p c q E. split; [eapply valid_in; eauto|]. split.
    + rewrite E in F. apply Forall_app in F as [_ F]. inversion F; auto.
    + eapply c_next; eauto.
Qed.
Print Assumptions C30_c_round_trip_partial.
Definition sample1 : str :=
  $"say " ++ [34%N] ++ $"$x" ++ [92%N; 10; 97; 9; 13; 27; 122; 127; 7; 233; 8232; 8364; 128512]%N.
Lemma sample1_control : no_control_hex sample1.
Proof.
  intros p c d q E R I. destruct (is_hex (Some d)) eqn:D; auto. exfalso.
  do 30 (destruct p as [|? p]; [cbn in E; inversion E; subst; first [discriminate|lia|cbn in I; tauto]|]).
  apply (f_equal (@length N)) in E. rewrite app_length in E. cbn in E. lia.
Qed.
Example C30_example : valid sample1 /\ ~ In 17%N sample1 /\ ~ In 18%N sample1 /\
  Forall (fun c => c < 128 \/ 160 <= c)%N sample1 /\ no_control_hex sample1.
Proof.
  split; [repeat constructor; unfold scalar; lia|]. split; [cbn; lia|]. split; [cbn; lia|].
  split; [repeat constructor; lia|apply sample1_control].
Qed.

(** An escape character followed by the letter a is one (too large) escape; the
    characters U+0080 to U+009F are illegal. *)
Theorem C30_c_round_trip_refuted :
  (exists src, to_string c_lang (quoted_string (27%N :: $"a")) = Some src /\
               forall rest, read_literal c_grammar (src ++ rest) = None) /\
  (forall c, (128 <= c < 160)%N -> exists src, to_string c_lang (quoted_string [c]) = Some src /\
               forall rest, read_literal c_grammar (src ++ rest) = None).
Proof.
  split.
  - eexists; (split; [vm_compute; reflexivity|]); intros rest; reflexivity.
  - intros c Hc. open_literal. intros rest. cbn [app read_literal flat_map]. rewrite N.eqb_refl.
    rewrite app_nil_r, <- app_assoc. cbn [app].
    apply (c_family_cases c (fun s => match lex c_grammar MText (s ++ 34%N :: rest) with
       | Some (_, []) | None => None
       | Some (v, c' :: rest) => if (c' =? 34)%N then Some (v, rest) else None end = None));
      try (intros; lia).
    + unfold scalar; lia.
    + intros I. cbn [In] in I. lia.
    + intros _. cbn [app].
      rewrite (lex_hex_pad _ _ (exactly 4 c_ucn) 3); try side.
      cbn [n_value exactly]. unfold c_ucn.
      replace ((160 <=? c) || (c =? 36) || (c =? 64) || (c =? 96))%N with false by lia.
      rewrite andb_false_r. reflexivity.
Qed.
Print Assumptions C30_c_round_trip_refuted.

(** ** C31: C# *)

Theorem C31_csharp_denotes : forall s,
  valid s -> no_control_hex s -> exists src units,
  to_string csharp_lang (quoted_string s) = Some src /\ denotes csharp_grammar src units /\
  utf16_decodes units
    (map (fun c => if N.eqb c 18 then 12%N else if N.eqb c 17 then 11%N else c) s).
Proof.
  intros s H X. change (fun c : N => _) with vf_fix.
  eexists _, _. split.
  { apply literal_source; intros; reflexivity. }
  split.
  - apply denotes_quoted; [reflexivity|]. intros rest.
    apply (lex_text _ _ (fun c => utf16_units (vf_fix c))
             (fun c r => scalar c /\ (hex_escaped c = true -> is_hex (hd_error r) = false))).
    + intros c r [A1 A2]. apply csharp_char_ok; auto.
    + intros p c q E. split; [eapply valid_in; eauto|]. eapply c_next; eauto.
  - rewrite <- flat_map_map. apply utf16_ok, vf_fix_valid, H.
Qed.
Print Assumptions C31_csharp_denotes.

Theorem C31_csharp_round_trip_partial : forall s,
  valid s -> ~ In 17%N s -> ~ In 18%N s -> no_control_hex s -> exists src units,
  to_string csharp_lang (quoted_string s) = Some src /\ denotes csharp_grammar src units /\
  utf16_decodes units s.
Proof.
  intros s H H1 H2 H3. destruct (C31_csharp_denotes s H H3) as [src [units [E [D U]]]].
  exists src, units. change (fun c : N => _) with vf_fix in U. rewrite fix_id in U by auto. auto.
Qed.
Print Assumptions C31_csharp_round_trip_partial.
Example C31_example : valid sample1 /\ ~ In 17%N sample1 /\ ~ In 18%N sample1 /\ no_control_hex sample1.
Proof.
  split; [repeat constructor; unfold scalar; lia|]. split; [cbn; lia|]. split; [cbn; lia|].
  apply sample1_control.
Qed.

(** An escape character followed by the letter a is read as U+01BA. *)
Theorem C31_csharp_round_trip_refuted : exists src,
  to_string csharp_lang (quoted_string (27%N :: $"a")) = Some src /\
  denotes csharp_grammar src [442%N].
Proof. eexists; (split; [vm_compute; reflexivity|]); intros rest; reflexivity. Qed.
Print Assumptions C31_csharp_round_trip_refuted.

(** ** C32: Nix *)

Theorem C32_nix_round_trip_partial : forall s,
  Forall (fun c => printable c \/ In c [9; 10; 13]%N) s ->
  no_pair_of (chr "$") (chr "{") s -> exists src,
  to_string nix_lang (quoted_string s) = Some src /\ denotes nix_grammar src s.
Proof.
  intros s F D. open_literal. apply denotes_quoted; [reflexivity|]. intros rest.
  rewrite nix_text_ok.
  - f_equal. rewrite <- (flat_map_singleton s) at 2. apply flat_map_ext_in'.
    intros c Hc. rewrite Forall_forall in F. specialize (F c Hc).
    unfold nix_reads. destruct F as [F|F].
    + unfold printable in F. destruct (existsb _ _); auto.
      replace ((32 <=? c) && (c <? 127))%N with true by lia. auto.
    + cbn [In] in F. destruct F as [<-|[<-|[<-|[]]]]; reflexivity.
  - eapply Forall_impl; [|exact F]. intros c [H|H]; unfold scalar, printable in *; cbn [In] in *; lia.
  - intros p q E. apply (D p q E).
Qed.
Print Assumptions C32_nix_round_trip_partial.
Definition sample2 : str := $"say $" ++ [34%N] ++ $"$x$" ++ [92%N; 10; 9; 13]%N ++ $"$$'".
Example C32_example :
  Forall (fun c => printable c \/ In c [9; 10; 13]%N) sample2 /\ no_pair_of (chr "$") (chr "{") sample2.
Proof.
  split.
  - assert (E : forallb (fun c => ((32 <=? c) && (c <=? 126)) || existsb (N.eqb c) [9; 10; 13])%N
                 sample2 = true) by (vm_compute; reflexivity).
    apply Forall_forall. intros c Hc. rewrite forallb_forall in E. specialize (E c Hc).
    unfold printable. cbn [existsb] in E. cbn [In]. lia.
  - intros p q E.
    do 30 (destruct p as [|? p]; [cbn in E; inversion E|]).
    apply (f_equal (@length N)) in E. rewrite app_length in E. cbn in E. lia.
Qed.

(** Other characters come back as the text of an unknown escape; [${] starts an
    interpolation. *)
Theorem C32_nix_round_trip_refuted :
  (exists src, to_string nix_lang (quoted_string [233%N]) = Some src /\
               denotes nix_grammar src $"u00e9") /\
  (exists src, to_string nix_lang (quoted_string $"a${b}") = Some src /\
               forall rest, read_literal nix_grammar (src ++ rest) = None /\
               lex nix_grammar MText (tl src ++ rest) = Some ($"a", $"${b}" ++ [34%N] ++ rest)).
Proof.
  split; eexists; (split; [vm_compute; reflexivity|]); [intros rest; reflexivity|].
  intros rest. split; reflexivity.
Qed.
Print Assumptions C32_nix_round_trip_refuted.

(** ** C33: the characters of literals, and where they end *)

(** The literal starts with a double quote; the first double quote that is not
    escaped is its last character; its characters are all in [P]. *)
Definition one_literal (P : N -> Prop) (o : option str) : Prop :=
  exists body, o = Some (34%N :: body) /\
    (forall rest, after_literal false (body ++ rest) = Some rest) /\
    Forall P (34%N :: body).
Definition not_control_char (c : N) : Prop := ~ (c < 32 \/ 127 <= c < 160)%N.

Lemma one_literal_ok (P raw : N -> Prop) (f : N -> str) s :
  (forall c, scalar c -> quoted_form raw (f c)) -> (forall c, raw c -> P c) ->
  (forall c, printable c -> P c) -> valid s ->
  one_literal P (Some (34%N :: flat_map f s ++ [34%N])).
Proof.
  intros H R Pr V. eexists. split; [reflexivity|].
  pose proof (form_flat_map raw f s H V) as Q. split.
  - intros rest. rewrite <- app_assoc. rewrite (form_after raw _ Q). reflexivity.
  - constructor; [apply Pr; unfold printable; lia|]. apply Forall_app. split.
    + apply (form_chars raw P); auto.
    + constructor; auto. apply Pr; unfold printable; lia.
Qed.

Theorem C33_printable : forall s, valid s ->
  one_literal printable (to_string c_lang (quoted_string s)) /\
  one_literal printable (to_string csharp_lang (quoted_string s)) /\
  one_literal printable (to_string go_lang (quoted_string s)) /\
  one_literal printable (to_string nix_lang (quoted_string s)) /\
  one_literal printable (to_string python_lang (quoted_string s)) /\
  one_literal printable (to_string java_lang (quoted_string s)).
Proof.
  intros s V.
  assert (H : one_literal printable (Some (34%N :: flat_map c_family_char s ++ [34%N])))
    by (apply (one_literal_ok _ printable); auto using c_family_form).
  assert (J : one_literal printable (Some (34%N :: flat_map java_char s ++ [34%N])))
    by (apply (one_literal_ok _ printable); auto using java_form).
  repeat split.
  1-5: erewrite literal_source by (intros; reflexivity); exact H.
  erewrite literal_source by (intros; reflexivity). exact J.
Qed.
Print Assumptions C33_printable.

Theorem C33_no_control : forall relative s, valid s ->
  one_literal not_control_char (to_string rust_lang (quoted_string s)) /\
  one_literal not_control_char (to_string swift_lang (quoted_string s)) /\
  one_literal not_control_char (to_string dart_lang (quoted_string s)) /\
  one_literal not_control_char (to_string (js_lang relative) (quoted_string s)).
Proof.
  intros relative s V.
  assert (P : forall c, printable c -> not_control_char c)
    by (unfold printable, not_control_char; lia).
  repeat split; (erewrite literal_source by (intros; reflexivity));
    apply (one_literal_ok _ no_control); auto;
    auto using rust_form, swift_form, dart_form, js_form.
Qed.
Print Assumptions C33_no_control.
Example C33_example : exists body,
  to_string go_lang (quoted_string sample) = Some (34%N :: body) /\ length body = 65 /\
  after_literal false (body ++ $"tail") = Some $"tail".
Proof. eexists. split; [vm_compute; reflexivity|]. split; [vm_compute; reflexivity|vm_compute; reflexivity]. Qed.

(** ** C34: quoting what is already quoted *)

(** The outer literal holds the inner literal's characters between plain quotes:
    the inner literal is not escaped itself.  [L] is any of the languages. *)
Definition plain_quotes {LI CFG FMT} (L : lang_def LI CFG FMT) : Prop :=
  l_open_quote (ld_ops L (ld_default_config L) (ld_default_format L)) false = [[34%N]] /\
  l_close_quote (ld_ops L (ld_default_config L) (ld_default_format L)) false = [[34%N]].
Definition twice_quoted_string {LI} (s : str) : tokens LI :=
  append (VQuoted (VQuoted (VStr s))) new.

Theorem C34_twice : forall LI CFG FMT (L : lang_def LI CFG FMT) s, plain_quotes L ->
  to_string L (twice_quoted_string s) = to_string L (quoted_string (34%N :: s ++ [34%N])) /\
  to_string L (twice_quoted_string s) <> None.
Proof.
  intros LI CFG FMT L s [H1 H2]. unfold twice_quoted_string, quoted_string.
  rewrite quoted_quoted_to_string, quoted_to_string by auto. split; [auto|discriminate].
Qed.
Print Assumptions C34_twice.
Example C34_example : plain_quotes rust_lang /\ plain_quotes swift_lang /\ plain_quotes java_lang /\
  plain_quotes (js_lang (fun _ _ => [])) /\ plain_quotes dart_lang /\ plain_quotes python_lang /\
  plain_quotes go_lang /\ plain_quotes c_lang /\ plain_quotes csharp_lang /\ plain_quotes nix_lang.
Proof. repeat split. Qed.

(** So the outer literal denotes the source of the inner one whenever nothing in
    the string needs escaping. *)
Theorem C34_nested_partial : forall s, valid s ->
  Forall (fun c => not_control_char c /\ c <> 34%N /\ c <> 92%N) s ->
  exists inner outer, to_string rust_lang (quoted_string s) = Some inner /\
  to_string rust_lang (twice_quoted_string s) = Some outer /\ denotes rust_grammar outer inner.
Proof.
  intros s V F. destruct (C34_twice _ _ _ rust_lang s) as [-> _]; [split; reflexivity|].
  destruct (C22_rust_round_trip (34%N :: s ++ [34%N])) as [src [E D]].
  { constructor; [unfold scalar; lia|].
    apply Forall_app. split; auto. repeat constructor. }
  exists (34%N :: s ++ [34%N]), src. split; [|auto].
  erewrite literal_source by (intros; reflexivity). do 3 f_equal.
  rewrite <- (flat_map_singleton s) at 2. apply flat_map_ext_in'. intros c Hc.
  rewrite Forall_forall in F. destruct (F c Hc) as [F1 [F2 F3]]. unfold not_control_char in F1.
  unfold rust_char. unfold is_control.
  repeat match goal with |- context [N.eqb c ?k] => destruct (N.eqb_spec c k); [lia|] end.
  replace (negb _) with true by lia. auto.
Qed.
Print Assumptions C34_nested_partial.
Example C34_nested_example :
  Forall (fun c => not_control_char c /\ c <> 34%N /\ c <> 92%N) ($"h" ++ [233; 8364]%N ++ $" 'llo").
Proof.
  cbn [app]. unfold not_control_char. vm_compute app.
  repeat (apply Forall_cons; [repeat split; lia|]). apply Forall_nil.
Qed.

(** A quote inside the string is lost: the text the outer literal denotes is not
    the source of the inner literal, and is not a literal of it at all. *)
Theorem C34_nested_refuted :
  let s := $"a" ++ [34%N] ++ $"b" in
  exists inner outer, to_string rust_lang (quoted_string s) = Some inner /\
  to_string rust_lang (twice_quoted_string s) = Some outer /\
  denotes rust_grammar outer ([34%N] ++ s ++ [34%N]) /\
  inner <> [34%N] ++ s ++ [34%N] /\
  read_literal rust_grammar ([34%N] ++ s ++ [34%N]) = Some ($"a", $"b" ++ [34%N]).
Proof.
  intros s. eexists _, _. split; [vm_compute; reflexivity|]. split; [vm_compute; reflexivity|].
  split; [intros rest; reflexivity|]. split; [discriminate|]. vm_compute. reflexivity.
Qed.
Print Assumptions C34_nested_refuted.

(** A third level is refused, in every language and for every string. *)
Theorem C34_three_levels_refuted : forall LI CFG FMT (L : lang_def LI CFG FMT) s,
  to_string L (append (VQuoted (VQuoted (VQuoted (VStr s)))) new) = None.
Proof.
  intros LI CFG FMT L s. unfold to_string.
  assert (H : snd (format L string_writer (config_from_lang L)
                     (append (VQuoted (VQuoted (VQuoted (VStr s)))) new)
                     (ld_default_config L) (ld_default_format L) (formatter_new [])) = false).
  { unfold format. apply format_rejects. destruct s; reflexivity. }
  destruct (format L string_writer _ _ _ _ _) as [st ok]. cbn [snd] in H. subst ok. reflexivity.
Qed.
Print Assumptions C34_three_levels_refuted.

(** ** C35: interpolated strings *)

(** Any stream holding the items of some code renders as the source of the code.
    [escape] is whatever quoting a string alone writes between the quotes. *)
Theorem C35_js : forall relative (escape : str -> str) t cs,
  (forall s, to_string (js_lang relative) (quoted_string s) = Some ([34%N] ++ escape s ++ [34%N])) ->
  items t = flat_map code_items cs ->
  to_string (js_lang relative) t = Some (flat_map (code_source js_code_quote js_eval escape) cs).
Proof.
  intros relative escape t cs H E. apply code_to_string.
  - intros []; reflexivity.
  - intros []; reflexivity.
  - intros s. specialize (H s). unfold quoted_string in H.
    rewrite quoted_to_string in H by reflexivity. injection H as H.
    apply app_inj_tail in H as [H _]. exact H.
  - reflexivity.
  - intros cs' src _. reflexivity.
  - exact E.
Qed.
Print Assumptions C35_js.

Theorem C35_dart : forall (escape : str -> str) t cs,
  (forall s, to_string dart_lang (quoted_string s) = Some ([34%N] ++ escape s ++ [34%N])) ->
  items t = flat_map code_items cs ->
  to_string dart_lang t = Some (flat_map (code_source double_quote dart_eval escape) cs).
Proof.
  intros escape t cs H E. apply code_to_string.
  - intros []; reflexivity.
  - intros []; reflexivity.
  - intros s. specialize (H s). unfold quoted_string in H.
    rewrite quoted_to_string in H by reflexivity. injection H as H.
    apply app_inj_tail in H as [H _]. exact H.
  - intros s. cbn. rewrite app_nil_r. auto.
  - intros cs' src D. destruct cs' as [|[s|ps] [|c cs']]; try reflexivity. destruct (D s); auto.
  - exact E.
Qed.
Print Assumptions C35_dart.

(** The other languages. *)
Definition plain_strings {LI CFG FMT} (L : lang_def LI CFG FMT) : Prop :=
  forall (escape : str -> str) t cs,
  (forall s, to_string L (quoted_string s) = Some ([34%N] ++ escape s ++ [34%N])) ->
  items t = flat_map code_items cs ->
  to_string L t = Some (flat_map (code_source double_quote no_eval escape) cs).
Theorem C35_others :
  plain_strings rust_lang /\ plain_strings swift_lang /\ plain_strings java_lang /\
  plain_strings python_lang /\ plain_strings go_lang /\ plain_strings c_lang /\
  plain_strings csharp_lang /\ plain_strings nix_lang.
Proof.
  assert (G : forall s e1 e2 : str, Some (34%N :: e1 ++ [34%N]) = Some ([34%N] ++ e2 ++ [34%N]) -> e1 = e2).
  { intros _ e1 e2 H. injection H as H. apply app_inj_tail in H as [H _]. exact H. }
  repeat split; intros escape t cs H E; (apply code_to_string;
    [ intros []; reflexivity | intros []; reflexivity
    | intros s; specialize (H s); unfold quoted_string in H; rewrite quoted_to_string in H by reflexivity;
      apply (G s), H
    | intros s; apply app_nil_r
    | intros cs' src D; apply app_nil_r
    | exact E ]).
Qed.
Print Assumptions C35_others.

(** Nested: a template holding an expression with a template of its own. *)
Definition sample_code : list code :=
  [Text (Static $"x = "); Interpolated [Const (Static [10%N]); Eval [Text (Static $"f("); Interpolated [Eval [Text (Static $"y")]; Const (Static $"!")];
     Text (Static $")")]; Const (Static $"a"); Eval [Text (Box $"z")]]; Text (Static $"; "); Interpolated [Const (Static $"p")]].
Example C35_js_example : forall relative,
  to_string (js_lang relative) (from_iter (flat_map code_items sample_code)) =
  Some ($"x = `\n${f(`${y}!`)}a${z}`; " ++ [34%N] ++ $"p" ++ [34%N]).
Proof. intros relative. vm_compute. reflexivity. Qed.
Example C35_dart_example :
  to_string dart_lang (from_iter (flat_map code_items sample_code)) =
  Some ($"x = " ++ [34%N] ++ $"\n${f(" ++ [34%N] ++ $"$y!" ++ [34%N] ++ $")}a$z" ++ [34%N] ++
        $"; " ++ [34%N] ++ $"p" ++ [34%N]).
Proof. vm_compute. reflexivity. Qed.

(** Wherever a literal stands in a document it is written in one piece. *)
Theorem C35_literal_anywhere : forall LI (ops : lang_ops LI) cfg before after s,
  doc_ok before = true -> doc_ok after = true ->
  l_open_quote ops false = [[34%N]] -> l_close_quote ops false = [[34%N]] ->
  exists sep tail,
  Forall (fun c => In c (c_newline cfg) \/ c = 32%N \/ c = 9%N) sep /\
  outcome (format_items ops cfg string_writer
             (doc_items (before ++ NString false [PItem (Literal (Box s))] :: after))
             (formatter_new [])) =
  (text (c_newline cfg) (layout (c_indentation cfg) (doc_atoms ops cfg before)) ++ sep ++
   (34%N :: concat (l_write_quoted ops s) ++ [34%N]) ++ tail, true).
Proof. intros LI. exact literal_in_context. Qed.
Print Assumptions C35_literal_anywhere.
