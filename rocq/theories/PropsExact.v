(** * Which strings round-trip, exactly: C24-C32.

    The theorems ending in [_partial] of [PropsQuote.v] give conditions under which
    the quoted form of a string denotes the string.  Here these conditions are shown
    to be necessary too, so that no others are affected.
    Vocabulary and model: as in [PropsQuote.v]. *)
From Verif Require Import Str SpecStr StrFacts Quote SpecLex LexFacts QuoteFacts Tokens Values Fmt SpecFmt
  LangBase LangC LangCsharp LangDart LangGo LangJava LangJs LangNix LangPython OutputFacts StringFacts PropsQuote ExactFacts.
From Coq Require Import ZifyBool ZifyNat ZifyN.

Lemma literal_is {LI CFG FMT} (L : lang_def LI CFG FMT) (f : N -> str) s src :
  l_open_quote (ld_ops L (ld_default_config L) (ld_default_format L)) false = [[34%N]] -> l_close_quote (ld_ops L (ld_default_config L) (ld_default_format L)) false = [[34%N]] ->
  (forall s, l_write_quoted (ld_ops L (ld_default_config L) (ld_default_format L)) s = map f s) ->
  to_string L (quoted_string s) = Some src -> src = 34%N :: flat_map f s ++ [34%N].
Proof. intros H1 H2 H E. rewrite (literal_source L f s H1 H2 H) in E. congruence. Qed.

(** ** Java *)
Theorem C24_java_exact : forall s, valid s ->
  ((exists src units, to_string java_lang (quoted_string s) = Some src /\ java_denotes src units /\ utf16_decodes units s) <->
   ~ In 7%N s /\ ~ In 20%N s).
Proof.
  intros s V. split; [|intros [A B]; exact (C24_java_round_trip_partial s V A B)].
  intros [src [units [E [D U]]]]. destruct (C24_java_denotes s V) as [src' [units' [E' [D' U']]]]. rewrite E in E'. inversion E'; subst src'.
  destruct (D [] [] eq_refl) as [u [T R]]. destruct (D' [] [] eq_refl) as [u' [T' R']]. rewrite T in T'. inversion T'; subst u'. rewrite R in R'. inversion R'; subst units'.
  clear - V U U'. change (fun c : N => _) with java_fix in U'.
  assert (G : forall u s t, utf16_decodes u s -> utf16_decodes u t -> s = t).
  { clear. intros u s t H. revert t. induction H as [|c l s R D IH|h w l s R1 R2 D IH]; intros t T.
    - destruct t; [reflexivity|]. inversion T.
    - destruct t as [|d t]; [inversion T|]. destruct (utf16_inv _ _ T _ _ _ _ eq_refl eq_refl) as [[_ [-> T']]|[w [r [R' _]]]]; [|lia]. f_equal. apply IH, T'.
    - destruct t as [|d t]; [inversion T|]. destruct (utf16_inv _ _ T _ _ _ _ eq_refl eq_refl) as [[R' _]|[w' [r [_ [_ [E [E' T']]]]]]]; [lia|]. apply cons_eq in E as [-> ->]. f_equal; [exact E'|]. apply IH, T'. }
  specialize (G _ _ _ U U'). clear - G. induction s as [|c s IH]; [cbn; tauto|]. cbn [map] in G. apply cons_eq in G as [G1 G2]. specialize (IH G2). unfold java_fix in G1. cbn [In].
  destruct (N.eqb_spec c 7); [lia|]. destruct (N.eqb_spec c 20); [lia|]. intuition congruence.
Qed.
Print Assumptions C24_java_exact.

(** ** JavaScript and Dart *)
Lemma js_lone_nul g r : g = js_grammar \/ g = js_template_grammar -> is_digit (hd_error r) = true -> lex g MText (js_char 0 ++ r) = None.
Proof.
  intros [-> | ->] D; change (js_char 0) with [92; 48]%N; cbn [app lex hd_error]; cbn [g_stop g_braced g_number g_simple js_grammar js_template_grammar];
    change (js_braced 48) with (@None braced_escape); change (js_number 48) with (@None number_escape); unfold js_simple; change (lookup _ 48) with (@None (list N)); change (N.eqb 48 (chr "0")) with true; rewrite D; reflexivity.
Qed.
Lemma js_digit d : is_digit (Some d) = true -> js_char d = [d].
Proof.
  unfold is_digit, dec_digit. intros H. destruct ((48 <=? d) && (d <=? 57))%N eqn:A; [|discriminate]. unfold js_char, is_control.
  repeat match goal with |- context [N.eqb d ?k] => replace (N.eqb d k) with false by lia end.
  match goal with |- context [negb ?b] => replace b with false by lia end. reflexivity.
Qed.
Lemma js_digit_next s t : is_digit (hd_error t) = false ->
  is_digit (hd_error (flat_map js_char s ++ t)) = match s with d :: _ => is_digit (Some d) | [] => false end.
Proof.
  intros T. destruct s as [|d q]; [exact T|]. cbn [flat_map]. rewrite <- app_assoc. destruct (is_digit (Some d)) eqn:D; [rewrite (js_digit d D); exact D|].
  destruct (js_first d (flat_map js_char q ++ t)) as [x [r [E [X|X]]]]; rewrite E; subst x; [reflexivity|exact D].
Qed.
Definition js_good (c : N) (q : str) : Prop := (c = 0%N -> match q with d :: _ => is_digit (Some d) = false | [] => True end) /\ c <> 17%N /\ c <> 18%N.
Lemma js_good_all s : (forall p c q, s = p ++ c :: q -> js_good c q) -> no_nul_digit s /\ ~ In 17%N s /\ ~ In 18%N s.
Proof.
  intros H. repeat split.
  - intros p d q E. destruct (H p 0%N (d :: q) E) as [H1 _]. exact (H1 eq_refl).
  - intros X. apply in_split in X as [p [q E]]. destruct (H p _ q E) as [_ [H2 _]]. congruence.
  - intros X. apply in_split in X as [p [q E]]. destruct (H p _ q E) as [_ [_ H2]]. congruence.
Qed.
(** A wrong escape is not read back. *)
Lemma vf_wrong g (f : N -> str) c q t (dec : list N -> str -> Prop) enc : (c = 17 \/ c = 18)%N -> (forall c d u q, scalar c -> dec (enc c ++ u) (d :: q) -> c = d /\ dec u q) ->
  lex g MText (flat_map f (c :: q) ++ t) = emit (enc (vf_fix c)) (lex g MText (flat_map f q ++ t)) ->
  forall u, lex g MText (flat_map f (c :: q) ++ t) = Some (u, t) -> ~ dec u (c :: q).
Proof.
  intros H S E u L D. rewrite E in L. apply emit_some in L as [u' [_ ->]]. destruct H as [-> | ->]; [change (vf_fix 17) with 11%N in D|change (vf_fix 18) with 12%N in D];
    apply S in D; try (unfold scalar; lia); destruct D; discriminate.
Qed.
Theorem C25_js_exact : forall relative s, valid s ->
  ((exists src units, to_string (js_lang relative) (quoted_string s) = Some src /\ denotes js_grammar src units /\ utf16_decodes units s) <->
   no_nul_digit s /\ ~ In 17%N s /\ ~ In 18%N s).
Proof.
  intros relative s V. split; [|intros [A [B C]]; exact (C25_js_round_trip_partial relative s V A B C)].
  intros [src [units [E [D U]]]]. apply (literal_is _ js_char) in E; try (intros; reflexivity). subst src. apply denotes_text in D.
  apply js_good_all. apply (exact_text js_grammar js_char utf16_units utf16_decodes [34%N] js_good utf16_step) with (u := units); try assumption.
  intros c q C Vq. cbn [flat_map]. destruct (N.eq_dec c 17) as [E17|N17]; [|destruct (N.eq_dec c 18) as [E18|N18]].
  - right. apply (vf_wrong _ js_char _ _ _ _ utf16_units); [auto|exact utf16_step|]. cbn [flat_map]. rewrite <- app_assoc. apply js_char_ok; auto; [|intros ->; discriminate]. intros X. apply (f_equal (fun g => g_stop g 96 None)) in X. discriminate X.
  - right. apply (vf_wrong _ js_char _ _ _ _ utf16_units); [auto|exact utf16_step|]. cbn [flat_map]. rewrite <- app_assoc. apply js_char_ok; auto; [|intros ->; discriminate]. intros X. apply (f_equal (fun g => g_stop g 96 None)) in X. discriminate X.
  - rewrite <- app_assoc. pose proof (js_digit_next q [34%N] eq_refl) as N1. destruct (N.eq_dec c 0) as [->|N0].
    + destruct (is_digit (hd_error (flat_map js_char q ++ [34%N]))) eqn:B.
      * right. intros u L. rewrite js_lone_nul in L by auto. discriminate.
      * left. split; [split; [intros _|split; discriminate]; destruct q; [exact I|symmetry; exact N1]|].
        rewrite js_char_ok; auto. intros X. apply (f_equal (fun g => g_stop g 96 None)) in X. discriminate X.
    + left. split; [split; [congruence|auto]|]. rewrite js_char_ok; auto; [rewrite vf_fix_other by assumption; reflexivity| |congruence]. intros X. apply (f_equal (fun g => g_stop g 96 None)) in X. discriminate X.
Qed.
Print Assumptions C25_js_exact.

Theorem C27_dart_exact : forall s, valid s ->
  ((exists src units, to_string dart_lang (quoted_string s) = Some src /\ denotes dart_grammar src units /\ utf16_decodes units s) <->
   ~ In 17%N s /\ ~ In 18%N s).
Proof.
  intros s V. split; [|intros [A B]; exact (C27_dart_round_trip_partial s V A B)].
  intros [src [units [E [D U]]]]. apply (literal_is _ dart_char) in E; try (intros; reflexivity). subst src. apply denotes_text in D.
  assert (G : forall p c q, s = p ++ c :: q -> c <> 17%N /\ c <> 18%N).
  { apply (exact_text dart_grammar dart_char utf16_units utf16_decodes [34%N] (fun c _ => c <> 17%N /\ c <> 18%N) utf16_step) with (u := units); try assumption.
    intros c q C Vq. destruct (N.eq_dec c 17) as [E17|N17]; [|destruct (N.eq_dec c 18) as [E18|N18]].
    1,2: right; apply (vf_wrong _ dart_char _ _ _ _ utf16_units); [auto|exact utf16_step|]; cbn [flat_map]; rewrite <- app_assoc; apply dart_char_ok, C.
    left. split; [auto|]. cbn [flat_map]. rewrite <- app_assoc, dart_char_ok by exact C. rewrite vf_fix_other by assumption. reflexivity. }
  split; intros X; apply in_split in X as [p [q E]]; destruct (G _ _ _ E); congruence.
Qed.
Print Assumptions C27_dart_exact.

(** ** Python and Go *)
Theorem C28_python_exact : forall s, valid s ->
  ((exists src, to_string python_lang (quoted_string s) = Some src /\ denotes python_grammar src s) <-> ~ In 17%N s /\ ~ In 18%N s).
Proof.
  intros s V. split; [|intros [A B]; exact (C28_python_round_trip_partial s V A B)].
  intros [src [E D]]. apply (literal_is _ c_family_char) in E; try (intros; reflexivity). subst src. apply denotes_text in D.
  assert (St : forall c d u q, scalar c -> [c] ++ u = d :: q -> c = d /\ u = q) by (intros c d u q _ X; inversion X; auto).
  assert (G : forall p c q, s = p ++ c :: q -> c <> 17%N /\ c <> 18%N).
  { apply (exact_text python_grammar c_family_char (fun c => [c]) eq [34%N] (fun c _ => c <> 17%N /\ c <> 18%N) St) with (u := s); try assumption; [|reflexivity].
    intros c q C Vq. destruct (N.eq_dec c 17) as [E17|N17]; [|destruct (N.eq_dec c 18) as [E18|N18]].
    1,2: right; apply (vf_wrong _ c_family_char _ _ _ _ (fun c => [c])); [auto|exact St|]; cbn [flat_map]; rewrite <- app_assoc; apply python_char_ok, C.
    left. split; [auto|]. cbn [flat_map]. rewrite <- app_assoc, python_char_ok by exact C. rewrite vf_fix_other by assumption. reflexivity. }
  split; intros X; apply in_split in X as [p [q E]]; destruct (G _ _ _ E); congruence.
Qed.
Print Assumptions C28_python_exact.

Theorem C29_go_exact : forall s, valid s ->
  ((exists src bytes, to_string go_lang (quoted_string s) = Some src /\ denotes go_grammar src bytes /\ utf8_decodes bytes s) <->
   ~ In 17%N s /\ ~ In 18%N s /\ ~ In 39%N s).
Proof.
  intros s V. split; [|intros [A [B C]]; exact (C29_go_round_trip_partial s V A B C)].
  intros [src [bytes [E [D U]]]]. apply (literal_is _ c_family_char) in E; try (intros; reflexivity). subst src. apply denotes_text in D.
  assert (G : forall p c q, s = p ++ c :: q -> c <> 17%N /\ c <> 18%N /\ c <> 39%N).
  { apply (exact_text go_grammar c_family_char utf8_char utf8_decodes [34%N] (fun c _ => c <> 17%N /\ c <> 18%N /\ c <> 39%N) utf8_step) with (u := bytes); try assumption.
    intros c q C Vq. destruct (N.eq_dec c 39) as [->|N39].
    { right. intros u L. cbn [flat_map] in L. rewrite <- app_assoc, go_single_quote_illegal in L. discriminate. }
    destruct (N.eq_dec c 17) as [E17|N17]; [|destruct (N.eq_dec c 18) as [E18|N18]].
    1,2: right; apply (vf_wrong _ c_family_char _ _ _ _ utf8_char); [auto|exact utf8_step|]; cbn [flat_map]; rewrite <- app_assoc; apply go_char_ok; assumption.
    left. split; [auto|]. cbn [flat_map]. rewrite <- app_assoc, go_char_ok by assumption. rewrite vf_fix_other by assumption. reflexivity. }
  repeat split; intros X; apply in_split in X as [p [q E]]; destruct (G _ _ _ E) as [? [? ?]]; congruence.
Qed.
Print Assumptions C29_go_exact.

(** ** C and C# *)
Lemma hex_escaped_iff c : hex_escaped c = true <-> (c < 32 \/ c = 127)%N /\ ~ In c [7; 8; 9; 10; 13; 17; 18]%N.
Proof. unfold hex_escaped, is_control, is_ascii. cbn [existsb In]. lia. Qed.
Lemma hex_text q : is_hex (hd_error (flat_map c_family_char q ++ [34%N])) = match q with d :: _ => is_hex (Some d) | [] => false end.
Proof.
  destruct q as [|d q]; [reflexivity|]. cbn [flat_map]. rewrite <- app_assoc. destruct (is_hex (Some d)) eqn:D; [rewrite (hex_plain d D); exact D|].
  destruct (c_family_first d (flat_map c_family_char q ++ [34%N])) as [x [r [E [X|X]]]]; rewrite E; subst x; [reflexivity|exact D].
Qed.
Definition c_good (c : N) (q : str) : Prop :=
  (hex_escaped c = true -> match q with d :: _ => is_hex (Some d) = false | [] => True end) /\ c <> 17%N /\ c <> 18%N.
Lemma c_good_all s : (forall p c q, s = p ++ c :: q -> c_good c q) -> ~ In 17%N s /\ ~ In 18%N s /\ no_control_hex s.
Proof.
  intros H. split; [|split].
  - intros X. apply in_split in X as [p [q E]]. destruct (H p _ q E) as [_ [H2 _]]. congruence.
  - intros X. apply in_split in X as [p [q E]]. destruct (H p _ q E) as [_ [_ H2]]. congruence.
  - intros p c d q E R N. destruct (H p c (d :: q) E) as [H1 [H2 H3]]. apply H1, hex_escaped_iff. split; [exact R|]. cbn [In] in *. intuition congruence.
Qed.
Theorem C31_csharp_exact : forall s, valid s ->
  ((exists src units, to_string csharp_lang (quoted_string s) = Some src /\ denotes csharp_grammar src units /\ utf16_decodes units s) <->
   ~ In 17%N s /\ ~ In 18%N s /\ no_control_hex s).
Proof.
  intros s V. split; [|intros [A [B C]]; exact (C31_csharp_round_trip_partial s V A B C)].
  intros [src [units [E [D U]]]]. apply (literal_is _ c_family_char) in E; try (intros; reflexivity). subst src. apply denotes_text in D.
  apply c_good_all. apply (exact_text csharp_grammar c_family_char utf16_units utf16_decodes [34%N] c_good utf16_step) with (u := units); try assumption.
  intros c q C Vq. pose proof (hex_text q) as HT. destruct (hex_escaped c && is_hex (hd_error (flat_map c_family_char q ++ [34%N])))%bool eqn:B.
  - right. apply andb_prop in B as [B1 B2]. intros u. apply (swallows csharp_grammar (mk_number 1 (fun k => Nat.ltb k 4) (fun n => Some [n])) utf16_units utf16_decodes [34%N]); try reflexivity; try assumption.
    + intros n v X. inversion X; reflexivity.
    + intros x X. apply raw_units. lia.
    + intros x. unfold utf16_units. destruct (x <? 65536)%N; cbn; lia.
    + apply utf16_length.
    + intros x y u' q' X. apply utf16_head. lia.
    + intros x rest X Y. right. apply csharp_char_ok; assumption.
  - assert (K : hex_escaped c = true -> is_hex (hd_error (flat_map c_family_char q ++ [34%N])) = false) by (intros X; rewrite X in B; exact B).
    assert (L : lex csharp_grammar MText (flat_map c_family_char (c :: q) ++ [34%N]) = emit (utf16_units (vf_fix c)) (lex csharp_grammar MText (flat_map c_family_char q ++ [34%N])))
      by (cbn [flat_map]; rewrite <- app_assoc; apply csharp_char_ok; assumption).
    destruct (N.eq_dec c 17) as [E17|N17]; [|destruct (N.eq_dec c 18) as [E18|N18]].
    1,2: right; apply (vf_wrong _ c_family_char _ _ _ _ utf16_units); [auto|exact utf16_step|exact L].
    left. split; [|rewrite L, vf_fix_other by assumption; reflexivity]. split; [|auto]. intros X. specialize (K X). rewrite HT in K. destruct q; [exact I|exact K].
Qed.
Print Assumptions C31_csharp_exact.

Lemma c_illegal c r : (128 <= c < 160)%N -> lex c_grammar MText (c_family_char c ++ r) = None.
Proof.
  intros Hc. apply (c_family_cases c (fun s => lex c_grammar MText (s ++ r) = None)); try (intros; lia).
  - unfold scalar; lia.
  - intros I. cbn [In] in I. lia.
  - intros _. cbn [app]. rewrite (lex_hex_pad _ _ (exactly 4 c_ucn) 3); try side. cbn [n_value exactly]. unfold c_ucn.
    replace ((160 <=? c) || (c =? 36) || (c =? 64) || (c =? 96))%N with false by lia. rewrite andb_false_r. reflexivity.
Qed.
(** Without trigraphs. *)
Theorem C30_c_exact : forall s, valid s ->
  ((exists src bytes, to_string c_lang (quoted_string s) = Some src /\ denotes c_grammar src bytes /\ utf8_decodes bytes s) <->
   ~ In 17%N s /\ ~ In 18%N s /\ Forall (fun c => c < 128 \/ 160 <= c)%N s /\ no_control_hex s).
Proof.
  intros s V. split; [|intros [A [B [C D]]]; exact (C30_c_round_trip_partial s V A B C D)].
  intros [src [bytes [E [D U]]]]. apply (literal_is _ c_family_char) in E; try (intros; reflexivity). subst src. apply denotes_text in D.
  assert (G : forall p c q, s = p ++ c :: q -> c_good c q /\ (c < 128 \/ 160 <= c)%N).
  { apply (exact_text c_grammar c_family_char utf8_char utf8_decodes [34%N] (fun c q => c_good c q /\ (c < 128 \/ 160 <= c)%N) utf8_step) with (u := bytes); try assumption.
    intros c q C Vq. pose proof (hex_text q) as HT. 
    assert (R : (128 <= c < 160)%N \/ (c < 128 \/ 160 <= c)%N) by lia. destruct R as [R|R].
    { right. intros u L. cbn [flat_map] in L. rewrite <- app_assoc, (c_illegal c _ R) in L. discriminate. }
    destruct (hex_escaped c && is_hex (hd_error (flat_map c_family_char q ++ [34%N])))%bool eqn:B.
    - right. apply andb_prop in B as [B1 B2]. intros u.
      apply (swallows c_grammar (mk_number 1 (fun _ => true) (fun n => if (n <? 256)%N then Some [n] else None)) utf8_char utf8_decodes [34%N]); try reflexivity; try assumption.
      + intros n v X. cbn [n_value] in X. destruct (n <? 256)%N; [|discriminate]. inversion X; reflexivity.
      + intros x X. apply raw_utf8. lia.
      + intros x. unfold utf8_char. destruct (x <? 128)%N; [cbn; lia|]. destruct (x <? 2048)%N; [cbn; lia|]. destruct (x <? 65536)%N; cbn; lia.
      + apply utf8_length.
      + intros x y u' q' X. apply utf8_head, X.
      + intros x rest X Y. assert (Rx : (128 <= x < 160)%N \/ (x < 128 \/ 160 <= x)%N) by lia. destruct Rx as [Rx|Rx]; [left; apply c_illegal, Rx|right; apply c_char_ok; assumption].
    - assert (K : hex_escaped c = true -> is_hex (hd_error (flat_map c_family_char q ++ [34%N])) = false) by (intros X; rewrite X in B; exact B).
      assert (L : lex c_grammar MText (flat_map c_family_char (c :: q) ++ [34%N]) = emit (utf8_char (vf_fix c)) (lex c_grammar MText (flat_map c_family_char q ++ [34%N])))
        by (cbn [flat_map]; rewrite <- app_assoc; apply c_char_ok; assumption).
      destruct (N.eq_dec c 17) as [E17|N17]; [|destruct (N.eq_dec c 18) as [E18|N18]].
      1,2: right; apply (vf_wrong _ c_family_char _ _ _ _ utf8_char); [auto|exact utf8_step|exact L].
      left. split; [|rewrite L, vf_fix_other by assumption; reflexivity]. split; [split; [|auto]|exact R]. intros X. specialize (K X). rewrite HT in K. destruct q; [exact I|exact K]. }
  destruct (c_good_all s) as [A1 [A2 A3]]; [intros p c q E; exact (proj1 (G p c q E))|]. split; [exact A1|]. split; [exact A2|]. split; [|exact A3].
  apply Forall_forall. intros c X. apply in_split in X as [p [q E]]. exact (proj2 (G p c q E)).
Qed.
Print Assumptions C30_c_exact.

(** ** JavaScript template text *)
Theorem C26_template_exact : forall s rest, valid s -> (exists r, rest = $"`" ++ r) \/ (exists r, rest = $"${" ++ r) ->
  ((exists units, lex js_template_grammar MText (concat (l_write_quoted js_ops s) ++ rest) = Some (units, rest) /\ utf16_decodes units s) <->
   no_nul_digit s /\ ~ In 17%N s /\ ~ In 18%N s /\ ~ In (chr "`") s /\ no_pair_of (chr "$") (chr "{") s).
Proof.
  intros s rest V R. split; [|intros [A [B [C [D E]]]]; exact (C26_template_round_trip_partial s rest V A B C D E R)].
  intros [units [L U]]. assert (Q0 : concat (l_write_quoted js_ops s) = flat_map js_char s) by exact (concat_map_flat js_char s). rewrite Q0 in L.
  assert (T1 : is_digit (hd_error rest) = false) by (destruct R as [[r ->]|[r ->]]; reflexivity).
  assert (T2 : next_is (chr "{") (hd_error rest) = false) by (destruct R as [[r ->]|[r ->]]; reflexivity).
  assert (Lo : forall (x : str) (u : list N), x <> [] -> Some ([], x ++ rest) <> Some (u, rest)).
  { intros x u X Q. assert (Q' : x ++ rest = rest) by congruence. apply (f_equal (@length N)) in Q'. rewrite app_length in Q'. destruct x; [congruence|cbn in Q'; lia]. }
  assert (G : forall p c q, s = p ++ c :: q -> js_good c q /\ c <> chr "`" /\ (c = chr "$" -> next_is (chr "{") (hd_error q) = false)).
  { apply (exact_text js_template_grammar js_char utf16_units utf16_decodes rest (fun c q => js_good c q /\ c <> chr "`" /\ (c = chr "$" -> next_is (chr "{") (hd_error q) = false)) utf16_step) with (u := units); try assumption.
    intros c q C Vq. cbn [flat_map]. rewrite <- app_assoc. destruct (N.eq_dec c (chr "`")) as [->|NB].
    { right. intros u Q. exfalso. change (js_char (chr "`")) with [96%N] in Q. change ([96%N] ++ flat_map js_char q ++ rest) with ((96%N :: flat_map js_char q) ++ rest) in Q.
      assert (Z : lex js_template_grammar MText ((96%N :: flat_map js_char q) ++ rest) = Some ([], (96%N :: flat_map js_char q) ++ rest)) by reflexivity.
      rewrite Z in Q. eapply Lo; [|exact Q]. discriminate. }
    destruct (N.eq_dec c (chr "$")) as [->|ND].
    { change (js_char (chr "$")) with [36%N]. destruct q as [|d q].
      - left. split; [split; [split; [discriminate|split; discriminate]|split; [discriminate|reflexivity]]|]. cbn [flat_map app]. apply lex_raw; [|discriminate|reflexivity|reflexivity].
        cbn [g_stop js_template_grammar]. unfold js_template_stop. rewrite T2. reflexivity.
      - destruct (N.eq_dec d (chr "{")) as [->|NE].
        + right. intros u Q. exfalso. cbn [flat_map] in Q. change (js_char (chr "{")) with [123%N] in Q.
          assert (Z : lex js_template_grammar MText ([36%N] ++ ([123%N] ++ flat_map js_char q) ++ rest) = Some ([], (36%N :: 123%N :: flat_map js_char q) ++ rest)) by reflexivity.
          rewrite Z in Q. eapply Lo; [|exact Q]. discriminate.
        + left. split; [split; [split; [discriminate|split; discriminate]|split; [discriminate|]]|].
          * intros _. cbn [hd_error next_is]. lia.
          * cbn [app]. apply lex_raw; [|discriminate|reflexivity|reflexivity]. cbn [g_stop js_template_grammar]. unfold js_template_stop.
            cbn [flat_map]. rewrite <- app_assoc. destruct (js_first d (flat_map js_char q ++ rest)) as [x [r [X [Y|Y]]]]; rewrite X; cbn [hd_error next_is]; subst x; [reflexivity|].
            replace (d =? chr "{")%N with false by lia. reflexivity. }
    assert (K : forall r, (c = 0%N -> is_digit (hd_error r) = false) -> lex js_template_grammar MText (js_char c ++ r) = emit (utf16_units (vf_fix c)) (lex js_template_grammar MText r)).
    { intros r Z. apply js_char_ok; auto. intros _. split; [exact NB|]. intros X. congruence. }
    destruct (N.eq_dec c 17) as [E17|N17]; [|destruct (N.eq_dec c 18) as [E18|N18]].
    1,2: right; intros u Q; refine (vf_wrong js_template_grammar js_char c q rest utf16_decodes utf16_units _ utf16_step _ u _); [auto| |]; cbn [flat_map]; rewrite <- app_assoc; [apply K; intros ->; discriminate|exact Q].
    pose proof (js_digit_next q rest T1) as N1. destruct (N.eq_dec c 0) as [->|N0].
    - destruct (is_digit (hd_error (flat_map js_char q ++ rest))) eqn:B.
      + right. intros u Q. rewrite js_lone_nul in Q by auto. discriminate.
      + left. split; [split; [split; [intros _|split; discriminate]; destruct q; [exact I|symmetry; exact N1]|split; discriminate]|]. rewrite K by auto. reflexivity.
    - left. split; [split; [split; [congruence|auto]|split; [exact NB|congruence]]|]. rewrite K by congruence. rewrite vf_fix_other by assumption. reflexivity. }
  destruct (js_good_all s) as [A1 [A2 A3]]; [intros p c q E; exact (proj1 (G p c q E))|]. split; [exact A1|]. split; [exact A2|]. split; [exact A3|]. split.
  - intros X. apply in_split in X as [p [q E]]. destruct (G _ _ _ E) as [_ [X _]]. congruence.
  - intros p q E. destruct (G _ _ _ E) as [_ [_ X]]. specialize (X eq_refl). discriminate.
Qed.
Print Assumptions C26_template_exact.

(** ** Nix *)

(** Every run of dollars in front of a brace has an even length: [$$] before a
    brace is not an interpolation. *)
Definition no_interpolation (s : str) : Prop :=
  forall p n q, s = p ++ repeat (chr "$") n ++ chr "{" :: q -> last p 0%N <> chr "$" -> Nat.even n = true.
Definition nix_char (c : N) : Prop := printable c \/ In c [9; 10; 13]%N.

Lemma no_interpolation_cons c s : c <> chr "$" -> (no_interpolation (c :: s) <-> no_interpolation s).
Proof.
  intros C. split; intros H.
  - intros p n q E L. apply (H (c :: p) n q); [rewrite E; reflexivity|]. destruct p; [exact C|exact L].
  - intros p n q E L. destruct p as [|x p].
    + destruct n; [reflexivity|]. cbn [repeat app] in E. apply cons_eq in E as [E _]. congruence.
    + cbn [app] in E. apply cons_eq in E as [-> E]. apply (H p n q E). destruct p; [discriminate|exact L].
Qed.
Lemma no_interpolation_two s : no_interpolation (chr "$" :: chr "$" :: s) <-> no_interpolation s.
Proof.
  split; intros H.
  - intros p n q E L. destruct p as [|x p].
    + change (Nat.even (S (S n)) = true). apply (H [] (S (S n)) q); [rewrite E; reflexivity|exact L].
    + apply (H (chr "$" :: chr "$" :: x :: p) n q); [rewrite E; reflexivity|exact L].
  - intros p n q E L. destruct p as [|x [|y p]].
    + destruct n as [|[|n]]; [reflexivity| |]; cbn [repeat app] in E; apply cons_eq in E as [_ E]; apply cons_eq in E as [E1 E].
      * discriminate.
      * apply (H [] n q E). discriminate.
    + cbn [app] in E. apply cons_eq in E as [E _]. elim L. exact (eq_sym E).
    + cbn [app] in E. apply cons_eq in E as [E1 E]. apply cons_eq in E as [E2 E]. destruct p as [|z p]; [elim L; exact (eq_sym E2)|]. apply (H (z :: p) n q E). exact L.
Qed.
Lemma no_interpolation_one d s : d <> chr "$" -> d <> chr "{" -> (no_interpolation (chr "$" :: d :: s) <-> no_interpolation s).
Proof.
  intros D B. split; intros H.
  - intros p n q E L. apply (H (chr "$" :: d :: p) n q); [rewrite E; reflexivity|]. destruct p; [exact D|exact L].
  - intros p n q E L. destruct p as [|x [|y p]].
    + destruct n as [|[|n]]; [reflexivity| |]; cbn [repeat app] in E; apply cons_eq in E as [_ E]; apply cons_eq in E as [E1 _]; congruence.
    + cbn [app] in E. apply cons_eq in E as [E _]. elim L. exact (eq_sym E).
    + cbn [app] in E. apply cons_eq in E as [E1 E]. apply cons_eq in E as [E2 E]. apply (H p n q E). destruct p as [|z p]; [discriminate|exact L].
Qed.
Lemma nix_reads_self c : scalar c -> nix_char c -> nix_reads c = [c].
Proof.
  intros _ [H|H]; unfold nix_reads, printable in *; [destruct (existsb _ _); [reflexivity|]; replace ((32 <=? c) && (c <? 127))%N with true by lia; reflexivity|].
  cbn [In] in H. destruct H as [<-|[<-|[<-|[]]]]; reflexivity.
Qed.
Lemma nix_reads_other c : scalar c -> ~ nix_char c -> exists x r, nix_reads c = x :: r /\ x <> c.
Proof.
  intros C N. unfold nix_char, printable in N. unfold nix_reads. cbn [existsb].
  match goal with |- context [if ?b then [c] else _] => replace b with false by (cbn [In] in N; lia) end.
  match goal with |- context [if ?b then [c] else _] => replace b with false by (cbn [In] in N; lia) end.
  apply (c_family_cases c (fun s => exists x r, tl s = x :: r /\ x <> c) C).
  - intros H. cbn [In] in H, N. repeat (destruct H as [H|H]; [subst c; first [exfalso; lia|cbn; eexists _, _; split; [reflexivity|discriminate]]|]). contradiction.
  - intros. exfalso. lia.
  - intros. cbn [tl]. eexists _, _. split; [reflexivity|]. lia.
  - intros. cbn [tl]. eexists _, _. split; [reflexivity|]. lia.
  - intros. cbn [tl]. eexists _, _. split; [reflexivity|]. lia.
Qed.
Lemma emit_self v r s (x : str) : emit v r = Some (v ++ s, x) <-> r = Some (s, x).
Proof. destruct r as [[u y]|]; cbn; split; intros E; inversion E; subst; try reflexivity. match goal with H : _ ++ _ = _ ++ _ |- _ => apply app_inv_head in H; subst end. reflexivity. Qed.
Lemma nix_exact_text n : forall s, length s <= n -> valid s -> forall rest,
  lex nix_grammar MText (flat_map c_family_char s ++ 34%N :: rest) = Some (s, 34%N :: rest) <-> Forall nix_char s /\ no_interpolation s.
Proof.
  induction n as [|n IH]; intros s Ln V rest.
  - destruct s; [|cbn in Ln; lia]. split; [intros _|reflexivity]. split; [constructor|]. intros p m q E. destruct p; [destruct m|]; discriminate.
  - destruct s as [|c s]; [split; [intros _|reflexivity]; split; [constructor|]; intros p m q E; destruct p; [destruct m|]; discriminate|].
    inversion V as [|? ? C V']; subst. cbn [length] in Ln. specialize (IH) as IH0. cbn [flat_map]. rewrite <- app_assoc.
    destruct (N.eq_dec c (chr "$")) as [->|NC].
    + change (chr "$") with 36%N in *. rewrite c_family_dollar. assert (P36 : nix_char 36) by (left; unfold printable; lia). destruct s as [|d s].
      { split; [intros _|reflexivity]. split; [constructor; [exact P36|constructor]|]. intros p m q E L. destruct p as [|x [|y p]]; [destruct m as [|[|m]]|destruct m|]; discriminate. }
      inversion V' as [|? ? Cd V'']; subst. destruct (N.eq_dec d (chr "{")) as [->|NB].
      { change (chr "{") with 123%N. change (c_family_char 123) with [123%N]. split.
        - intros L. exfalso. assert (Z : forall r, lex nix_grammar MText ([36%N] ++ flat_map c_family_char (123%N :: s) ++ r) = Some ([], [36%N] ++ flat_map c_family_char (123%N :: s) ++ r)) by reflexivity.
          rewrite Z in L. inversion L.
        - intros [_ H]. specialize (H [] 1 s eq_refl). cbn in H. exfalso. assert (false = true) by (apply H; discriminate). discriminate. }
      destruct (c_family_first_form d) as [E|[r E]].
      * assert (d <> 34%N) by (intros ->; discriminate). assert (d <> 92%N) by (intros ->; discriminate).
        cbn [flat_map]. rewrite E. cbn [app].
        assert (L : forall r, lex nix_grammar MText (36%N :: d :: r) = emit [36%N; d] (lex nix_grammar MText r)).
        { intros r. cbn [lex hd_error g_stop g_pair g_raw nix_grammar]. change (chr "$") with 36%N. change (chr "{") with 123%N in *. cbn [next_is].
          replace (d =? 123)%N with false by lia. replace (d =? 34)%N with false by lia. replace (d =? 92)%N with false by lia.
          cbn [emit_opt negb andb N.eqb]. change (N.eqb 36 34 || N.eqb 36 36 && false)%bool with false. change (N.eqb 36 92) with false. change (N.eqb 36 36) with true. cbn [andb]. 
          change (emit [36%N] (emit [d] (lex nix_grammar MText r)) = emit ([36%N] ++ [d]) (lex nix_grammar MText r)). apply emit_emit. }
        rewrite L. change (36%N :: d :: s) with ([36%N; d] ++ s). rewrite emit_self. rewrite (IH s ltac:(cbn [length] in Ln; lia) V'' rest).
        assert (Pd : nix_char d).
        { left. unfold printable. unfold c_family_char in E. clear - E. repeat match type of E with (if ?b then _ else _) = _ => destruct b eqn:? end; try discriminate; unfold is_ascii, is_control in *; lia. }
        cbn [app]. destruct (N.eq_dec d 36) as [->|ND].
        -- rewrite (no_interpolation_two s). split; [intros [A B]; split; [constructor; [exact P36|constructor; [exact P36|exact A]]|exact B]|intros [A B]; inversion A as [|? ? A1 A2]; inversion A2; auto].
        -- rewrite (no_interpolation_one d s ND NB). split; [intros [A B]; split; [constructor; [exact P36|constructor; [exact Pd|exact A]]|exact B]|intros [A B]; inversion A as [|? ? A1 A2]; inversion A2; auto].
      * assert (ND : d <> 36%N) by (intros ->; discriminate).
        cbn [app]. rewrite (lex_raw _ 36 [36%N]); [|cbn [flat_map]; rewrite E; reflexivity|discriminate|cbn [flat_map]; rewrite E; reflexivity|reflexivity].
        change (36%N :: d :: s) with ([36%N] ++ (d :: s)). rewrite emit_self. rewrite (IH (d :: s) ltac:(cbn [length] in *; lia) V' rest).
        cbn [app]. rewrite (no_interpolation_one d s ND NB), (no_interpolation_cons d s ND). split; [intros [A B]; split; [constructor; [exact P36|exact A]|exact B]|intros [A B]; inversion A; auto].
    + rewrite (nix_char_ok c) by assumption. rewrite (no_interpolation_cons c s NC).
      assert (Dec : nix_char c \/ ~ nix_char c) by (unfold nix_char, printable; cbn [In]; lia). destruct Dec as [P|P].
      * rewrite (nix_reads_self c C P). change (c :: s) with ([c] ++ s). rewrite emit_self, (IH s ltac:(lia) V' rest). cbn [app]. split; [intros [A B]; split; [constructor; assumption|exact B]|intros [A B]; inversion A; auto].
      * destruct (nix_reads_other c C P) as [x [r [E NX]]]. rewrite E. split; [|intros [A _]; inversion A; contradiction].
        intros L. apply emit_some in L as [u [_ L]]. cbn [app] in L. apply cons_eq in L as [L _]. congruence.
Qed.
Theorem C32_nix_exact : forall s, valid s ->
  ((exists src, to_string nix_lang (quoted_string s) = Some src /\ denotes nix_grammar src s) <-> Forall nix_char s /\ no_interpolation s).
Proof.
  intros s V. rewrite <- (nix_exact_text _ s (le_n _) V []). split.
  - intros [src [E D]]. apply (literal_is _ c_family_char) in E; try (intros; reflexivity). subst src. apply denotes_text in D. exact D.
  - intros L. open_literal. apply denotes_quoted; [reflexivity|]. intros rest. apply (nix_exact_text _ s (le_n _) V []) in L. apply (nix_exact_text _ s (le_n _) V rest) in L. rewrite L. cbn. rewrite app_nil_r. reflexivity.
Qed.
Print Assumptions C32_nix_exact.
Example C32_exact_example : no_interpolation $"a$${b} $x" /\ ~ no_interpolation $"a$$${b}" /\
  (exists src, to_string nix_lang (quoted_string $"a$${b} $x") = Some src /\ read_literal nix_grammar src = Some ($"a$${b} $x", [])).
Proof.
  split; [|split].
  - apply no_interpolation_cons; [discriminate|]. apply no_interpolation_two. repeat (apply no_interpolation_cons; [discriminate|]). apply no_interpolation_one; [discriminate|discriminate|].
    intros p m q E. destruct p; [destruct m|]; discriminate.
  - intros H. specialize (H $"a" 3 $"b}" eq_refl). assert (false = true) by (apply H; discriminate). discriminate.
  - eexists. split; vm_compute; reflexivity.
Qed.
