(** * Lemmas: what the quoted form of each character denotes. *)
From Verif Require Import Str SpecStr StrFacts Quote SpecLex LexFacts.
From Coq Require Import ZifyBool ZifyNat ZifyN.

(** Side conditions of [lex_hex_pad]. *)
Ltac side :=
  first [ reflexivity
        | match goal with |- (_ < 16 ^ N.of_nat ?k)%N =>
            let v := eval vm_compute in (16 ^ N.of_nat k)%N in
            change (16 ^ N.of_nat k)%N with v; lia end
        | intros; cbn [n_more exactly]; lia
        | cbn; lia ].

(** Case analysis on the characters with their own escape. *)
Ltac named_escapes :=
  repeat match goal with
  | |- context [N.eqb ?c ?k] =>
      lazymatch k with N0 => idtac | Npos _ => idtac end;
      is_var c;
      destruct (N.eqb_spec c k) as [->|?]; [try reflexivity|]
  end.

Lemma control_cases c : is_control c = true ->
  (c <= 31 \/ 127 <= c <= 159)%N.
Proof. unfold is_control. lia. Qed.
Lemma not_control c : is_control c = false ->
  (32 <= c < 127 \/ 160 <= c)%N.
Proof. unfold is_control. lia. Qed.

Lemma as_scalar_ok c : scalar c -> scalarb c = true.
Proof. unfold scalar, scalarb. lia. Qed.

Lemma raw_units c : (c < 65536)%N -> utf16_units c = [c].
Proof. intros H. unfold utf16_units. replace (c <? 65536)%N with true by lia. auto. Qed.
Lemma raw_utf8 c : (c < 128)%N -> utf8_char c = [c].
Proof. intros H. unfold utf8_char. replace (c <? 128)%N with true by lia. auto. Qed.

(** ** Rust *)

Lemma rust_char_ok c rest : scalar c ->
  lex rust_grammar MText (rust_char c ++ rest) = emit [c] (lex rust_grammar MText rest).
Proof.
  intros Hc. unfold rust_char. named_escapes.
  destruct (is_control c) eqn:Ct; cbn [negb].
  - apply control_cases in Ct. destruct (N.ltb_spec c 128).
    + cbn [esc app lit String.list_ascii_of_string map].
      rewrite (lex_hex_pad _ _ (exactly 2 (fun n => if (n <? 128)%N then Some [n] else None)) 1);
        try side.
      * cbn [n_value exactly]. replace (c <? 128)%N with true by lia. auto.
    + cbn [esc app lit String.list_ascii_of_string map]. rewrite <- !app_assoc.
      cbn [app].
      pose proof (hex_pad_length c 3) as L.
      destruct (hex_pad_as_digits 4 c) as [ds [E [F [NE V]]]].
      rewrite (lex_brace rust_grammar _ (mk_braced 6 as_scalar) (hex_pad 4 c) c rest ds);
        auto; try reflexivity.
      * cbn [b_value]. unfold as_scalar. rewrite as_scalar_ok; auto.
      * rewrite L; [cbn; lia|change (16 ^ N.of_nat 4)%N with 65536%N; lia].
  - cbn [app]. apply not_control in Ct.
    apply lex_raw; auto; cbn; unfold stop_quote; [lia| ]. replace (c =? 13)%N with false by lia. auto.
Qed.

(** ** Swift *)

Lemma swift_char_ok c rest : scalar c ->
  lex swift_grammar MText (swift_char c ++ rest) = emit [c] (lex swift_grammar MText rest).
Proof.
  intros Hc. unfold swift_char. named_escapes.
  destruct (is_control c) eqn:Ct; cbn [negb].
  - apply control_cases in Ct.
    cbn [esc app lit String.list_ascii_of_string map]. rewrite <- !app_assoc.
    cbn [app].
    pose proof (hex_length c 1) as L. change (16 ^ N.of_nat 2)%N with 256%N in L.
    destruct (hex_as_digits c) as [ds [E [F [NE V]]]].
    rewrite (lex_brace swift_grammar _ (mk_braced 8 as_scalar) (hex c) c rest ds);
      auto; try reflexivity.
    * cbn [b_value]. unfold as_scalar. rewrite as_scalar_ok; auto.
    * cbn [b_max]. specialize (L ltac:(lia)). lia.
  - cbn [app]. apply not_control in Ct.
    apply lex_raw; auto; cbn; unfold stop_quote, is_line_end; [lia| ].
    replace (N.eqb c 10 || N.eqb c 13) with false by lia. auto.
Qed.

(** ** JavaScript *)

(** The escapes written for U+0011 and U+0012 mean U+000B and U+000C. *)
Definition vf_fix (c : N) : N :=
  if N.eqb c 18 then 12%N else if N.eqb c 17 then 11%N else c.
Lemma vf_fix_other c : c <> 18%N -> c <> 17%N -> vf_fix c = c.
Proof. unfold vf_fix. intros. replace (N.eqb c 18) with false by lia. replace (N.eqb c 17) with false by lia. auto. Qed.

Lemma js_char_ok g c rest :
  g = js_grammar \/ g = js_template_grammar ->
  (g = js_template_grammar ->
     c <> chr "`" /\ (c = chr "$" -> next_is (chr "{") (hd_error rest) = false)) ->
  scalar c -> (c = 0%N -> is_digit (hd_error rest) = false) ->
  lex g MText (js_char c ++ rest) = emit (utf16_units (vf_fix c)) (lex g MText rest).
Proof.
  intros Hg Ht Hc H0. unfold js_char.
  destruct (N.eqb_spec c 8) as [->|?]; [destruct Hg as [->| ->]; reflexivity|].
  destruct (N.eqb_spec c 18) as [->|?]; [destruct Hg as [->| ->]; reflexivity|].
  destruct (N.eqb_spec c 10) as [->|?]; [destruct Hg as [->| ->]; reflexivity|].
  destruct (N.eqb_spec c 13) as [->|?]; [destruct Hg as [->| ->]; reflexivity|].
  destruct (N.eqb_spec c 9) as [->|?]; [destruct Hg as [->| ->]; reflexivity|].
  destruct (N.eqb_spec c 17) as [->|?]; [destruct Hg as [->| ->]; reflexivity|].
  rewrite (vf_fix_other c) by auto.
  destruct (N.eqb_spec c 0) as [->|?].
  { cbn [esc lit String.list_ascii_of_string map app].
    destruct Hg as [->| ->]; apply lex_simple; auto;
      cbn [g_simple js_grammar js_template_grammar]; unfold js_simple; cbn [lookup];
      rewrite H0; auto. }
  destruct (N.eqb_spec c 34) as [->|?]; [destruct Hg as [->| ->]; reflexivity|].
  destruct (N.eqb_spec c 92) as [->|?]; [destruct Hg as [->| ->]; reflexivity|].
  destruct (is_control c) eqn:Ct; cbn [negb].
  - apply control_cases in Ct. replace (c <? 256)%N with true by lia.
    cbn [esc app lit String.list_ascii_of_string map].
    rewrite (lex_hex_pad _ _ (exactly 2 (fun n => Some [n])) 1).
    + cbn [n_value exactly emit_opt]. rewrite raw_units by lia. auto.
    + destruct Hg as [->| ->]; reflexivity.
    + destruct Hg as [->| ->]; reflexivity.
    + cbn. lia.
    + intros i Hi. cbn [n_more exactly]. lia.
    + cbn. lia.
    + reflexivity.
  - cbn [app]. apply not_control in Ct.
    destruct Hg as [->| ->].
    + apply lex_raw; auto; cbn; unfold stop_quote, is_line_end; [lia|].
      replace (N.eqb c 10 || N.eqb c 13) with false by lia. auto.
    + destruct (Ht eq_refl) as [T1 T2].
      apply lex_raw; auto; cbn [g_stop g_raw js_template_grammar].
      * unfold js_template_stop. replace (N.eqb c (chr "`")) with false by lia.
        destruct (N.eqb_spec c (chr "$")) as [E|E]; [rewrite (T2 E)|]; auto.
      * replace (N.eqb c 13) with false by lia. auto.
Qed.

(** ** Dart *)

Lemma dart_char_ok c rest : scalar c ->
  lex dart_grammar MText (dart_char c ++ rest) =
  emit (utf16_units (vf_fix c)) (lex dart_grammar MText rest).
Proof.
  intros Hc. unfold dart_char. named_escapes. rewrite vf_fix_other by auto.
  destruct (is_control c) eqn:Ct; cbn [negb].
  - apply control_cases in Ct. replace (c <? 256)%N with true by lia.
    cbn [esc app lit String.list_ascii_of_string map].
    rewrite (lex_hex_pad _ _ (exactly 2 (fun n => Some [n])) 1).
    + cbn [n_value exactly emit_opt]. rewrite raw_units by lia. auto.
    + reflexivity.
    + reflexivity.
    + cbn. lia.
    + intros i Hi. cbn [n_more exactly]. lia.
    + cbn. lia.
    + reflexivity.
  - cbn [app]. apply not_control in Ct.
    apply lex_raw; auto; cbn; unfold stop_quote, is_line_end; [lia|].
    replace (N.eqb c 10 || N.eqb c 13) with false by lia. auto.
Qed.

(** ** The C family *)

Lemma c_family_cases c (P : str -> Prop) :
  scalar c ->
  (In c [7; 8; 18; 10; 13; 9; 17; 39; 34; 92]%N -> P (c_family_char c)) ->
  ((32 <= c < 127)%N -> c <> 34%N -> c <> 39%N -> c <> 92%N -> P [c]) ->
  ((c <= 6 \/ 11 <= c <= 12 \/ 14 <= c <= 16 \/ 19 <= c <= 31 \/ c = 127)%N ->
     P (92%N :: 120%N :: hex_pad 2 c)) ->
  ((128 <= c < 65536)%N -> P (92%N :: 117%N :: hex_pad 4 c)) ->
  ((65536 <= c < 1114112)%N -> P (92%N :: 85%N :: hex_pad 8 c)) ->
  P (c_family_char c).
Proof.
  intros Hc H1 H2 H3 H4 H5.
  destruct (in_dec N.eq_dec c [7; 8; 18; 10; 13; 9; 17; 39; 34; 92]%N) as [|Hn]; [auto|].
  cbn [In] in Hn. unfold c_family_char.
  repeat match goal with
  | |- context [N.eqb c ?k] =>
      destruct (N.eqb_spec c k) as [->|?]; [try (exfalso; apply Hn; tauto)|]
  end.
  - apply H2; lia.
  - unfold is_ascii. destruct (N.ltb_spec c 128).
    + destruct (is_control c) eqn:Ct; cbn [negb].
      * apply control_cases in Ct. apply H3. lia.
      * apply not_control in Ct. apply H2; lia.
    + destruct (N.ltb_spec c 65536); [apply H4; lia|]. apply H5. destruct Hc; lia.
Qed.

Ltac ten H := cbn [In] in H; destruct H as [<-|[<-|[<-|[<-|[<-|[<-|[<-|[<-|[<-|[<-|[]]]]]]]]]]].

(** Python *)
Lemma python_char_ok c rest : scalar c ->
  lex python_grammar MText (c_family_char c ++ rest) =
  emit [vf_fix c] (lex python_grammar MText rest).
Proof.
  intros Hc. apply (c_family_cases c (fun s => lex python_grammar MText (s ++ rest) = _)); auto.
  - intros H. ten H; reflexivity.
  - intros. rewrite vf_fix_other by lia. cbn [app].
    apply lex_raw; auto; cbn; unfold stop_quote, is_line_end; [lia|].
    replace (N.eqb c 10 || N.eqb c 13) with false by lia. auto.
  - intros. rewrite vf_fix_other by lia. cbn [app].
    rewrite (lex_hex_pad _ _ (exactly 2 (fun n => Some [n])) 1); try side.
  - intros. rewrite vf_fix_other by lia. cbn [app].
    rewrite (lex_hex_pad _ _ (exactly 4 (fun n => Some [n])) 3); try side.
  - intros. rewrite vf_fix_other by lia. cbn [app].
    rewrite (lex_hex_pad _ _ (exactly 8 (fun n => if (n <? 1114112)%N then Some [n] else None)) 7);
      try side.
    + cbn [n_value exactly]. replace (c <? 1114112)%N with true by lia. auto.
Qed.

(** Go: a single quote is written as an escape that does not exist there. *)
Lemma go_char_ok c rest : scalar c -> c <> 39%N ->
  lex go_grammar MText (c_family_char c ++ rest) =
  emit (utf8_char (vf_fix c)) (lex go_grammar MText rest).
Proof.
  intros Hc Hq. apply (c_family_cases c (fun s => lex go_grammar MText (s ++ rest) = _)); auto.
  - intros H. ten H; try reflexivity. congruence.
  - intros. rewrite vf_fix_other by lia. cbn [app].
    apply lex_raw; auto; cbn; [unfold stop_quote; lia|].
    replace (N.eqb c 10) with false by lia. auto.
  - intros. rewrite vf_fix_other by lia. cbn [app].
    rewrite (lex_hex_pad _ _ (exactly 2 (fun n => Some [n])) 1); try side.
    + cbn [n_value exactly emit_opt]. rewrite raw_utf8 by lia. auto.
  - intros. rewrite vf_fix_other by lia. cbn [app].
    rewrite (lex_hex_pad _ _ (exactly 4 as_utf8) 3); try side.
    + cbn [n_value exactly]. unfold as_utf8. rewrite as_scalar_ok; auto.
  - intros. rewrite vf_fix_other by lia. cbn [app].
    rewrite (lex_hex_pad _ _ (exactly 8 as_utf8) 7); try side.
    + cbn [n_value exactly]. unfold as_utf8. rewrite as_scalar_ok; auto.
Qed.
Lemma go_single_quote_illegal rest :
  lex go_grammar MText (c_family_char 39 ++ rest) = None.
Proof. reflexivity. Qed.

(** Characters the C family writes as a hexadecimal escape. *)
Definition hex_escaped (c : N) : bool :=
  (is_control c && is_ascii c &&
   negb (existsb (N.eqb c) [7; 8; 18; 10; 13; 9; 17]))%N.

(** C: hexadecimal escapes extend over following hexadecimal digits, and the
    characters 0080-009F have no legal universal character name. *)
Lemma c_char_ok c rest : scalar c -> (c < 128 \/ 160 <= c)%N ->
  (hex_escaped c = true -> is_hex (hd_error rest) = false) ->
  lex c_grammar MText (c_family_char c ++ rest) =
  emit (utf8_char (vf_fix c)) (lex c_grammar MText rest).
Proof.
  intros Hc Hr Hx. apply (c_family_cases c (fun s => lex c_grammar MText (s ++ rest) = _)); auto.
  - intros H. ten H; reflexivity.
  - intros. rewrite vf_fix_other by lia. cbn [app].
    apply lex_raw; auto; cbn; [unfold stop_quote; lia|]. unfold is_line_end.
    replace (N.eqb c 10 || N.eqb c 13) with false by lia. auto.
  - intros R. rewrite vf_fix_other by lia. cbn [app].
    assert (E : hex_escaped c = true).
    { unfold hex_escaped, is_control, is_ascii. cbn [existsb]. lia. }
    rewrite (lex_hex_pad _ _ (mk_number 1 (fun _ => true) (fun n => if (n <? 256)%N then Some [n] else None)) 1); try side.
    + cbn [n_value exactly emit_opt]. replace (c <? 256)%N with true by lia. rewrite raw_utf8 by lia. auto.
  - intros. rewrite vf_fix_other by lia. cbn [app].
    rewrite (lex_hex_pad _ _ (exactly 4 c_ucn) 3); try side.
    + cbn [n_value exactly]. unfold c_ucn. rewrite as_scalar_ok; auto.
      replace (160 <=? c)%N with true by lia. auto.
  - intros. rewrite vf_fix_other by lia. cbn [app].
    rewrite (lex_hex_pad _ _ (exactly 8 c_ucn) 7); try side.
    + cbn [n_value exactly]. unfold c_ucn. rewrite as_scalar_ok; auto.
      replace (160 <=? c)%N with true by lia. auto.
Qed.

(** C#: hexadecimal escapes take up to four digits. *)
Lemma csharp_char_ok c rest : scalar c ->
  (hex_escaped c = true -> is_hex (hd_error rest) = false) ->
  lex csharp_grammar MText (c_family_char c ++ rest) =
  emit (utf16_units (vf_fix c)) (lex csharp_grammar MText rest).
Proof.
  intros Hc Hx. apply (c_family_cases c (fun s => lex csharp_grammar MText (s ++ rest) = _)); auto.
  - intros H. ten H; reflexivity.
  - intros. rewrite vf_fix_other by lia. cbn [app].
    apply lex_raw; auto; cbn; [unfold stop_quote; lia|]. unfold is_line_end.
    replace (N.eqb c 10 || N.eqb c 13) with false by lia.
    replace (N.eqb c 133) with false by lia. replace (N.eqb c 8232) with false by lia.
    replace (N.eqb c 8233) with false by lia. auto.
  - intros R. rewrite vf_fix_other by lia. cbn [app].
    assert (E : hex_escaped c = true).
    { unfold hex_escaped, is_control, is_ascii. cbn [existsb]. lia. }
    rewrite (lex_hex_pad _ _ (mk_number 1 (fun k => Nat.ltb k 4) (fun n => Some [n])) 1); try side.
    + cbn [n_value exactly emit_opt]. rewrite raw_units by lia. auto.
  - intros. rewrite vf_fix_other by lia. cbn [app].
    rewrite (lex_hex_pad _ _ (exactly 4 (fun n => Some [n])) 3); try side.
    + cbn [n_value exactly emit_opt]. rewrite raw_units by lia. auto.
  - intros. rewrite vf_fix_other by lia. cbn [app].
    rewrite (lex_hex_pad _ _ (exactly 8 as_units) 7); try side.
    + cbn [n_value exactly]. unfold as_units. replace (c <? 1114112)%N with true by lia. auto.
Qed.

(** ** First characters *)

(** The first character written is a hexadecimal digit (or a decimal digit)
    exactly if the string continues with one. *)
Lemma c_family_first c rest :
  exists x r, c_family_char c ++ rest = x :: r /\ (x = 92%N \/ x = c).
Proof.
  unfold c_family_char.
  repeat match goal with |- context [if ?b then _ else _] => destruct b eqn:? end;
    try (apply N.eqb_eq in Heqb9; subst); cbn; eauto 8.
Qed.
Lemma js_first c rest :
  exists x r, js_char c ++ rest = x :: r /\ (x = 92%N \/ x = c).
Proof.
  unfold js_char.
  repeat match goal with |- context [if ?b then _ else _] => destruct b end;
    cbn; eauto 8.
Qed.

(** ** Java *)

Definition java_fix (c : N) : N :=
  if N.eqb c 7 then 8%N else if N.eqb c 20 then 12%N else c.
Lemma java_fix_other c : c <> 7%N -> c <> 20%N -> java_fix c = c.
Proof. unfold java_fix. intros. replace (N.eqb c 7) with false by lia. replace (N.eqb c 20) with false by lia. auto. Qed.

Lemma translate_raw c r : c <> 92%N ->
  java_translate JEven (c :: r) = option_map (app (utf16_units c)) (java_translate JEven r).
Proof. intros H. cbn [java_translate]. apply N.eqb_neq in H. rewrite H. auto. Qed.
Lemma translate_esc x r : x <> 117%N ->
  java_translate JEven (92%N :: x :: r) =
  option_map (fun l => 92%N :: utf16_units x ++ l) (java_translate JEven r).
Proof.
  intros H. cbn [java_translate hd_error next_is]. apply N.eqb_neq in H. rewrite H.
  cbn. destruct (java_translate JEven r); auto.
Qed.
Lemma translate_unicode u r : (u < 65536)%N ->
  java_translate JEven (92%N :: 117%N :: hex_pad 4 u ++ r) =
  option_map (cons u) (java_translate JEven r).
Proof.
  intros H. pose proof (hex_pad_length u 3 H) as L.
  destruct (hex_pad_as_digits 4 u) as [ds [E [F [NE V]]]]. rewrite E in *.
  rewrite map_length in L. destruct ds as [|a [|b [|c [|d [|? ?]]]]]; try discriminate.
  repeat match goal with F : Forall _ (_ :: _) |- _ => inversion F; clear F; subst end.
  cbn [java_translate map app hd_error next_is N.eqb Pos.eqb andb Nat.eqb].
  rewrite !hex_digit_ok by auto. cbn [Nat.eqb]. reflexivity.
Qed.

Lemma utf16_char_range c u : scalar c -> In u (utf16_char c) ->
  (u = c \/ 55296 <= u)%N /\ (u < 65536)%N.
Proof.
  intros Hc. unfold utf16_char. assert (C : (c < 1114112)%N) by (destruct Hc; lia).
  destruct (N.ltb_spec c 65536); cbn [In].
  - intros [<-|[]]. lia.
  - assert ((c - 65536) / 1024 < 1024)%N by (apply N.div_lt_upper_bound; lia).
    pose proof (N.mod_upper_bound (c - 65536) 1024).
    intros [<-|[<-|[]]]; lia.
Qed.

Lemma translate_units us r : Forall (fun u => (u < 65536)%N) us ->
  java_translate JEven (flat_map (fun u => esc $"u" ++ hex_pad 4 u) us ++ r) =
  option_map (app us) (java_translate JEven r).
Proof.
  induction 1 as [|u us Hu F IH].
  - cbn. destruct (java_translate JEven r); auto.
  - cbn [flat_map].
    set (F' := flat_map (fun u => esc $"u" ++ hex_pad 4 u) us) in *.
    rewrite <- app_assoc.
    change ((esc $"u" ++ hex_pad 4 u) ++ F' ++ r) with (92%N :: 117%N :: hex_pad 4 u ++ F' ++ r).
    rewrite translate_unicode by auto.
    rewrite IH. destruct (java_translate JEven r); auto.
Qed.

Lemma java_raw_units us r :
  Forall (fun u => u <> 34 /\ u <> 92 /\ u <> 10 /\ u <> 13)%N us ->
  lex java_grammar MText (us ++ r) = emit us (lex java_grammar MText r).
Proof.
  induction 1 as [|u us Hu F IH]; cbn [app].
  - symmetry; apply emit_nil.
  - rewrite (lex_raw _ u [u]); auto.
    + rewrite IH, emit_emit. auto.
    + cbn. unfold stop_quote. lia.
    + lia.
    + cbn. unfold is_line_end. replace (N.eqb u 10 || N.eqb u 13) with false by lia. auto.
Qed.

(** The translated form of a character. *)
Lemma java_char_ok c : scalar c -> exists u,
  (forall r, java_translate JEven (java_char c ++ r) = option_map (app u) (java_translate JEven r)) /\
  (forall r, lex java_grammar MText (u ++ r) =
             emit (utf16_units (java_fix c)) (lex java_grammar MText r)).
Proof.
  intros Hc. unfold java_char.
  repeat match goal with
  | |- context [N.eqb c ?k] =>
      let u := eval vm_compute in (java_char k) in
      let x := eval vm_compute in (nth 1 u 0%N) in
      destruct (N.eqb_spec c k) as [->|?];
        [exists u; split; intros r;
           [first [ exact (translate_raw 32 r ltac:(discriminate))
                  | exact (translate_esc x r ltac:(discriminate)) ]|reflexivity]|]
  end.
  rewrite java_fix_other by auto.
  destruct (is_ascii c && negb (is_control c)) eqn:B.
  - apply andb_true_iff in B as [A B]. apply negb_true_iff, not_control in B.
    unfold is_ascii in A. exists [c]. split; intros r.
    + rewrite <- (raw_units c) at 2 by lia. apply translate_raw; lia.
    + rewrite raw_units by lia. apply (java_raw_units [c]). repeat constructor; lia.
  - exists (utf16_char c).
    assert (R : Forall (fun u => u = c \/ 55296 <= u)%N (utf16_char c) /\
                Forall (fun u => u < 65536)%N (utf16_char c)).
    { split; apply Forall_forall; intros u Hu; apply utf16_char_range in Hu; tauto. }
    destruct R as [R1 R2]. split; intros r.
    + unfold utf16_escapes. apply translate_units; auto.
    + change (utf16_units c) with (utf16_char c). apply java_raw_units.
      eapply Forall_impl; [|exact R1]. cbn. intros u Hu.
      unfold is_ascii, is_control in B. lia.
Qed.

Lemma java_text_ok s : valid s -> exists u,
  (forall r, java_translate JEven (flat_map java_char s ++ r) = option_map (app u) (java_translate JEven r)) /\
  (forall r, lex java_grammar MText (u ++ r) =
             emit (flat_map (fun c => utf16_units (java_fix c)) s) (lex java_grammar MText r)).
Proof.
  induction 1 as [|c s Hc Hs [u [IH1 IH2]]].
  - exists []. split; intros r; cbn; [destruct (java_translate JEven r); auto|symmetry; apply emit_nil].
  - destruct (java_char_ok c Hc) as [v [H1 H2]]. exists (v ++ u). split; intros r; cbn [flat_map].
    + rewrite <- app_assoc, H1, IH1. destruct (java_translate JEven r); cbn; rewrite ?app_assoc; auto.
    + rewrite <- app_assoc, H2, IH2, emit_emit. auto.
Qed.

(** ** Nix *)

(** Only [\n], [\r], [\t] and escaped quotes, backslashes are known; any other
    escape stands for the characters after the backslash. *)
Definition nix_reads (c : N) : list N :=
  if existsb (N.eqb c) [10; 13; 9; 34; 39; 92]%N then [c]
  else if ((32 <=? c) && (c <? 127))%N then [c]
  else tl (c_family_char c).

Lemma nix_raw c r : c <> 34%N -> c <> 92%N -> c <> 36%N ->
  lex nix_grammar MText (c :: r) = emit [c] (lex nix_grammar MText r).
Proof.
  intros. apply N.eqb_neq in H, H1.
  apply lex_raw; auto; cbn [g_stop g_pair nix_grammar];
    change (chr "$") with 36%N; rewrite ?H, H1; auto.
Qed.
Lemma nix_raws s r : Forall (fun c => c <> 34 /\ c <> 92 /\ c <> 36)%N s ->
  lex nix_grammar MText (s ++ r) = emit s (lex nix_grammar MText r).
Proof.
  induction 1 as [|c s Hc F IH]; cbn [app].
  - symmetry; apply emit_nil.
  - rewrite nix_raw by tauto. rewrite IH, emit_emit. auto.
Qed.
Lemma nix_hex x w n r : x <> 110%N -> x <> 114%N -> x <> 116%N ->
  lex nix_grammar MText (92%N :: x :: hex_pad w n ++ r) =
  emit (x :: hex_pad w n) (lex nix_grammar MText r).
Proof.
  intros. rewrite (lex_simple _ x [x]); auto.
  - rewrite nix_raws, emit_emit; auto.
    eapply Forall_impl; [|apply hex_pad_chars]. cbn.
    intros c [d [Hd ->]]. pose proof (hex_char_range d Hd). lia.
  - cbn [g_simple nix_grammar]. unfold lookup, nrt_escapes. cbn [find fst].
    change (chr "n") with 110%N. change (chr "r") with 114%N. change (chr "t") with 116%N.
    replace (110 =? x)%N with false by lia. replace (114 =? x)%N with false by lia.
    replace (116 =? x)%N with false by lia. auto.
Qed.

Lemma nix_char_ok c rest : scalar c -> c <> 36%N ->
  lex nix_grammar MText (c_family_char c ++ rest) = emit (nix_reads c) (lex nix_grammar MText rest).
Proof.
  intros Hc Hd. unfold nix_reads.
  destruct (existsb (N.eqb c) [10; 13; 9; 34; 39; 92]%N) eqn:E1.
  - cbn [existsb] in E1.
    assert (H : In c [10; 13; 9; 34; 39; 92]%N) by (cbn; lia).
    cbn [In] in H. destruct H as [<-|[<-|[<-|[<-|[<-|[<-|[]]]]]]]; reflexivity.
  - cbn [existsb] in E1. destruct ((32 <=? c) && (c <? 127))%N eqn:E2.
    + apply (c_family_cases c (fun s => lex nix_grammar MText (s ++ rest) = _)); auto;
        intros H; try lia.
      * ten H; discriminate.
      * intros. cbn [app]. apply nix_raw; lia.
    + revert E1 E2.
      apply (c_family_cases c (fun s => _ -> _ -> lex nix_grammar MText (s ++ rest) = emit (tl s) _)); auto;
        intros H; try lia.
      * ten H; cbn; try discriminate; reflexivity.
      * intros _ _. cbn [app tl]. apply nix_hex; discriminate.
      * intros _ _. cbn [app tl]. apply nix_hex; discriminate.
      * intros _ _. cbn [app tl]. apply nix_hex; discriminate.
Qed.

(** The first character written for [c], and whether it is the only one. *)
Lemma c_family_dollar : c_family_char 36 = [36%N].
Proof. reflexivity. Qed.
Lemma c_family_first_form c :
  c_family_char c = [c] \/ exists r, c_family_char c = 92%N :: r.
Proof.
  unfold c_family_char.
  repeat match goal with |- context [if ?b then _ else _] => destruct b eqn:? end;
    try (apply N.eqb_eq in Heqb9; subst); cbn; eauto.
Qed.

Lemma nix_text_ok s : forall rest,
  valid s -> (forall p q, s <> p ++ 36%N :: 123%N :: q) ->
  lex nix_grammar MText (flat_map c_family_char s ++ 34%N :: rest) =
  emit (flat_map nix_reads s) (lex nix_grammar MText (34%N :: rest)).
Proof.
  enough (H : forall n s rest, length s <= n -> valid s -> (forall p q, s <> p ++ 36%N :: 123%N :: q) ->
    lex nix_grammar MText (flat_map c_family_char s ++ 34%N :: rest) =
    emit (flat_map nix_reads s) (lex nix_grammar MText (34%N :: rest))) by eauto.
  clear s. induction n as [|n IH]; intros s rest Hn Hv Hd.
  - destruct s; [reflexivity|cbn in Hn; lia].
  - destruct s as [|c s]; [reflexivity|]. inversion Hv as [|? ? Hc Hv']; subst.
    cbn [length] in Hn.
    assert (Hd' : forall p q, s <> p ++ 36%N :: 123%N :: q)
      by (intros p q ->; apply (Hd (c :: p) q); auto).
    destruct (N.eq_dec c 36) as [->|Hne].
    + cbn [flat_map]. rewrite c_family_dollar. cbn [app].
      change (nix_reads 36) with [36%N].
      destruct s as [|d s].
      { reflexivity. }
      destruct (c_family_first_form d) as [E|[r E]].
      * (* taken literally together with the next character *)
        inversion Hv' as [|? ? Hcd Hv'']; subst.
        assert (d <> 123%N). { intros ->. apply (Hd [] s). auto. }
        assert (d <> 34%N) by (intros ->; discriminate).
        assert (d <> 92%N) by (intros ->; discriminate).
        cbn [flat_map] in *. rewrite E. cbn [app].
        assert (V : nix_reads d = [d]).
        { unfold nix_reads. rewrite E.
          destruct (existsb _ _); auto.
          destruct ((32 <=? d) && (d <? 127))%N eqn:R; auto.
          exfalso. unfold c_family_char in E.
          repeat match type of E with (if ?b then _ else _) = _ => destruct b eqn:? end; try discriminate.
          - apply N.eqb_eq in Heqb9. subst. discriminate.
          - apply negb_true_iff, not_control in Heqb11. unfold is_ascii in *. lia. }
        rewrite V.
        assert (L : forall r, lex nix_grammar MText (36%N :: d :: r) =
                              emit [36%N] (emit [d] (lex nix_grammar MText r))).
        { intros r. cbn [lex hd_error g_stop g_pair g_raw nix_grammar].
          change (chr "$") with 36%N. change (chr "{") with 123%N. cbn [next_is].
          replace (d =? 123)%N with false by lia.
          replace (d =? 34)%N with false by lia. replace (d =? 92)%N with false by lia.
          reflexivity. }
        rewrite L.
        rewrite IH; [|cbn [length] in *; lia|auto|intros p q ->; apply (Hd' (d :: p) q); auto].
        rewrite !emit_emit. auto.
      * rewrite (lex_raw _ 36 [36%N]); auto.
        -- change [36%N] with (nix_reads 36) at 1. rewrite IH; [|cbn [length] in *; lia|auto|auto].
           rewrite emit_emit. auto.
        -- cbn [flat_map]. rewrite E. reflexivity.
        -- discriminate.
        -- cbn [flat_map]. rewrite E. reflexivity.
    + cbn [flat_map]. rewrite <- !app_assoc, nix_char_ok by auto.
      rewrite IH by (auto; lia). rewrite emit_emit. auto.
Qed.
