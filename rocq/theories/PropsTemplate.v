(** * Properties of interpolated strings: C75.

    Vocabulary: [SpecTemplate.v] (how the languages read strings with
    interpolations, what a string in a document says), [SpecFmt.v]; model:
    [Fmt.v], [Quote.v], [LangJs.v], [LangDart.v]. *)
From Verif Require Import Macro SpecMacro SpecQuote SpecStrings StringsFacts.
From Verif Require Import Str SpecStr StrFacts Quote SpecLex LexFacts QuoteFacts Tokens Values Fmt
  SpecFmt RenderFacts LayoutFacts OutputFacts StringFacts SpecTemplate TemplateFacts.
From Verif Require Import LangBase LangDart LangJs PropsQuote.

Lemma ordinary_chars c : ordinary c -> c <> 34%N /\ c <> 39%N /\ c <> 96%N /\ c <> 47%N /\ c <> 10%N /\ c <> 13%N.
Proof.
  intros (H1 & H2 & H3 & H4 & H5). unfold is_line_end in H5. apply orb_false_iff in H5 as [H5 H6].
  apply N.eqb_neq in H5, H6. auto 10.
Qed.
Lemma starts_one x c r : starts [x] (c :: r) = N.eqb c x.
Proof.
  unfold starts. cbn [length firstn]. destruct (N.eqb_spec c x) as [->|H].
  - apply str_eqb_eq. auto.
  - destruct (str_eqb [c] [x]) eqn:E; auto. apply str_eqb_eq in E. congruence.
Qed.
Lemma esc_first_js c : exists x r, js_char c = x :: r /\ x <> 34%N /\ (x = c \/ x = 92%N).
Proof.
  unfold js_char. repeat match goal with
    |- context [if N.eqb c ?k then _ else _] => destruct (N.eqb_spec c k); [eexists _, _; split; [reflexivity|]; split; [discriminate|auto]|] end.
  destruct (negb _); [eexists _, _; split; [reflexivity|]; auto|].
  destruct (_ <? _)%N; eexists _, _; (split; [reflexivity|]; split; [discriminate|auto]).
Qed.
Lemma esc_first_dart c : exists x r, dart_char c = x :: r /\ x <> 34%N /\ (x = c \/ x = 92%N).
Proof.
  unfold dart_char. repeat match goal with
    |- context [if N.eqb c ?k then _ else _] => destruct (N.eqb_spec c k); [eexists _, _; split; [reflexivity|]; split; [discriminate|auto]|] end.
  destruct (negb _); [eexists _, _; split; [reflexivity|]; auto|].
  destruct (_ <? _)%N; [eexists _, _; (split; [reflexivity|]; split; [discriminate|auto])|].
  unfold utf16_escapes, utf16_char. destruct (_ <? _)%N; eexists _, _; (split; [reflexivity|]; split; [discriminate|auto]).
Qed.
Definition js_q (e : bool) : N := if e then chr "`" else 34%N.
Definition js_g (e : bool) : grammar := if e then js_template_grammar else js_grammar.
Lemma js_reads_text e s rest : js_text_ok e s ->
  hd_error rest = Some (js_q e) \/
  e = true /\ (exists r, rest = $"${" ++ r \/
    (exists v nx, js_single_ok v nx /\ rest = concat (l_string_eval_literal js_ops v) ++ r)) ->
  lex (js_g e) MText (flat_map js_char s ++ rest) = Some (flat_map utf16_units s, rest).
Proof.
  intros (V & H1 & H2 & Z & T) R.
  assert (R' : hd_error rest = Some (js_q e) \/ e = true /\ exists r, rest = $"${" ++ r).
  { destruct R as [R|[E [r [->|[v [nx [_ ->]]]]]]]; [auto| |]; right; (split; [exact E|eexists; reflexivity]). }
  clear R.
  assert (E : lex (js_g e) MText rest = Some ([], rest)).
  { destruct R' as [R|[-> [r ->]]]; [|reflexivity]. destruct rest as [|c r]; [discriminate|]. injection R as ->.
    destruct e; reflexivity. }
  assert (D0 : is_digit (hd_error rest) = false).
  { destruct R' as [R|[-> [r ->]]]; [|reflexivity]. rewrite R. destruct e; reflexivity. }
  assert (B0 : next_is (chr "{") (hd_error rest) = false).
  { destruct R' as [R|[-> [r ->]]]; [|reflexivity]. rewrite R. destruct e; reflexivity. }
  rewrite (lex_text _ _ (fun c => utf16_units (vf_fix c))
             (fun c r => (e = true -> c <> chr "`" /\ (c = chr "$" -> next_is (chr "{") (hd_error r) = false)) /\
                         scalar c /\ (c = 0%N -> is_digit (hd_error r) = false))).
  - rewrite E. cbn [emit]. rewrite app_nil_r. do 2 f_equal.
    rewrite <- flat_map_map, fix_id by auto. reflexivity.
  - intros c r [A1 [A2 A3]]. apply js_char_ok; auto.
    + destruct e; auto.
    + intros G. apply A1. destruct e; auto. apply (f_equal (fun g => g_stop g 96 None)) in G. discriminate G.
  - intros p c q Eq.
    assert (N : forall P : option N -> bool, (forall d q', q = d :: q' -> P (Some 92%N) = false /\ P (Some d) = false) ->
              P (hd_error rest) = false -> P (hd_error (flat_map js_char q ++ rest)) = false).
    { intros P Hd Hr. destruct q as [|d q]; [exact Hr|]. cbn [flat_map]. rewrite <- app_assoc.
      destruct (Hd d q eq_refl). destruct (js_first d (flat_map js_char q ++ rest)) as [x [r [-> [-> | ->]]]]; auto. }
    split; [|split].
    + intros ->. destruct (T eq_refl) as [B D]. split.
      * intros ->. apply B. rewrite Eq. apply in_or_app; right; left; auto.
      * intros ->. apply N; auto. intros d q' ->. split; [reflexivity|]. cbn. apply N.eqb_neq. intros ->.
        apply (D p q'). auto.
    + eapply valid_in; eauto.
    + intros ->. apply N; auto. intros d q' ->. split; [reflexivity|]. apply (Z p d q'). auto.
Qed.
Lemma dart_reads_text (e : bool) s rest : dart_text_ok e s ->
  hd_error rest = Some 34%N \/
  e = true /\ (exists r, rest = $"${" ++ r \/
    (exists v nx, dart_single_ok v nx /\ rest = concat (l_string_eval_literal dart_ops v) ++ r)) ->
  lex dart_grammar MText (flat_map dart_char s ++ rest) = Some (flat_map utf16_units s, rest).
Proof.
  intros (V & H1 & H2) R.
  assert (E : lex dart_grammar MText rest = Some ([], rest)).
  { destruct R as [R|[_ [r [->|[v [nx [_ ->]]]]]]]; [|reflexivity|reflexivity].
    destruct rest as [|c r]; [discriminate|]. injection R as ->. reflexivity. }
  rewrite (lex_text _ _ (fun c => utf16_units (vf_fix c)) (fun c _ => scalar c)).
  - rewrite E. cbn [emit]. rewrite app_nil_r. do 2 f_equal.
    rewrite <- flat_map_map, fix_id by auto. reflexivity.
  - intros c r H. apply dart_char_ok; auto.
  - intros p c q Eq. eapply valid_in; eauto.
Qed.

(** ** JavaScript *)

(** The source of a string does not depend on where the string stands; it is
    read back as what the string says, and ends where the string ends. *)
Theorem C75_js_partial : forall cfg e ps out,
  string_says js_ops cfg js_text_ok js_opens_after js_single_ok e [] ps out -> exists src,
  (forall rest, exists ans, read js_strings (src ++ rest) = Some (ans, rest) /\ Forall2 means ans out) /\
  (forall before after, doc_ok before = true -> doc_ok after = true -> exists sep tail,
     Forall (fun c => In c (c_newline cfg) \/ c = 32%N \/ c = 9%N) sep /\
     outcome (format_items js_ops cfg string_writer (doc_items (before ++ NString e ps :: after)) (formatter_new [])) =
     (text (c_newline cfg) (layout (c_indentation cfg) (doc_atoms js_ops cfg before)) ++ sep ++ src ++ tail, true)) /\
  outcome (format_items js_ops cfg string_writer (doc_items [NString e ps]) (formatter_new [])) = (src, true).
Proof.
  intros cfg e ps out H.
  destruct (string_in_document js_ops cfg js_strings js_text_ok js_opens_after js_single_ok js_q js_g js_char)
    with (e := e) (ps := ps) (out := out) as [src [H1 H2]].
  - intros []; reflexivity.
  - intros []; reflexivity.
  - reflexivity.
  - reflexivity.
  - intros s. exact (concat_map_flat js_char s).
  - intros []; reflexivity.
  - intros []; repeat split; discriminate.
  - apply esc_first_js.
  - apply js_reads_text.
  - intros s nx D. left. split; [reflexivity|exact D].
  - intros c r C _. apply ordinary_chars in C as (C1 & C2 & C3 & C4 & _). cbn [t_strange js_strings].
    change $"'" with [39%N]. change $"/" with [47%N]. rewrite !starts_one.
    apply N.eqb_neq in C2, C4. rewrite C2, C4. auto.
  - intros c C. apply ordinary_chars in C as (C1 & C2 & C3 & C4 & _). cbn [t_open js_strings].
    apply N.eqb_neq in C1, C3. rewrite C1. change (chr "`") with 96%N. rewrite C3. auto.
  - intros [] body rest _ _; reflexivity.
  - reflexivity.
  - intros e0 s (V & _). exact V.
  - exact H.
  - exists src. split; [|exact H2]. intros rest. apply H1. auto.
Qed.
Print Assumptions C75_js_partial.

(** ** Dart *)

(** An empty string must not be followed by a quote: three quotes start a
    multi-line string. *)
Theorem C75_dart_partial : forall cfg e ps out,
  string_says dart_ops cfg dart_text_ok dart_opens_after dart_single_ok e [] ps out -> exists src,
  (forall rest, out <> [Says []] \/ hd_error rest <> Some 34%N ->
     exists ans, read dart_strings (src ++ rest) = Some (ans, rest) /\ Forall2 means ans out) /\
  (forall before after, doc_ok before = true -> doc_ok after = true -> exists sep tail,
     Forall (fun c => In c (c_newline cfg) \/ c = 32%N \/ c = 9%N) sep /\
     outcome (format_items dart_ops cfg string_writer (doc_items (before ++ NString e ps :: after)) (formatter_new [])) =
     (text (c_newline cfg) (layout (c_indentation cfg) (doc_atoms dart_ops cfg before)) ++ sep ++ src ++ tail, true)) /\
  outcome (format_items dart_ops cfg string_writer (doc_items [NString e ps]) (formatter_new [])) = (src, true).
Proof.
  intros cfg e ps out H.
  destruct (string_in_document dart_ops cfg dart_strings dart_text_ok dart_opens_after dart_single_ok
              (fun _ => 34%N) (fun _ => dart_grammar) dart_char)
    with (e := e) (ps := ps) (out := out) as [src [H1 H2]].
  - reflexivity.
  - reflexivity.
  - reflexivity.
  - reflexivity.
  - intros s. exact (concat_map_flat dart_char s).
  - reflexivity.
  - intros e0; repeat split; discriminate.
  - apply esc_first_dart.
  - apply dart_reads_text.
  - intros s nx D. right. split; [apply app_nil_r|exact D].
  - intros c r C O. apply ordinary_chars in C as (C1 & C2 & C3 & C4 & C5 & C6). cbn [t_strange dart_strings].
    change $"'" with [39%N]. change $"/" with [47%N]. rewrite !starts_one.
    apply N.eqb_neq in C2, C4, C5, C6. rewrite C2, C4, C5, C6. cbn [orb].
    apply orb_false_iff. split; [|auto]. apply orb_false_iff. split; [|auto]. apply orb_false_iff. split.
    + unfold starts. change ($"r" ++ [34%N]) with [114%N; 34%N].
      destruct (str_eqb (firstn (length [114%N; 34%N]) (c :: r)) [114%N; 34%N]) eqn:S; auto.
      apply str_eqb_eq in S. destruct r as [|x r]; [discriminate|]. cbn in S. injection S as -> ->.
      destruct O as [O|O]; [discriminate|]. destruct O; reflexivity.
    + unfold starts. destruct (str_eqb (firstn (length [34%N; 34%N; 34%N]) (c :: r)) [34%N; 34%N; 34%N]) eqn:S; auto.
      apply str_eqb_eq in S. cbn in S. injection S as -> _. destruct C1; auto.
  - intros c C. apply ordinary_chars in C as (C1 & _). cbn [t_open dart_strings].
    apply N.eqb_neq in C1. rewrite C1. auto.
  - intros e0 body rest B O. cbn [t_strange dart_strings].
    change $"'" with [39%N]. change $"/" with [47%N]. rewrite !starts_one. cbn [orb N.eqb Pos.eqb].
    apply orb_false_iff. split; [|auto]. apply orb_false_iff. split; [|auto]. apply orb_false_iff. split.
    + reflexivity.
    + unfold starts. destruct (str_eqb (firstn (length [34%N; 34%N; 34%N]) (34%N :: body ++ 34%N :: rest)) [34%N; 34%N; 34%N]) eqn:S; auto.
      apply str_eqb_eq in S. exfalso. destruct body as [|b body].
      * destruct O as [O|[O|O]]; [congruence|discriminate|]. destruct rest as [|x rest]; [discriminate|].
        cbn in S. injection S as ->. destruct O; reflexivity.
      * cbn in S. injection S as -> _. destruct B; reflexivity.
  - reflexivity.
  - intros e0 s (V & _). exact V.
  - exact H.
  - exists src. split; [|exact H2]. intros rest O. apply H1. destruct O; auto.
Qed.
Print Assumptions C75_dart_partial.

(** ** Strings of quotes *)

(** [$[str](..)] of text, names and constants reads back as the source between the
    parentheses, with the names as interpolations. *)
Theorem C75_js_quoted_partial : forall E cfg c paren (ps : list (Macro.string_item js_import E)) line e,
  accepted [QString c paren ps] ->
  spelled line (p_col (after_open paren)) ps (p_col (before_close paren)) ->
  forallb simple_part ps = true ->
  let out := source_says line [] (p_col (after_open paren)) ps (p_col (before_close paren)) in
  readable (js_text_ok (existsb SpecMacro.is_eval ps)) js_single_ok out ->
  exists t src, quote [QString c paren ps] e = Some (e, t) /\
  outcome (format_items js_ops cfg string_writer (items t) (formatter_new [])) = (src, true) /\
  forall rest, exists ans, read js_strings (src ++ rest) = Some (ans, rest) /\ Forall2 means ans out.
Proof.
  intros E cfg c paren ps line e A SP S out R.
  destruct (string_items c paren ps line e A SP S) as [t [Q I]].
  destruct (C75_js_partial cfg (existsb SpecMacro.is_eval ps) (flat_map says_parts out) out) as [src [H1 [_ H3]]].
  { apply parts_say; auto; [apply source_alternates, S|]. left. symmetry. apply source_evals, S. }
  exists t, src. split; [exact Q|]. split; [|exact H1]. rewrite I. exact H3.
Qed.
Print Assumptions C75_js_quoted_partial.
Theorem C75_dart_quoted_partial : forall E cfg c paren (ps : list (Macro.string_item dart_import E)) line e,
  accepted [QString c paren ps] ->
  spelled line (p_col (after_open paren)) ps (p_col (before_close paren)) ->
  forallb simple_part ps = true ->
  let out := source_says line [] (p_col (after_open paren)) ps (p_col (before_close paren)) in
  readable (dart_text_ok (existsb SpecMacro.is_eval ps)) dart_single_ok out ->
  exists t src, quote [QString c paren ps] e = Some (e, t) /\
  outcome (format_items dart_ops cfg string_writer (items t) (formatter_new [])) = (src, true) /\
  forall rest, out <> [Says []] \/ hd_error rest <> Some 34%N ->
  exists ans, read dart_strings (src ++ rest) = Some (ans, rest) /\ Forall2 means ans out.
Proof.
  intros E cfg c paren ps line e A SP S out R.
  destruct (string_items c paren ps line e A SP S) as [t [Q I]].
  destruct (C75_dart_partial cfg (existsb SpecMacro.is_eval ps) (flat_map says_parts out) out) as [src [H1 [_ H3]]].
  { apply parts_say; auto; [apply source_alternates, S|]. left. symmetry. apply source_evals, S. }
  exists t, src. split; [exact Q|]. split; [|exact H1]. rewrite I. exact H3.
Qed.
Print Assumptions C75_dart_quoted_partial.

(** ** Where the conditions matter *)

(** Dart: a name is continued by the text after it, and only a name is read. *)
Theorem C75_dart_refuted : forall cfg,
  (outcome (format_items dart_ops cfg string_writer
     (doc_items [NString true [SpecFmt.PEval [NItem (Literal (Static $"x"))]; PItem (Literal (Static $"y"))]])
     (formatter_new [])) = ([34%N] ++ $"$xy" ++ [34%N], true) /\
   forall rest, read dart_strings ([34%N] ++ $"$xy" ++ [34%N] ++ rest) =
     Some ([SText []; SCode $"xy"; SText []], rest)) /\
  (outcome (format_items dart_ops cfg string_writer
     (doc_items [NString true [SpecFmt.PEval [NItem (Literal (Static $"foo.bar"))]]])
     (formatter_new [])) = ([34%N] ++ $"$foo.bar" ++ [34%N], true) /\
   forall rest, read dart_strings ([34%N] ++ $"$foo.bar" ++ [34%N] ++ rest) =
     Some ([SText []; SCode $"foo"; SText $".bar"], rest)).
Proof.
  intros [[w|] nl]; repeat split; vm_compute; reflexivity.
Qed.
Print Assumptions C75_dart_refuted.
(** JavaScript: a backtick ends the template. *)
Theorem C75_js_refuted : forall cfg,
  outcome (format_items js_ops cfg string_writer
     (doc_items [NString true [PItem (Literal (Static $"a`b")); SpecFmt.PEval [NItem (Literal (Static $"x"))]]])
     (formatter_new [])) = ($"`a`b${x}`", true) /\
  forall rest, read js_strings ($"`a`b${x}`" ++ rest) = Some ([SText $"a"], $"b${x}`" ++ rest).
Proof.
  intros [[w|] nl]; repeat split; vm_compute; reflexivity.
Qed.
Print Assumptions C75_js_refuted.

(** ** Examples *)
Definition lit_node {LI} (s : str) : node LI := NItem (Literal (Static s)).
(** A dollar sign and a newline, a call with an interpolated string and a block in
    braces as arguments, text, and a variable. *)
Definition demo_parts {LI} : list (part LI) :=
  [PItem (Literal (Static ($"$" ++ [10%N]))); PItem (Literal (Static $" = "));
   SpecFmt.PEval [lit_node $"f("; NString true [SpecFmt.PEval [lit_node $"y"]; PItem (Literal (Static $"!"))];
                  lit_node $","; NItem Space; lit_node $"{a: "; NString false [PItem (Literal (Static $"{"))]; lit_node $"}"; lit_node $")"];
   PItem (Literal (Static $" z ")); SpecFmt.PEval [lit_node $"name"]].

(** Texts whose characters decide the conditions. *)
Lemma js_text_okb e s : valid s -> forallb (fun c => negb (N.eqb c 17 || N.eqb c 18 || N.eqb c 0 || N.eqb c (chr "`"))) s = true ->
  next_is (chr "{") (nth_error s 1) = false -> ~ In (chr "$") (tl s) -> js_text_ok e s.
Proof.
  intros V F B D. rewrite forallb_forall in F.
  assert (G : forall c, In c s -> c <> 17%N /\ c <> 18%N /\ c <> 0%N /\ c <> chr "`").
  { intros c H. apply F, negb_true_iff in H. apply orb_false_iff in H as [H H4]. apply orb_false_iff in H as [H H3].
    apply orb_false_iff in H as [H1 H2]. apply N.eqb_neq in H1, H2, H3, H4. auto. }
  split; [exact V|]. split; [intros H; apply G in H as (? & _); auto|].
  split; [intros H; apply G in H as (_ & ? & _); auto|].
  split; [intros p d q ->; destruct (G 0%N) as (_ & _ & X & _); [apply in_or_app; right; left; auto|congruence]|].
  intros _. split; [intros H; apply G in H as (_ & _ & _ & ?); auto|].
  intros p q ->. destruct p as [|x p].
  - cbn in B. discriminate.
  - apply D. cbn. apply in_or_app; right; left; auto.
Qed.
Ltac js_ok := apply js_text_okb;
  [repeat constructor; unfold scalar; vm_compute; intuition congruence|vm_compute; reflexivity|vm_compute; reflexivity|vm_compute; intuition discriminate].
Ltac js_string := repeat first
  [ eapply says_end; js_ok
  | eapply says_text; cbn [app content]
  | eapply says_single; [js_ok|reflexivity|vm_compute; reflexivity|]
  | eapply says_code; [js_ok|reflexivity|js_code|] ]
with js_code := repeat first
  [ apply fine_nil | apply fine_space | eapply fine_text; [reflexivity|vm_compute; reflexivity|]
  | eapply fine_string; [reflexivity|js_string|] ].
Example C75_js_example : forall cfg, exists out,
  string_says js_ops cfg js_text_ok js_opens_after js_single_ok true [] demo_parts out /\
  out = [Says ($"$" ++ [10%N] ++ $" = "); Does ($"f(`${y}!`, {a: " ++ [34%N] ++ $"{" ++ [34%N] ++ $"})"); Says $" z "; Does $"name"; Says []] /\
  outcome (format_items js_ops cfg string_writer (doc_items [NString true demo_parts]) (formatter_new [])) =
  ($"`$" ++ [92%N] ++ $"n = ${f(`${y}!`, {a: " ++ [34%N] ++ $"{" ++ [34%N] ++ $"})} z ${name}`", true).
Proof.
  intros [[w|] nl]; eexists; (split; [unfold demo_parts, lit_node; js_string|split; vm_compute; reflexivity]).
Qed.
Example C75_js_read : read js_strings (($"`$" ++ [92%N] ++ $"n = ${f(`${y}!`, {a: " ++ [34%N] ++ $"{" ++ [34%N] ++ $"})} z ${name}`") ++ $" + 1") =
  Some ([SText ($"$" ++ [10%N] ++ $" = "); SCode ($"f(`${y}!`, {a: " ++ [34%N] ++ $"{" ++ [34%N] ++ $"})"); SText $" z "; SCode $"name"; SText []], $" + 1").
Proof. vm_compute. reflexivity. Qed.
Ltac dart_ok := split; [repeat constructor; unfold scalar; vm_compute; intuition congruence|split; vm_compute; intuition discriminate].
Ltac dart_name := split; [do 2 eexists; split; [reflexivity|split; reflexivity]|vm_compute; try exact I; reflexivity].
Ltac dart_string := repeat first
  [ eapply says_end; dart_ok
  | eapply says_text; cbn [app content]
  | eapply says_single; [dart_ok|reflexivity|dart_name|]
  | eapply says_code; [dart_ok|reflexivity|dart_code|] ]
with dart_code := repeat first
  [ apply fine_nil | apply fine_space | eapply fine_text; [reflexivity|vm_compute; reflexivity|]
  | eapply fine_string; [reflexivity|dart_string|] ].
Example C75_dart_example : forall cfg, exists out,
  string_says dart_ops cfg dart_text_ok dart_opens_after dart_single_ok true [] demo_parts out /\
  out = [Says ($"$" ++ [10%N] ++ $" = "); Does ($"f(" ++ [34%N] ++ $"$y!" ++ [34%N] ++ $", {a: " ++ [34%N] ++ $"{" ++ [34%N] ++ $"})"); Says $" z "; Does $"name"; Says []] /\
  outcome (format_items dart_ops cfg string_writer (doc_items [NString true demo_parts]) (formatter_new [])) =
  ([34%N; 92%N] ++ $"$" ++ [92%N] ++ $"n = ${f(" ++ [34%N] ++ $"$y!" ++ [34%N] ++ $", {a: " ++ [34%N] ++ $"{" ++ [34%N] ++ $"})} z $name" ++ [34%N], true).
Proof.
  intros [[w|] nl]; eexists; (split; [unfold demo_parts, lit_node; dart_string|split; vm_compute; reflexivity]).
Qed.

(** [$[str](  Hello,  $name! )] *)
Definition demo_src : str := $"$[str](  Hello,  $name! )".
Definition demo_word {LI} (a : nat) (s : str) : Macro.string_item LI nat :=
  PText (mk_cursor (mk_pos 1 a) (mk_pos 1 (a + length s))) s.
Definition demo_string {LI} : list (Macro.string_item LI nat) :=
  [demo_word 9 $"Hello"; demo_word 14 $","; PIdent (mk_cursor (mk_pos 1 17) (mk_pos 1 22)) $"name"; demo_word 22 $"!"].
Definition demo_paren : cursor := mk_cursor (mk_pos 1 6) (mk_pos 1 25).
Definition demo_out : list says := [Says $"  Hello,  "; Does $"name"; Says $"! "].
Example C75_js_quoted_example :
  accepted [QString (mk_cursor (mk_pos 1 0) (mk_pos 1 25)) demo_paren (demo_string (LI := js_import))] /\
  spelled demo_src (p_col (after_open demo_paren)) (demo_string (LI := js_import)) (p_col (before_close demo_paren)) /\
  forallb simple_part (demo_string (LI := js_import)) = true /\
  source_says demo_src [] (p_col (after_open demo_paren)) (demo_string (LI := js_import)) (p_col (before_close demo_paren)) = demo_out /\
  readable (js_text_ok true) js_single_ok demo_out.
Proof.
  split; [vm_compute; discriminate|]. split.
  { cbn. unfold blank_source. repeat split; try lia; vm_compute; reflexivity. }
  split; [reflexivity|]. split; [vm_compute; reflexivity|]. unfold demo_out. cbn [readable]. split; [js_ok|].
  split; [vm_compute; reflexivity|]. split; [js_ok|exact I].
Qed.
Example C75_dart_quoted_example :
  accepted [QString (mk_cursor (mk_pos 1 0) (mk_pos 1 25)) demo_paren (demo_string (LI := dart_import))] /\
  spelled demo_src (p_col (after_open demo_paren)) (demo_string (LI := dart_import)) (p_col (before_close demo_paren)) /\
  forallb simple_part (demo_string (LI := dart_import)) = true /\
  source_says demo_src [] (p_col (after_open demo_paren)) (demo_string (LI := dart_import)) (p_col (before_close demo_paren)) = demo_out /\
  readable (dart_text_ok true) dart_single_ok demo_out.
Proof.
  split; [vm_compute; discriminate|]. split.
  { cbn. unfold blank_source. repeat split; try lia; vm_compute; reflexivity. }
  split; [reflexivity|]. split; [vm_compute; reflexivity|]. unfold demo_out. cbn [readable]. split; [dart_ok|].
  split; [dart_name|]. split; [dart_ok|exact I].
Qed.
