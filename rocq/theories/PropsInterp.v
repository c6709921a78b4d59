(** * Properties of interpolated strings in quotes: C75, continued.

    Vocabulary: [SpecInterp.v] (the strings of quotes with code), [SpecTemplate.v]
    (how the languages read strings with interpolations), [SpecMacro.v]; model:
    [Macro.v], [Fmt.v], [Quote.v], [LangJs.v], [LangDart.v]. *)
From Verif Require Import Macro SpecMacro SpecQuote SpecStrings.
From Verif Require Import Str SpecStr StrFacts SpecLex Tokens Values Fmt SpecFmt HistoryFacts SpecTemplate SpecInterp InterpFacts.
From Verif Require Import LangBase LangDart LangJs PropsTemplate.

(** ** Code in strings *)

(** The code in [$(..)], on one line, is what a quote of it gives by itself. *)
Theorem C75_code : forall LI E c (qs : list (quoted_item LI E)) e r, code_on_line qs -> accepted (eval_block c qs) ->
  quote qs e = Some r -> quote (eval_block c qs) e = Some r.
Proof. intros LI E c qs e [e' t] L A Q. eapply eval_runs; eauto. Qed.
Print Assumptions C75_code.

(** Code made of words is these words, with a blank where the source has any, and
    can be written in a string if its braces match and it has no quotes and slashes. *)
Theorem C75_words : forall LI E (ops : lang_ops LI) cfg text_ok opens_after single_ok (qs : list (quoted_item LI E)) ws e,
  accepted qs -> code_on_line qs -> made_of qs ws -> exists t ns,
  quote qs e = Some (e, t) /\ items t = doc_items ns /\ on_line 0 (doc_atoms ops cfg ns) = line_of_words ws /\
  forall c, depth_after 0 (line_of_words ws) = Some 0 -> exists c', code_fine ops cfg text_ok opens_after single_ok c 0 ns c' 0.
Proof. intros. apply words_code; auto. Qed.
Print Assumptions C75_words.

Lemma same_output {LI} (ops : lang_ops LI) cfg a b : map HistoryFacts.erase a = map HistoryFacts.erase b ->
  format_items ops cfg string_writer a (formatter_new []) = format_items ops cfg string_writer b (formatter_new []).
Proof. intros H. rewrite <- (format_erase ops cfg string_writer a), <- (format_erase ops cfg string_writer b), H. reflexivity. Qed.

(** A string in a quote, with its source, and code of any kind in [$(..)]: the text
    of the quote reads back as what the string says. *)
Theorem C75_js_code_partial : forall E cfg c paren (ps : list (Macro.string_item js_import E)) line e e' parts out,
  accepted [QString c paren ps] ->
  spelled line (p_col (after_open paren)) ps (p_col (before_close paren)) ->
  string_doc line (p_col (before_close paren)) e [] (p_col (after_open paren)) ps e' parts ->
  string_says js_ops cfg js_text_ok js_opens_after js_single_ok (existsb SpecMacro.is_eval ps) [] parts out ->
  exists t src, quote [QString c paren ps] e = Some (e', t) /\
  outcome (format_items js_ops cfg string_writer (items t) (formatter_new [])) = (src, true) /\
  forall rest, exists ans, read js_strings (src ++ rest) = Some (ans, rest) /\ Forall2 means ans out.
Proof.
  intros E cfg c paren ps line e e' parts out A SP D S.
  destruct (string_document c paren ps line e e' parts A SP D) as (t & Q & B).
  destruct (C75_js_partial cfg _ _ _ S) as (src & R & _ & F).
  exists t, src. split; [exact Q|]. split; [|exact R]. rewrite (same_output _ _ _ _ B). exact F.
Qed.
Print Assumptions C75_js_code_partial.

Theorem C75_dart_code_partial : forall E cfg c paren (ps : list (Macro.string_item dart_import E)) line e e' parts out,
  accepted [QString c paren ps] ->
  spelled line (p_col (after_open paren)) ps (p_col (before_close paren)) ->
  string_doc line (p_col (before_close paren)) e [] (p_col (after_open paren)) ps e' parts ->
  string_says dart_ops cfg dart_text_ok dart_opens_after dart_single_ok (existsb SpecMacro.is_eval ps) [] parts out ->
  exists t src, quote [QString c paren ps] e = Some (e', t) /\
  outcome (format_items dart_ops cfg string_writer (items t) (formatter_new [])) = (src, true) /\
  forall rest, out <> [Says []] \/ hd_error rest <> Some 34%N ->
  exists ans, read dart_strings (src ++ rest) = Some (ans, rest) /\ Forall2 means ans out.
Proof.
  intros E cfg c paren ps line e e' parts out A SP D S.
  destruct (string_document c paren ps line e e' parts A SP D) as (t & Q & B).
  destruct (C75_dart_partial cfg _ _ _ S) as (src & R & _ & F).
  exists t, src. split; [exact Q|]. split; [|exact R]. rewrite (same_output _ _ _ _ B). exact F.
Qed.
Print Assumptions C75_dart_code_partial.

(** ** Examples *)

(** [$[str](Hi $(f( $x ) + "y")!)]: the variable [x] has the value [name], and [y]
    is a string. *)
Definition code_src : str := $"$[str](Hi $(f( $x ) + " ++ [34%N] ++ $"y" ++ [34%N] ++ $")!)".
Definition at_cols (a b : nat) : cursor := mk_cursor (mk_pos 1 a) (mk_pos 1 b).
Definition code_items {LI} : list (quoted_item LI str) :=
  [QText (at_cols 12 13) $"f"; QGroup (at_cols 13 19) Parenthesis [QEval (at_cols 15 17) (fun e => (VItemStr (Static e), e))];
   QText (at_cols 20 21) $"+"; QQuoted (at_cols 22 25) $"y"].
Definition code_string {LI} : list (Macro.string_item LI str) :=
  [PText (at_cols 7 9) $"Hi"; Macro.PEval (at_cols 10 26) code_items; PText (at_cols 26 27) $"!"].
Definition code_paren : cursor := at_cols 6 28.
Definition code_nodes {LI} : list (node LI) :=
  [lit_node $"f("; NItem Space; lit_node $"name"; NItem Space; lit_node $")"; NItem Space; lit_node $"+"; NItem Space;
   NString false [PItem (Literal (Static $"y"))]].
Definition code_parts {LI} : list (part LI) :=
  [PItem (Literal (Static $"Hi ")); SpecFmt.PEval code_nodes; PItem (Literal (Static $"!"))].
Definition code_out : list says := [Says $"Hi "; Does ($"f( name ) + " ++ [34%N] ++ $"y" ++ [34%N]); Says $"!"].

Lemma code_line LI : code_on_line (@code_items LI).
Proof. exists 1. cbn. repeat split; lia. Qed.
Definition build_code LI : tokens LI :=
  match quote code_items $"name" with Some (_, t) => t | None => new end.
Lemma code_spelled LI : accepted [QString (at_cols 0 28) code_paren (@code_string LI)] /\
  spelled code_src (p_col (after_open code_paren)) (@code_string LI) (p_col (before_close code_paren)) /\
  string_doc code_src (p_col (before_close code_paren)) $"name" [] (p_col (after_open code_paren)) (@code_string LI) $"name" code_parts.
Proof.
  split; [vm_compute; discriminate|]. split.
  { cbn. unfold blank_source. repeat split; try lia; vm_compute; reflexivity. }
  apply doc_token.
  change code_parts with (constant_text (([] ++ slice code_src 7 9) ++ slice code_src 9 10) ++
    @SpecFmt.PEval LI code_nodes :: constant_text (([] ++ slice code_src 26 27) ++ slice code_src 27 27)).
  apply (doc_code code_src _ $"name" ([] ++ slice code_src 7 9) 9 (at_cols 10 26) code_items (build_code LI) code_nodes $"name");
    [apply code_line|vm_compute; reflexivity|vm_compute; reflexivity|].
  apply doc_token. apply (doc_end code_src).
Qed.
Example C75_js_code_example : forall cfg,
  string_says js_ops cfg js_text_ok js_opens_after js_single_ok true [] code_parts code_out /\
  option_map (fun r => outcome (format_items js_ops cfg string_writer (items (snd r)) (formatter_new []))) (quote [QString (at_cols 0 28) code_paren code_string] $"name") =
    Some ($"`Hi ${f( name ) + " ++ [34%N] ++ $"y" ++ [34%N] ++ $"}!`", true).
Proof.
  intros [[w|] nl]; (split; [unfold code_parts, code_out, code_nodes, lit_node|vm_compute; reflexivity]);
    (apply says_text; cbn [app content]; eapply says_code; [js_ok|reflexivity|js_code|js_string]).
Qed.
Example C75_dart_code_example : forall cfg,
  string_says dart_ops cfg dart_text_ok dart_opens_after dart_single_ok true [] code_parts code_out /\
  option_map (fun r => outcome (format_items dart_ops cfg string_writer (items (snd r)) (formatter_new []))) (quote [QString (at_cols 0 28) code_paren code_string] $"name") =
    Some ([34%N] ++ $"Hi ${f( name ) + " ++ [34%N] ++ $"y" ++ [34%N] ++ $"}!" ++ [34%N], true).
Proof.
  intros [[w|] nl]; (split; [unfold code_parts, code_out, code_nodes, lit_node|vm_compute; reflexivity]);
    (apply says_text; cbn [app content]; eapply says_code; [dart_ok|reflexivity|dart_code|dart_string]).
Qed.
(** [{ a : b }] *)
Example C75_words_example : forall LI,
  let qs := [@QGroup LI unit (at_cols 0 10) Brace [QText (at_cols 2 3) $"a"; QText (at_cols 4 5) $":"; QText (at_cols 7 8) $"b"]] in
  accepted qs /\ code_on_line qs /\ exists ws, made_of qs ws /\ line_of_words ws = $"{ a : b }" /\ depth_after 0 (line_of_words ws) = Some 0.
Proof.
  intros LI qs. split; [vm_compute; discriminate|]. split; [exists 1; cbn; repeat split; lia|].
  exists [(at_cols 0 1, $"{"); (at_cols 2 3, $"a"); (at_cols 4 5, $":"); (at_cols 7 8, $"b"); (at_cols 9 10, $"}")].
  split; [split; [reflexivity|repeat constructor; discriminate]|]. split; reflexivity.
Qed.
