(** * Properties of the tokens of assembled files in the other languages (C90).

    As C88, for files in C, C#, Dart, Go, Java, JavaScript and Swift: the file consists
    of the tokens of its header lines and of the parts of the program in order, with
    each string literal the string that was meant.

    Code is read as by [SpecReread.v] with the string literals of the language, that is,
    without comments, regular expressions, other kinds of quotes, names with [$] or [@]
    and automatic semicolons.

    Vocabulary: [SpecFileParts.v], [SpecParts.v], and as for C87. *)
From Verif Require Import Str SpecStr StrFacts Quote SpecLex LexFacts QuoteFacts Tokens SpecTokens TokensRun Values Fmt SpecFmt RenderFacts StringFacts
  SpecLang LangBase SpecResolve FileFacts ImportFacts JavaFacts Macro SpecMacro SpecWords SpecReread RespaceFacts RereadFacts SpecFile Parse SpecParse PropsQuote PropsReread PropsLang PropsNames PropsResolve PropsClash PropsExact SpecWhole WholeFacts PropsWhole
  LangC LangCsharp LangDart LangGo LangJava LangJs LangSwift SpecJs SpecProgram ProgramFacts UseFacts SpecAssembled AssembledFacts PropsAssembled SpecParts PartsFacts SpecFileParts.

(** ** Files *)
Section Files.
Context (literal : str -> str) (nl : str).
Hypothesis W : all_white nl.
Hypothesis NE : nl <> [].
Lemma spread_header hp lines b body t : Forall2 (spread literal) hp lines -> lines <> [] -> all_white b -> b <> [] -> spread literal body t ->
  spread literal (flat_map (fun l => l ++ [Gap]) hp ++ body) (stack nl lines ++ b ++ t).
Proof.
  intros H N B1 B2 S. induction H as [|p x hp lines P F IH]; [congruence|]. cbn [flat_map]. rewrite <- !app_assoc.
  destruct F as [|p2 x2 hp lines P2 F].
  - cbn [stack flat_map app]. apply spread_app; [exact P|]. cbn [app]. constructor; assumption.
  - change (stack nl (x :: x2 :: lines)) with (x ++ nl ++ stack nl (x2 :: lines)). rewrite <- !app_assoc. apply spread_app; [exact P|].
    cbn [app]. constructor; [exact W|exact NE|]. apply IH. discriminate.
Qed.
Lemma spread_file hp lines body t : Forall2 (spread literal) hp lines -> spread literal body t ->
  exists out tail, file_text nl lines t = out ++ tail /\ all_white tail /\ spread literal (file_parts hp body) out.
Proof.
  intros H S. unfold file_parts. destruct H as [|p x hp lines P F].
  - exists t, nl. split; [reflexivity|]. split; [exact W|exact S].
  - assert (F2 : Forall2 (spread literal) (p :: hp) (x :: lines)) by (constructor; assumption).
    destruct t as [|c t].
    + exists (stack nl (x :: lines) ++ nl ++ []), []. split; [unfold file_text; rewrite !app_nil_r; reflexivity|]. split; [constructor|].
      apply spread_header; auto. discriminate.
    + exists (stack nl (x :: lines) ++ (nl ++ nl) ++ c :: t), nl. split; [unfold file_text; rewrite <- !app_assoc; reflexivity|]. split; [exact W|].
      apply spread_header; auto; [discriminate|apply Forall_app; auto|]. intros X. apply app_eq_nil in X as [X _]. auto.
Qed.
Context (g : grammar) (good : str -> Prop) (value : str -> list N).
Hypothesis literal_quote : forall v, exists r, literal v = 34%N :: r.
Hypothesis stop_here : forall c n n', g_stop g c n = g_stop g c n'.
Hypothesis literal_reads : forall v rest, good v -> read_literal g (literal v ++ rest) = Some (value v, rest).
Lemma file_reads hp lines body t K : Forall2 (spread literal) hp lines -> spread literal body t ->
  parts_read g good value (file_parts hp body) K -> read_code g (file_text nl lines t) = Some K.
Proof.
  intros H S R. destruct (spread_file hp lines body t H S) as (out & tail & E & B & SP).
  destruct (spread_read literal literal_quote g good value stop_here literal_reads _ K R _ SP) as (L & C & M).
  rewrite E, (consists_code _ _ _ (consists_tail_in g stop_here _ _ _ C B)), M. reflexivity.
Qed.
Lemma body_reads body t K : spread literal body t -> parts_read g good value body K -> read_code g t = Some K.
Proof.
  intros S R. destruct (spread_read literal literal_quote g good value stop_here literal_reads _ K R _ S) as (L & C & M).
  rewrite (consists_code _ _ _ C), M. reflexivity.
Qed.
End Files.
Lemma spread_lines literal {A} (f : A -> list stretch) (g : A -> str) l : (forall x, spread literal (f x) (g x)) -> Forall2 (spread literal) (map f l) (map g l).
Proof. intros H. induction l; constructor; auto. Qed.
Lemma spread_package literal p x hp lines : spread literal p x -> Forall2 (spread literal) hp lines ->
  Forall2 (spread literal) (package_parts (Some p) hp) (package_then (Some x) lines).
Proof. intros P H. destruct H; constructor; auto. constructor; [apply spread_none|]. constructor; auto. Qed.

(** ** Literals *)
Lemma literal_form {LI C F} (L : lang_def LI C F) (f : N -> str) lit :
  l_open_quote (ld_ops L (ld_default_config L) (ld_default_format L)) false = [[34%N]] -> l_close_quote (ld_ops L (ld_default_config L) (ld_default_format L)) false = [[34%N]] ->
  (forall s, l_write_quoted (ld_ops L (ld_default_config L) (ld_default_format L)) s = map f s) ->
  literal_of L lit -> forall s, lit s = 34%N :: flat_map f s ++ [34%N].
Proof.
  intros H1 H2 H LO s. pose proof (literal_source L f s H1 H2 H) as E. unfold quoted_string in E. unfold literal_of in LO. rewrite LO in E. injection E as E. exact E.
Qed.
Lemma literal_begins (f : N -> str) lit : (forall s, lit s = 34%N :: flat_map f s ++ [34%N]) -> forall v, exists r, lit v = 34%N :: r.
Proof. intros H v. rewrite H. eauto. Qed.
Section Reads.
Context (f : N -> str) (g : grammar) (lit : str -> str).
Hypothesis form : forall s, lit s = 34%N :: flat_map f s ++ [34%N].
Hypothesis stop : forall rest, g_stop g 34 (hd_error rest) = true.
Lemma form_reads v w rest : (forall rest, lex g MText (flat_map f v ++ 34%N :: rest) = SpecLex.emit w (lex g MText (34%N :: rest))) ->
  read_literal g (lit v ++ rest) = Some (w, rest).
Proof. intros H. rewrite form. apply denotes_quoted; assumption. Qed.
End Reads.
Ltac reads := eapply form_reads; [eassumption|reflexivity|]; intros rest'.
Lemma swift_reads lit : literal_of swift_lang lit -> forall v rest, valid v -> read_literal swift_grammar (lit v ++ rest) = Some (itself v, rest).
Proof.
  intros H v rest V. assert (X := literal_form swift_lang swift_char lit eq_refl eq_refl ltac:(reflexivity) H). reads.
  rewrite (lex_text _ _ (fun c => [c]) (fun c _ => scalar c)).
  - rewrite flat_map_singleton. reflexivity.
  - intros; apply swift_char_ok; auto.
  - intros; eapply valid_in; eauto.
Qed.
Lemma dart_reads lit : literal_of dart_lang lit -> forall v rest, dart_good v -> read_literal dart_grammar (lit v ++ rest) = Some (utf16 v, rest).
Proof.
  intros H v rest (V & A & B). assert (X := literal_form dart_lang dart_char lit eq_refl eq_refl ltac:(reflexivity) H). reads.
  rewrite (lex_text _ _ (fun c => utf16_units (vf_fix c)) (fun c _ => scalar c)).
  - rewrite <- flat_map_map, fix_id by auto. reflexivity.
  - intros; apply dart_char_ok; auto.
  - intros; eapply valid_in; eauto.
Qed.
Lemma go_reads lit : literal_of go_lang lit -> forall v rest, go_good v -> read_literal go_grammar (lit v ++ rest) = Some (utf8 v, rest).
Proof.
  intros H v rest ((V & A & B) & Q). assert (X := literal_form go_lang c_family_char lit eq_refl eq_refl ltac:(reflexivity) H). reads.
  rewrite (lex_text _ _ (fun c => utf8_char (vf_fix c)) (fun c _ => scalar c /\ c <> 39%N)).
  - rewrite <- flat_map_map, fix_id by auto. reflexivity.
  - intros c r [H1 H2]; apply go_char_ok; auto.
  - intros p c q E. split; [eapply valid_in; eauto|]. intros ->. apply Q. rewrite E. apply in_or_app; right; left; auto.
Qed.
Lemma js_reads relative lit : literal_of (js_lang relative) lit -> forall v rest, js_good_string v -> read_literal js_grammar (lit v ++ rest) = Some (utf16 v, rest).
Proof.
  intros H v rest ((V & A & B) & Z). assert (X := literal_form (js_lang relative) js_char lit eq_refl eq_refl ltac:(reflexivity) H). reads.
  rewrite (lex_text _ _ (fun c => utf16_units (vf_fix c)) (fun c r => scalar c /\ (c = 0%N -> is_digit (hd_error r) = false))).
  - rewrite <- flat_map_map, fix_id by auto. reflexivity.
  - intros c r [H1 H2]. apply js_char_ok; auto. intros E. exfalso. apply (f_equal (fun g => g_stop g 96 None)) in E. discriminate E.
  - intros p c q E. split; [eapply valid_in; eauto|]. eapply js_next; eauto.
Qed.
Lemma csharp_reads lit : literal_of csharp_lang lit -> forall v rest, csharp_good v -> read_literal csharp_grammar (lit v ++ rest) = Some (utf16 v, rest).
Proof.
  intros H v rest ((V & A & B) & Z). assert (X := literal_form csharp_lang c_family_char lit eq_refl eq_refl ltac:(reflexivity) H). reads.
  rewrite (lex_text _ _ (fun c => utf16_units (vf_fix c)) (fun c r => scalar c /\ (hex_escaped c = true -> is_hex (hd_error r) = false))).
  - rewrite <- flat_map_map, fix_id by auto. reflexivity.
  - intros c r [A1 A2]. apply csharp_char_ok; auto.
  - intros p c q E. split; [eapply valid_in; eauto|]. eapply c_next; eauto.
Qed.
Lemma c_reads lit : literal_of c_lang lit -> forall v rest, c_good_string v -> read_literal c_grammar (lit v ++ rest) = Some (utf8 v, rest).
Proof.
  intros H v rest (((V & A & B) & Z) & F). assert (X := literal_form c_lang c_family_char lit eq_refl eq_refl ltac:(reflexivity) H). reads.
  rewrite (lex_text _ _ (fun c => utf8_char (vf_fix c)) (fun c r => scalar c /\ (c < 128 \/ 160 <= c)%N /\ (hex_escaped c = true -> is_hex (hd_error r) = false))).
  - rewrite <- flat_map_map, fix_id by auto. reflexivity.
  - intros c r [A1 [A2 A3]]. apply c_char_ok; auto.
  - intros p c q E. split; [eapply valid_in; eauto|]. split.
    + rewrite E in F. apply Forall_app in F as [_ F]. inversion F; auto.
    + eapply c_next; eauto.
Qed.

(** ** C *)

(** The program below the includes.  (What [#include] names is not a string of C.) *)
Theorem C90_c_tokens : forall E cfg (qs : list (quoted_item c_import E)) e l e',
  all_white (c_newline cfg) -> c_newline cfg <> [] -> quotes_program qs e l e' ->
  Forall c_words (program_imports l) ->
  exists t literal keys body, quote qs e = Some (e', t) /\ literal_of c_lang literal /\ c_listed (program_imports l) keys /\
    file_renders c_lang cfg tt t (file_text (c_newline cfg) (map (c_line literal) keys) body) /\
    forall K, parts_read c_grammar c_good_string utf8 (program_parts (fun i => content (c_item i)) l) K -> read_code c_grammar body = Some K.
Proof.
  intros E cfg qs e l e' W NE Q V. destruct (C87_c_file E cfg qs e l e' Q V) as (t & lit & keys & H1 & H2 & H3 & H4).
  exists t, lit, keys. eexists. split; [exact H1|]. split; [exact H2|]. split; [exact H3|]. split; [exact H4|]. intros K R.
  eapply body_reads; [| |apply c_reads; exact H2|apply spread_program; assumption|exact R]; [|reflexivity].
  apply (literal_begins c_family_char). apply (literal_form c_lang); try reflexivity. exact H2.
Qed.
Print Assumptions C90_c_tokens.

(** ** Swift *)
Theorem C90_swift_tokens : forall E cfg (qs : list (quoted_item swift_import E)) e l e',
  all_white (c_newline cfg) -> c_newline cfg <> [] -> quotes_program qs e l e' ->
  Forall swift_words (program_imports l) ->
  exists t keys file, quote qs e = Some (e', t) /\ swift_listed (program_imports l) keys /\ file_renders swift_lang cfg tt t file /\
    forall K, parts_read swift_grammar valid itself
        (file_parts (map (fun m => text_parts (swift_line m)) keys) (program_parts (fun i => content (sw_name i)) l)) K ->
      read_code swift_grammar file = Some K.
Proof.
  intros E cfg qs e l e' W NE Q V. destruct (C87_swift_file E cfg qs e l e' (fun _ _ => True) Q V) as (t & lit & keys & H1 & H2 & H3 & H4 & _).
  exists t, keys. eexists. split; [exact H1|]. split; [exact H3|]. split; [exact H4|]. intros K R.
  eapply file_reads; [exact W|exact NE| | |apply swift_reads; exact H2| |apply spread_program; assumption|exact R].
  - apply (literal_begins swift_char). apply (literal_form swift_lang); try reflexivity. exact H2.
  - reflexivity.
  - apply spread_lines. intros m. apply spread_text.
Qed.
Print Assumptions C90_swift_tokens.

(** ** Go *)
Theorem C90_go_tokens : forall E cfg package (qs : list (quoted_item go_import E)) e l e',
  all_white (c_newline cfg) -> c_newline cfg <> [] -> quotes_program qs e l e' ->
  opt_named package -> Forall go_words (program_imports l) ->
  exists t keys reference file, quote qs e = Some (e', t) /\ go_listed (program_imports l) keys /\
    (forall i, In i (program_imports l) -> exists x, last_segment $"/" (content (go_module i)) x /\ reference i = x ++ $"." ++ content (go_name i)) /\
    file_renders go_lang cfg package t file /\
    forall K, parts_read go_grammar go_good utf8
        (file_parts (package_parts (option_map (fun p => text_parts (go_package_line p)) package) (map go_parts keys)) (program_parts reference l)) K ->
      read_code go_grammar file = Some K.
Proof.
  intros E cfg package qs e l e' W NE Q NP V. destruct (C87_go_file E cfg package qs e l e' (fun x => x) Q NP V) as (t & lit & keys & reference & H1 & H2 & H3 & H4 & RE).
  exists t, keys, reference. eexists. split; [exact H1|]. split; [exact H3|]. split; [intros i Hi; apply (RE i Hi)|]. split; [exact H4|]. intros K R.
  eapply file_reads; [exact W|exact NE| | |apply go_reads; exact H2| |apply spread_program; assumption|exact R].
  - apply (literal_begins c_family_char). apply (literal_form go_lang); try reflexivity. exact H2.
  - reflexivity.
  - assert (S : Forall2 (spread lit) (map go_parts keys) (map (go_line lit) keys)).
    { apply spread_lines. intros m. unfold go_parts, go_line. constructor. apply spread_literal. }
    destruct package as [p|]; [|exact S]. apply spread_package; [apply spread_text|exact S].
Qed.
Print Assumptions C90_go_tokens.

(** ** Dart *)
Theorem C90_dart_tokens : forall E cfg (qs : list (quoted_item dart_import E)) e l e',
  all_white (c_newline cfg) -> c_newline cfg <> [] -> quotes_program qs e l e' ->
  Forall dart_words (program_imports l) ->
  exists t keys file, quote qs e = Some (e', t) /\ dart_listed (program_imports l) keys /\ file_renders dart_lang cfg tt t file /\
    forall K, parts_read dart_grammar dart_good utf16
        (file_parts (map dart_parts keys) (program_parts (fun i => dart_written (option_map content (da_alias i)) (content (da_name i))) l)) K ->
      read_code dart_grammar file = Some K.
Proof.
  intros E cfg qs e l e' W NE Q V. destruct (C87_dart_file E cfg qs e l e' (fun _ _ => True) Q V) as (t & lit & keys & H1 & H2 & H3 & H4 & _).
  exists t, keys. eexists. split; [exact H1|]. split; [exact H3|]. split; [exact H4|]. intros K R.
  eapply file_reads; [exact W|exact NE| | |apply dart_reads; exact H2| |apply spread_program; assumption|exact R].
  - apply (literal_begins dart_char). apply (literal_form dart_lang); try reflexivity. exact H2.
  - reflexivity.
  - apply spread_lines. intros [p a]. unfold dart_parts, dart_line. cbn [fst snd]. constructor. constructor. apply spread_text.
Qed.
Print Assumptions C90_dart_tokens.

(** ** JavaScript *)
Theorem C90_js_tokens : forall E relative cfg module_path (qs : list (quoted_item js_import E)) e l e',
  all_white (c_newline cfg) -> c_newline cfg <> [] -> quotes_program qs e l e' ->
  Forall js_words (program_imports l) -> Forall js_made (program_imports l) ->
  exists t wildcards modules file, quote qs e = Some (e', t) /\ js_listed (program_imports l) wildcards modules /\
    file_renders (js_lang relative) cfg module_path t file /\
    forall K, parts_read js_grammar js_good_string utf16
        (file_parts (map (js_wildcard_parts (js_specifier relative module_path)) wildcards ++
                     map (js_module_parts (js_specifier relative module_path)) modules)
           (program_parts (fun i => fst (js_needs i)) l)) K ->
      read_code js_grammar file = Some K.
Proof.
  intros E relative cfg mp qs e l e' W NE Q V M. destruct (C87_js_file E relative cfg mp qs e l e' Q V M) as (t & lit & ws & ms & H1 & H2 & H3 & H4 & _).
  exists t, ws, ms. eexists. split; [exact H1|]. split; [exact H3|]. split; [exact H4|]. intros K R.
  eapply file_reads; [exact W|exact NE| | |apply (js_reads relative); exact H2| |apply spread_program; assumption|exact R].
  - apply (literal_begins js_char). apply (literal_form (js_lang relative)); try reflexivity. exact H2.
  - reflexivity.
  - apply Forall2_app; apply spread_lines.
    + intros [m a]. unfold js_wildcard_parts, js_wildcard_line. cbn [fst snd]. rewrite 2 (app_assoc $"import * as "). rewrite (app_assoc (_ ++ _)). constructor. constructor. apply spread_text.
    + intros [m [d es]]. unfold js_module_parts, js_module_line. repeat rewrite (app_assoc $"import "). idtac.
      match goal with |- spread _ _ ?t => replace t with (($"import " ++
     match d with Some d => content d | None => [] end ++
     match d, es with Some _, _ :: _ => $", " | _, _ => [] end ++
     match es with [] => [] | _ => $"{" ++ join $", " (map js_element_text es) ++ $"}" end ++
     $" from ") ++ lit (js_specifier relative mp m) ++ $";") by (rewrite <- !app_assoc; reflexivity) end.
      constructor. constructor. apply spread_text.
Qed.
Print Assumptions C90_js_tokens.

(** ** C# *)
Theorem C90_csharp_tokens : forall E cfg (qs : list (quoted_item cs_import E)) e l e' (declared : str -> str -> Prop),
  all_white (c_newline cfg) -> c_newline cfg <> [] -> quotes_program qs e l e' ->
  Forall csharp_words (program_imports l) ->
  exists t types usings reference file, quote qs e = Some (e', t) /\ csharp_listed (program_imports l) types usings /\
    (forall i, In i (program_imports l) -> let ns := content (cs_namespace i) in let n := content (cs_name i) in
       exists w, reference i = written_text w /\
       (cs_denotes declared None usings w ns n <->
        declared ns n /\
        (cs_qualified i = false -> In (ns, n) types -> forall m, In m usings -> declared m n -> m = ns))) /\
    file_renders csharp_lang cfg None t file /\
    forall K, parts_read csharp_grammar csharp_good utf16
        (file_parts (map (fun n => text_parts (cs_line n)) usings) (program_parts reference l)) K ->
      read_code csharp_grammar file = Some K.
Proof.
  intros E cfg qs e l e' declared W NE Q V. destruct (C87_csharp_file E cfg qs e l e' declared Q V) as (t & lit & types & usings & reference & H1 & H2 & H3 & H4 & RE).
  exists t, types, usings, reference. eexists. split; [exact H1|]. split; [exact H3|]. split; [exact RE|].
  split; [exact H4|]. intros K R.
  eapply file_reads; [exact W|exact NE| | |apply csharp_reads; exact H2| |apply spread_program; assumption|exact R].
  - apply (literal_begins c_family_char). apply (literal_form csharp_lang); try reflexivity. exact H2.
  - reflexivity.
  - apply spread_lines. intros m. apply spread_text.
Qed.
Print Assumptions C90_csharp_tokens.

Lemma spread_block literal nl ind namespace inner s : all_white nl -> nl <> [] -> spread literal inner s ->
  spread literal (csharp_block_parts namespace inner) (csharp_block nl ind namespace s).
Proof.
  intros W NE S. unfold csharp_block_parts, csharp_block.
  replace ($"namespace " ++ namespace ++ $" {" ++ nl ++ indent_text ind 1 ++ s ++ nl ++ $"}")
    with (($"namespace " ++ namespace ++ $" {") ++ (nl ++ indent_text ind 1) ++ s ++ nl ++ $"}") by (rewrite <- !app_assoc; reflexivity).
  cbn [app]. constructor. constructor; [apply Forall_app; split; [exact W|apply (white_indent ind 1)]|intros X; apply app_eq_nil in X as [X _]; auto|].
  apply spread_app; [exact S|]. constructor; [exact W|exact NE|]. apply spread_text.
Qed.
(** With a namespace the program is in its block. *)
Theorem C90_csharp_namespace_tokens : forall E cfg namespace (qs : list (quoted_item cs_import E)) e l e' (declared : str -> str -> Prop),
  all_white (c_newline cfg) -> c_newline cfg <> [] -> named namespace -> quotes_program qs e l e' -> whole l ->
  Forall csharp_words (program_imports l) ->
  exists t types usings reference file, quote qs e = Some (e', t) /\ csharp_listed_in (content namespace) (program_imports l) types usings /\
    (forall i, In i (program_imports l) -> let ns := content (cs_namespace i) in let n := content (cs_name i) in
      exists w, reference i = written_text w /\
      (cs_denotes declared (Some (content namespace)) usings w ns n <->
       declared ns n /\
       (cs_qualified i = false -> ns <> content namespace -> In (ns, n) types ->
        ~ declared (content namespace) n /\ forall m, In m usings -> declared m n -> m = ns))) /\
    file_renders csharp_lang cfg (Some namespace) t file /\
    forall K, parts_read csharp_grammar csharp_good utf16
        (file_parts (map (fun n => text_parts (cs_line n)) usings) (csharp_block_parts (content namespace) (program_parts reference l))) K ->
      read_code csharp_grammar file = Some K.
Proof.
  intros E cfg own qs e l e' declared W NE N Q WH V.
  destruct (C87_csharp_namespace_file E cfg own qs e l e' declared N Q WH V) as (t & lit & types & usings & reference & H1 & H2 & H3 & H4 & RE).
  exists t, types, usings, reference. eexists. split; [exact H1|]. split; [exact H3|]. split; [exact RE|].
  split; [exact H4|]. intros K R.
  eapply file_reads; [exact W|exact NE| | |apply csharp_reads; exact H2| |apply spread_block; [exact W|exact NE|apply spread_program; assumption]|exact R].
  - apply (literal_begins c_family_char). apply (literal_form csharp_lang); try reflexivity. exact H2.
  - reflexivity.
  - apply spread_lines. intros m. apply spread_text.
Qed.
Print Assumptions C90_csharp_namespace_tokens.

(** ** Java *)
Definition java_units (v : str) : str := match java_translate SpecLex.JEven (flat_map java_char v) with Some u => u | None => [] end.
Definition java_translated (v : str) : str := 34%N :: java_units v ++ [34%N].
Lemma java_units_ok v : valid v ->
  (forall r, java_translate SpecLex.JEven (flat_map java_char v ++ r) = option_map (app (java_units v)) (java_translate SpecLex.JEven r)) /\
  (forall r, lex java_grammar MText (java_units v ++ r) = SpecLex.emit (flat_map (fun c => utf16_units (java_fix c)) v) (lex java_grammar MText r)).
Proof.
  intros V. destruct (java_text_ok v V) as (u & H1 & H2).
  assert (E : java_units v = u). { unfold java_units. specialize (H1 []). rewrite app_nil_r in H1. rewrite H1. cbn. apply app_nil_r. }
  rewrite E. auto.
Qed.
Lemma java_fix_id s : ~ In 7%N s -> ~ In 20%N s -> map java_fix s = s.
Proof.
  intros H1 H2. rewrite <- (map_id s) at 2. apply map_ext_in. intros c Hc. unfold java_fix.
  destruct (N.eqb_spec c 7) as [->|]; [tauto|]. destruct (N.eqb_spec c 20) as [->|]; [tauto|auto].
Qed.
Lemma java_reads v rest : java_good v -> read_literal java_grammar (java_translated v ++ rest) = Some (utf16 v, rest).
Proof.
  intros (V & A & B). destruct (java_units_ok v V) as [_ H]. unfold java_translated. cbn [app]. rewrite <- app_assoc. cbn [app].
  apply (read_quoted java_grammar (java_units v) (utf16 v)); [reflexivity|]. intros rest' ->. rewrite H. unfold utf16. rewrite <- (java_fix_id v A B) at 2. rewrite flat_map_map. reflexivity.
Qed.
Lemma translate_plain s r : Forall (fun c => c <> 92 /\ c < 65536)%N s ->
  java_translate SpecLex.JEven (s ++ r) = option_map (app s) (java_translate SpecLex.JEven r).
Proof.
  induction 1 as [|c s [H1 H2] _ IH]; cbn [app]; [destruct (java_translate _ r); reflexivity|].
  rewrite translate_raw by auto. rewrite raw_units by auto. rewrite IH. destruct (java_translate _ r); reflexivity.
Qed.
Lemma white_plain b : all_white b -> Forall (fun c => c <> 92 /\ c < 65536)%N b.
Proof. apply Forall_impl. intros c H. unfold is_white in H. cbn in H. lia. Qed.
Lemma spread_translate lit (form : forall s, lit s = 34%N :: flat_map java_char s ++ [34%N]) l t : spread lit l t -> untranslated l ->
  (forall v, In (StringOf v) l -> valid v) -> exists u, (forall r, java_translate SpecLex.JEven (t ++ r) = option_map (app u) (java_translate SpecLex.JEven r)) /\ spread java_translated l u.
Proof.
  induction 1 as [|b l t B N _ IH|s l t _ IH|v l t _ IH]; intros U V.
  - exists []. split; [intros r; cbn; destruct (java_translate _ r); reflexivity|constructor].
  - destruct IH as (u & T & S); [intros s Hs; apply U; right; exact Hs|intros v Hv; apply V; right; exact Hv|].
    exists (b ++ u). split; [|constructor; assumption]. intros r. rewrite <- app_assoc, (translate_plain b _ (white_plain b B)), T. destruct (java_translate _ r); cbn; rewrite ?app_assoc; reflexivity.
  - destruct IH as (u & T & S); [intros s' Hs; apply U; right; exact Hs|intros v Hv; apply V; right; exact Hv|].
    exists (s ++ u). split; [|constructor; assumption]. intros r. rewrite <- app_assoc, translate_plain by (apply U; left; reflexivity). rewrite T. destruct (java_translate _ r); cbn; rewrite ?app_assoc; reflexivity.
  - destruct IH as (u & T & S); [intros s' Hs; apply U; right; exact Hs|intros v' Hv; apply V; right; exact Hv|].
    exists (java_translated v ++ u). split; [|constructor; assumption]. destruct (java_units_ok v (V v (or_introl eq_refl))) as [H _].
    intros r. rewrite form. unfold java_translated. cbn [app]. rewrite <- !app_assoc. cbn [app]. rewrite translate_raw by discriminate. rewrite H, translate_raw by discriminate. rewrite T.
    destruct (java_translate _ r); cbn; rewrite <- ?app_assoc; reflexivity.
Qed.
Lemma read_good g good value l K : parts_read g good value l K -> forall v, In (StringOf v) l -> good v.
Proof.
  induction 1 as [|l K _ IH|s l K1 K O _ IH|s s' l K _ IH|v l K V _ IH]; intros x H.
  - destruct H.
  - destruct H as [H|H]; [discriminate|auto].
  - destruct H as [H|H]; [discriminate|auto].
  - destruct H as [H|[H|H]]; [discriminate|discriminate|]. apply IH. right. exact H.
  - destruct H as [H|H]; [injection H as <-; exact V|auto].
Qed.
(** What Java reads after its translation of Unicode escapes. *)
Theorem C90_java_tokens : forall E cfg package (qs : list (quoted_item java_import E)) e l e' (declared : str -> str -> Prop),
  all_white (c_newline cfg) -> c_newline cfg <> [] -> quotes_program qs e l e' ->
  opt_named package -> Forall java_words (program_imports l) ->
  exists t keys reference file, quote qs e = Some (e', t) /\ java_listed package (program_imports l) keys /\
    (forall i, In i (program_imports l) -> let q := content (ja_package i) in let n := content (ja_name i) in
      exists w, reference i = written_text w /\
      (java_denotes declared (option_map content package) (java_text_keys keys) w q n <->
       declared q n /\
       (java_own package (ja_package i) ->
          (forall j, In j (program_imports l) -> ~ java_own package (ja_package j) -> content (ja_name j) <> n) /\
          (forall o, option_map content package = Some o -> o <> q -> ~ declared o n)))) /\
    file_renders java_lang cfg package t file /\
    let parts := file_parts (package_parts (option_map (fun p => text_parts (java_package_line p)) package)
                               (map (fun k => text_parts (java_line k)) keys)) (program_parts reference l) in
    forall K, untranslated parts -> parts_read java_grammar java_good utf16 parts K ->
      exists u, java_translate SpecLex.JEven file = Some u /\ read_code java_grammar u = Some K.
Proof.
  intros E cfg package qs e l e' declared W NE Q NP V.
  destruct (C87_java_file E cfg package qs e l e' declared Q NP V) as (t & lit & keys & reference & H1 & H2 & H3 & H4 & RE).
  exists t, keys, reference. eexists. split; [exact H1|]. split; [exact H3|]. split; [exact RE|]. split; [exact H4|]. intros parts K U R.
  assert (X := literal_form java_lang java_char lit eq_refl eq_refl ltac:(reflexivity) H2).
  destruct (spread_file lit (c_newline cfg) W NE
    (package_parts (option_map (fun p => text_parts (java_package_line p)) package) (map (fun k => text_parts (java_line k)) keys))
    (package_then (option_map java_package_line package) (map java_line keys))
    (program_parts reference l) (program_text (c_newline cfg) (c_indentation cfg) lit reference 0 l)) as (out & tail & EQ & B & SP).
  { assert (S : Forall2 (spread lit) (map (fun k => text_parts (java_line k)) keys) (map java_line keys)).
    { apply spread_lines. intros k. apply spread_text. }
    destruct package as [p|]; [|exact S]. apply spread_package; [apply spread_text|exact S]. }
  { apply spread_program; assumption. }
  fold parts in SP. destruct (spread_translate lit X _ _ SP U) as (u & T & S).
  { intros v Hv. apply (read_good _ _ _ _ _ R v Hv). }
  exists (u ++ tail). rewrite EQ. split.
  - rewrite T. rewrite <- (app_nil_r tail), (translate_plain tail [] (white_plain tail B)). cbn. rewrite app_nil_r. reflexivity.
  - assert (LQ : forall v, exists r, java_translated v = 34%N :: r) by (intros v; unfold java_translated; eauto).
    destruct (spread_read java_translated LQ java_grammar java_good utf16 ltac:(reflexivity) java_reads _ K R _ S) as (L & C & M).
    rewrite (consists_code _ _ _ (consists_tail_in java_grammar ltac:(reflexivity) _ _ _ C B)), M. reflexivity.
Qed.
Print Assumptions C90_java_tokens.

(** ** Examples *)
Ltac over_at g := match goal with
  | |- reads_over _ [] _ [] => apply over_end
  | |- reads_over _ (?c :: _) _ _ => apply over_white; [vm_compute; reflexivity|]
  | |- reads_over _ ?v ?r (?k :: ?K) =>
      let o := eval vm_compute in (read_token g (v ++ r)) in
      match o with Some (k, ?t) =>
        let n := eval vm_compute in (length v + length r - length t) in
        let w := eval vm_compute in (firstn n v) in let v' := eval vm_compute in (skipn n v) in
        apply (over_token _ w v' r k K); [discriminate|vm_compute; reflexivity|] end
  end.
Ltac chars_at g n := match goal with |- parts_read _ _ _ (Chars _ :: _) ?K =>
  let a := eval vm_compute in (firstn n K) in let b := eval vm_compute in (skipn n K) in
  change K with (a ++ b); apply read_chars; [solve [repeat over_at g]|] end.
Ltac fits_here := repeat match goal with E0 : _ :: _ = ?before ++ _ :: _ |- _ => destruct before as [|? before]; [injection E0 as <- _|injection E0 as <- E0] end; try congruence.
Section DartExample.
Let path_join := mk_dart (Static $"package:path/path.dart") (Static $"join") (Some (Static $"p")).
(** [main() {
       return $join("a$b", x);
     }] with the quoted string [a$b] *)
Definition d_words : list (str * str * (piece dart_import * (cursor -> quoted_item dart_import nat))) :=
  [word_ [] $"main"; word_ [] $"("; word_ [] $")"; word_ $" " $"{";
   word_ ([10%N] ++ $"  ") $"return"; value_ $" " $"$join" (ReferenceTo path_join) (fun e => (VLang path_join, S e)); word_ [] $"(";
   literal_ [] $"$[str](a)" $"a$b"; word_ [] $","; word_ $" " $"x"; word_ [] $")"; word_ [] $";";
   word_ [10%N] $"}"].
Definition d_program : program dart_import := laid_program (mk_pos 4 0) d_words.
Definition d_keys : list (item_str * option item_str) := [(Static $"package:path/path.dart", Some (Static $"p"))].
Definition d_parts : list stretch :=
  file_parts (map dart_parts d_keys) (program_parts (fun i => dart_written (option_map content (da_alias i)) (content (da_name i))) d_program).
Definition d_tokens : list token :=
  [WName $"import"; WString $"package:path/path.dart"; WName $"as"; WName $"p"; WPunct 59 false;
   WName $"main"; WOpen Parenthesis; WClose Parenthesis; WOpen Brace;
   WName $"return"; WName $"p"; WPunct 46 false; WName $"join"; WOpen Parenthesis; WString $"a$b"; WPunct 44 false; WName $"x"; WClose Parenthesis; WPunct 59 false;
   WClose Brace].
Example C90_hypotheses : quotes_program (laid_quote (mk_pos 4 0) d_words) 0 d_program 1 /\
  Forall dart_words (program_imports d_program) /\ dart_listed (program_imports d_program) d_keys /\
  parts_read dart_grammar dart_good utf16 d_parts d_tokens.
Proof.
  split; [|split; [|split]].
  - assert (L : line_starts (map fst d_program) = [0; 2; 0]) by (vm_compute; reflexivity).
    apply laid_quotes; [repeat constructor; discriminate| | |apply flat_fit; vm_compute; reflexivity].
    + intros before c after E0 N. fold d_program in E0. rewrite L in E0. clear L. fits_here.
      * left. cbn. lia.
      * right. exists [], [2]. split; [reflexivity|repeat constructor; lia].
      * destruct before; discriminate.
    + do 5 (eapply all_stand_next; [constructor|]). eapply all_stand_next; [eapply stands_import; reflexivity|].
      do 7 (eapply all_stand_next; [constructor|]). apply all_stand_end.
  - repeat constructor; discriminate.
  - split; [repeat constructor|]. intros path alias. split.
    + intros [H|[]]. injection H as <- <-. split; [discriminate|]. exists path_join. split; [left; reflexivity|split; reflexivity].
    + intros (_ & i & [<-|[]] & <- & <-). left. reflexivity.
  - let x := eval vm_compute in d_parts in change d_parts with x.
    let x := eval vm_compute in d_tokens in change d_tokens with x.
    repeat first [apply read_gap | apply read_end
      | match goal with |- parts_read _ _ _ (StringOf ?v :: _) (WString _ :: ?K) => apply (read_string dart_grammar dart_good utf16 v _ K);
          [split; [repeat constructor; unfold scalar; lia|split; cbn; lia]|] end
      | chars_at dart_grammar 1 | apply read_joined; chars_at dart_grammar 1 | chars_at dart_grammar 3 | chars_at dart_grammar 0].
Qed.
Example C90_file :
  option_map (fun '(_, t) => outcome (format_file dart_lang string_writer ex_cfg t tt (formatter_new []))) (quote (laid_quote (mk_pos 4 0) d_words) 0) = Some ($"import ""package:path/path.dart"" as p;

main() {
    return p.join(""a\$b"", x);
}
", true) /\
  read_code dart_grammar $"import ""package:path/path.dart"" as p;

main() {
    return p.join(""a\$b"", x);
}
" = Some d_tokens.
Proof. split; vm_compute; reflexivity. Qed.
End DartExample.
