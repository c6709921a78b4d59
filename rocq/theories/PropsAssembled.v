(** * Properties of the files of programs assembled from quotes (C87).

    A program is quoted with other quoted code in it: values, imports, string literals,
    quoted streams, conditions, matches and loops with separators.  The text of the
    file is given character by character: the header for the imports of all parts, in
    order, and each part at the level of the line it stands in.

    Vocabulary: [SpecAssembled.v], and as for C86. *)
From Verif Require Import Str SpecStr StrFacts Quote SpecLex LexFacts QuoteFacts Tokens SpecTokens TokensRun Values Fmt SpecFmt RenderFacts StringFacts
  SpecLang SpecResolve LangBase LangC LangSwift LangGo LangDart LangJava LangCsharp LangJs SpecJs JsFacts LangPython SpecPython PythonFacts LangNix SpecNix
  HeaderFacts FileFacts ImportFacts JavaFacts CsharpFacts BlockFacts Macro SpecMacro SpecWords SpecReread SpecFile PropsQuote PropsReread PropsLang PropsNames PropsJs PropsNix PropsResolve PropsClash SpecWhole WholeFacts
  LangRust SpecRust RustFacts SpecProgram PropsProgram PropsWhole SpecAssembled AssembledFacts.

Lemma file_agree {LI C F} (L : lang_def LI C F) cfg (c : C) t header lit lit' (ref ref' : LI -> str) (l : program LI) body :
  (forall v, lit v = lit' v) -> (forall i, In i (program_imports l) -> ref i = ref' i) ->
  body = program_text (c_newline cfg) (c_indentation cfg) lit ref 0 l ->
  file_renders L cfg c t (file_text (c_newline cfg) header body) ->
  is_file L cfg c t header lit' ref' l.
Proof. intros H1 H2 -> R. unfold is_file. rewrite <- (program_agree _ _ lit lit' ref ref' H1 0 l H2). exact R. Qed.

(** ** C *)
Theorem C87_c_file : forall E cfg (qs : list (quoted_item c_import E)) e l e',
  quotes_program qs e l e' ->
  Forall c_words (program_imports l) ->
  exists t literal keys, quote qs e = Some (e', t) /\ literal_of c_lang literal /\ c_listed (program_imports l) keys /\
    is_file c_lang cfg tt t (map (c_line literal) keys) literal (fun i => content (c_item i)) l.
Proof.
  intros E cfg qs e l e' Q V.
  destruct (assembled_body c_lang cfg tt tt eq_refl eq_refl qs e l e' Q) as (t & cs & body & Q' & -> & U & HB & B).
  { eapply Forall_impl; [|exact V]. intros i [_ H]. apply visible_one. exact H. }
  destruct (C36_c_includes cfg cs body) as (lit & keys & HL & S & K & R).
  { rewrite U. eapply Forall_impl; [|exact V]. intros i H. apply H. } { exact B. }
  rewrite U in K. exists (build cs), lit, keys. split; [exact Q'|]. split; [exact HL|]. split; [split; assumption|].
  eapply file_agree; [| |exact HB|exact R].
  - eapply literal_unique; [|exact HL]. lit_ok.
  - intros i _. apply (text_of_reference c_lang cfg tt tt). apply C36_c_reference.
Qed.
Print Assumptions C87_c_file.

(** ** Swift *)
Theorem C87_swift_file : forall E cfg (qs : list (quoted_item swift_import E)) e l e' (declared : str -> str -> Prop),
  quotes_program qs e l e' ->
  Forall swift_words (program_imports l) ->
  exists t literal keys, quote qs e = Some (e', t) /\ literal_of swift_lang literal /\ swift_listed (program_imports l) keys /\
    is_file swift_lang cfg tt t (map swift_line keys) literal (fun i => content (sw_name i)) l /\
    forall i, In i (program_imports l) ->
      (swift_denotes declared (map content keys) (content (sw_name i)) (content (sw_module i)) <->
       declared (content (sw_module i)) (content (sw_name i)) /\
       forall j, In j (program_imports l) -> declared (content (sw_module j)) (content (sw_name i)) ->
         content (sw_module j) = content (sw_module i)).
Proof.
  intros E cfg qs e l e' declared Q V.
  destruct (assembled_body swift_lang cfg tt tt eq_refl eq_refl qs e l e' Q) as (t & cs & body & Q' & -> & U & HB & B).
  { eapply Forall_impl; [|exact V]. intros i [_ H]. apply visible_one. exact H. }
  destruct (C66_swift_resolution_exact cfg cs body declared) as (keys & S & K & R & RE).
  { rewrite U. eapply Forall_impl; [|exact V]. intros i H. apply H. } { exact B. }
  rewrite U in K, RE. exists (build cs), (written_literal (ld_ops swift_lang tt tt)), keys. split; [exact Q'|]. split; [lit_ok|]. split; [split; assumption|].
  split.
  - eapply file_agree; [reflexivity| |exact HB|exact R].
    intros i Hi. apply (text_of_reference swift_lang cfg tt tt). apply RE. exact Hi.
  - intros i Hi. apply RE. exact Hi.
Qed.
Print Assumptions C87_swift_file.

(** ** Go *)
Theorem C87_go_file : forall E cfg package (qs : list (quoted_item go_import E)) e l e' (package_of : str -> str),
  quotes_program qs e l e' ->
  opt_named package -> Forall go_words (program_imports l) ->
  exists t literal keys reference, quote qs e = Some (e', t) /\ literal_of go_lang literal /\ go_listed (program_imports l) keys /\
    is_file go_lang cfg package t
      (package_then (option_map go_package_line package) (map (go_line literal) keys)) literal reference l /\
    forall i, In i (program_imports l) ->
      (exists x, last_segment $"/" (content (go_module i)) x /\ reference i = x ++ $"." ++ content (go_name i)) /\
      (go_denotes package_of (map content keys) (reference i) (content (go_module i)) (content (go_name i)) <->
       last_segment $"/" (content (go_module i)) (package_of (content (go_module i))) /\
       forall j, In j (program_imports l) ->
         package_of (content (go_module j)) = package_of (content (go_module i)) -> go_module j = go_module i).
Proof.
  intros E cfg package qs e l e' package_of Q NP V.
  destruct (assembled_body go_lang cfg package tt eq_refl eq_refl qs e l e' Q) as (t & cs & body & Q' & -> & U & HB & B).
  { eapply Forall_impl; [|exact V]. intros i (_ & H1 & H2). apply visible_three; [|exact H1]. intros X. apply H2. rewrite <- X. apply after_last_sep_spec. discriminate. }
  destruct (C64_go_resolution_exact cfg package cs body package_of NP) as (lit & keys & HL & S & K & R & RE).
  { rewrite U. eapply Forall_impl; [|exact V]. intros i H. apply H. } { exact B. }
  rewrite U in K, RE. exists (build cs), lit, keys, (ref_text go_lang package tt). split; [exact Q'|]. split; [exact HL|]. split; [split; assumption|].
  split.
  - eapply file_agree; [|reflexivity|exact HB|exact R]. eapply literal_unique; [|exact HL]. lit_ok.
  - intros i Hi. destruct (RE i Hi) as (w & RW & EX). rewrite (text_of_reference go_lang cfg package tt i w RW). split; [|exact EX].
    destruct (C39_go_reference cfg package i) as (x & LX & RX). exists x. split; [exact LX|]. eapply renders_unique; eauto.
Qed.
Print Assumptions C87_go_file.

(** ** Dart *)
Theorem C87_dart_file : forall E cfg (qs : list (quoted_item dart_import E)) e l e' (declared : str -> str -> Prop),
  quotes_program qs e l e' ->
  Forall dart_words (program_imports l) ->
  exists t literal keys, quote qs e = Some (e', t) /\ literal_of dart_lang literal /\ dart_listed (program_imports l) keys /\
    is_file dart_lang cfg tt t (map (dart_line literal) keys) literal
      (fun i => dart_written (option_map content (da_alias i)) (content (da_name i))) l /\
    forall i, In i (program_imports l) ->
      let path := content (da_path i) in let name := content (da_name i) in
      (dart_denotes declared (map dart_texts keys) (option_map content (da_alias i)) name path <->
       declared path name /\
       (path = $"dart:core" -> da_alias i = None) /\
       (forall j, In j (program_imports l) -> content (da_path j) <> $"dart:core" ->
          option_map content (da_alias j) = option_map content (da_alias i) ->
          declared (content (da_path j)) name ->
          content (da_path j) = path \/ dart_system (content (da_path j)) /\ ~ dart_system path) /\
       (da_alias i = None -> declared $"dart:core" name -> path = $"dart:core" \/ ~ dart_system path)).
Proof.
  intros E cfg qs e l e' declared Q V.
  destruct (assembled_body dart_lang cfg tt tt eq_refl eq_refl qs e l e' Q) as (t & cs & body & Q' & -> & U & HB & B).
  { eapply Forall_impl; [|exact V]. intros i (H1 & H2). cbn. unfold dart_format_item. destruct (da_alias i); [apply (visible_three (content i0) dart_sep (content (da_name i)) H2 H1)|apply visible_one; exact H1]. }
  destruct (C65_dart_resolution_exact cfg cs body declared) as (lit & keys & HL & S & K & R & RE).
  { rewrite U. eapply Forall_impl; [|exact V]. intros i H. apply H. } { exact B. }
  rewrite U in K, RE. exists (build cs), lit, keys. split; [exact Q'|]. split; [exact HL|]. split; [split; assumption|].
  split.
  - eapply file_agree; [| |exact HB|exact R]. { eapply literal_unique; [|exact HL]. lit_ok. }
    intros i Hi. apply (text_of_reference dart_lang cfg tt tt). apply RE. exact Hi.
  - intros i Hi. apply RE. exact Hi.
Qed.
Print Assumptions C87_dart_file.

(** ** Java *)
Theorem C87_java_file : forall E cfg package (qs : list (quoted_item java_import E)) e l e' (declared : str -> str -> Prop),
  quotes_program qs e l e' ->
  opt_named package -> Forall java_words (program_imports l) ->
  exists t literal keys reference, quote qs e = Some (e', t) /\ literal_of java_lang literal /\ java_listed package (program_imports l) keys /\
    is_file java_lang cfg package t
      (package_then (option_map java_package_line package) (map java_line keys)) literal reference l /\
    forall i, In i (program_imports l) -> let q := content (ja_package i) in let n := content (ja_name i) in
      exists w, reference i = written_text w /\
      (java_denotes declared (option_map content package) (java_text_keys keys) w q n <->
       declared q n /\
       (java_own package (ja_package i) ->
          (forall j, In j (program_imports l) -> ~ java_own package (ja_package j) -> content (ja_name j) <> n) /\
          (forall o, option_map content package = Some o -> o <> q -> ~ declared o n))).
Proof.
  intros E cfg package qs e l e' declared Q NP V.
  assert (VI : forall f, Forall (fun i => visible_ends (texts (l_format_item (ld_ops java_lang package f) i))) (program_imports l)).
  { intros f. eapply Forall_impl; [|exact V]. intros i (H1 & H2). cbn. unfold java_format_item. destruct (_ && _)%bool; [apply visible_three|apply visible_one]; assumption. }
  destruct (assembled_body java_lang cfg package [] eq_refl eq_refl qs e l e' Q (VI [])) as (t & cs & _ & Q' & -> & U & _).
  destruct (C40_java_resolution_exact cfg package cs declared NP) as (keys & f & S & K & RE & R).
  { rewrite U. exact V. }
  rewrite U in K, RE.
  destruct (assembled_body java_lang cfg package f eq_refl eq_refl qs e l e' Q (VI f)) as (t & cs' & body & Q2 & _ & _ & HB & B).
  rewrite Q' in Q2. injection Q2 as <-.
  exists (build cs), (written_literal (ld_ops java_lang package f)), keys, (ref_text java_lang package f). split; [exact Q'|].
  split; [lit_ok|]. split; [split; assumption|]. split; [eapply file_agree; [reflexivity|reflexivity|exact HB|apply R; exact B]|].
  intros i Hi q n. destruct (RE i Hi) as (w & RW & EX). exists w. split; [|exact EX]. apply (text_of_reference java_lang cfg package f i). exact RW.
Qed.
Print Assumptions C87_java_file.

(** ** C#, for files without a namespace of their own *)
Theorem C87_csharp_file : forall E cfg (qs : list (quoted_item cs_import E)) e l e' (declared : str -> str -> Prop),
  quotes_program qs e l e' ->
  Forall csharp_words (program_imports l) ->
  exists t literal types usings reference, quote qs e = Some (e', t) /\ literal_of csharp_lang literal /\ csharp_listed (program_imports l) types usings /\
    is_file csharp_lang cfg None t (map cs_line usings) literal reference l /\
    forall i, In i (program_imports l) -> let ns := content (cs_namespace i) in let n := content (cs_name i) in
      exists w, reference i = written_text w /\
      (cs_denotes declared None usings w ns n <->
       declared ns n /\
       (cs_qualified i = false -> In (ns, n) types -> forall m, In m usings -> declared m n -> m = ns)).
Proof.
  intros E cfg qs e l e' declared Q V.
  assert (VI : forall f, Forall (fun i => visible_ends (texts (l_format_item (ld_ops csharp_lang None f) i))) (program_imports l)).
  { intros f. eapply Forall_impl; [|exact V]. intros i (H1 & H2). cbn. unfold cs_format_item. destruct (_ || _)%bool; [apply visible_three|apply visible_one]; assumption. }
  destruct (assembled_body csharp_lang cfg None (ld_default_format csharp_lang) eq_refl eq_refl qs e l e' Q (VI _)) as (t & cs & _ & Q' & -> & U & _).
  destruct (C37_csharp_resolution_exact cfg None cs declared) as (types & usings & f & T & S & K & RE & R).
  { rewrite U. eapply Forall_impl; [|exact V]. intros i H. apply H. }
  rewrite U in T, RE.
  destruct (assembled_body csharp_lang cfg None f eq_refl eq_refl qs e l e' Q (VI f)) as (t & cs' & body & Q2 & _ & _ & HB & B).
  rewrite Q' in Q2. injection Q2 as <-.
  exists (build cs), (written_literal (ld_ops csharp_lang None f)), types, usings, (ref_text csharp_lang None f). split; [exact Q'|].
  split; [lit_ok|]. split.
  { split; [|split; assumption]. intros k. etransitivity; [apply T|]. unfold first_named. cbn. 
    split; intros (H1 & _ & H3); (split; [exact H1|]); (split; [first [exact I|discriminate]|]); intros k' K1 _; apply H3; auto; discriminate. }
  split; [eapply file_agree; [reflexivity|reflexivity|exact HB|apply R; [reflexivity|exact B]]|].
  intros i Hi ns n. destruct (RE i Hi) as (w & RW & EX). exists w. split; [apply (text_of_reference csharp_lang cfg None f i); exact RW|].
  etransitivity; [exact EX|]. split; intros [H1 H2]; (split; [exact H1|]).
  - intros Q1 IN. apply H2; auto. discriminate.
  - intros Q1 _ IN. split; [intros m; discriminate|]. apply H2; auto.
Qed.
Print Assumptions C87_csharp_file.

(** ** C#, for files with a namespace *)
Lemma shown_namespaced {E} cfg ns f (qs : list (quoted_item cs_import E)) e l e' t :
  quotes_program qs e l e' -> whole l -> quote qs e = Some (e', t) ->
  Forall (fun i => visible_ends (texts (l_format_item (ld_ops csharp_lang (Some ns) f) i))) (program_imports l) ->
  exists doc, items t = doc_items doc /\ doc_ok doc = true /\ 
    visible_ends (doc_atoms (ld_ops csharp_lang (Some ns) f) cfg doc) /\ net (doc_atoms (ld_ops csharp_lang (Some ns) f) cfg doc) = 0%Z /\
    text (c_newline cfg) (layout_from (c_indentation cfg) false 1 [] (doc_atoms (ld_ops csharp_lang (Some ns) f) cfg doc)) =
    program_text (c_newline cfg) (c_indentation cfg) (written_literal (ld_ops csharp_lang (Some ns) f))
      (fun i => concat (l_format_item (ld_ops csharp_lang (Some ns) f) i)) 1 l.
Proof.
  intros P [NE W] Q V. destruct (@assembled cs_import E (ld_ops csharp_lang (Some ns) f) cfg eq_refl eq_refl) as (_ & _ & _ & AS & _).
  destruct (AS qs e l e' P NE V) as (doc & (((t' & Q' & IT) & _) & DO & VI & _) & OL & TX & _).
  rewrite Q in Q'. injection Q' as <-. rewrite W in OL. exists doc. split; [|split; [exact DO|split; [exact VI|split; [exact OL|]]]].
  - rewrite IT, OL. apply app_nil_r.
  - exact (TX 1).
Qed.
Theorem C87_csharp_namespace_file : forall E cfg namespace (qs : list (quoted_item cs_import E)) e l e' (declared : str -> str -> Prop),
  named namespace -> quotes_program qs e l e' -> whole l ->
  Forall csharp_words (program_imports l) ->
  exists t literal types usings reference, quote qs e = Some (e', t) /\ literal_of csharp_lang literal /\
    csharp_listed_in (content namespace) (program_imports l) types usings /\
    file_renders csharp_lang cfg (Some namespace) t
      (file_text (c_newline cfg) (map cs_line usings)
         (csharp_block (c_newline cfg) (c_indentation cfg) (content namespace)
            (program_text (c_newline cfg) (c_indentation cfg) literal reference 1 l))) /\
    forall i, In i (program_imports l) -> let ns := content (cs_namespace i) in let n := content (cs_name i) in
      exists w, reference i = written_text w /\
      (cs_denotes declared (Some (content namespace)) usings w ns n <->
       declared ns n /\
       (cs_qualified i = false -> ns <> content namespace -> In (ns, n) types ->
        ~ declared (content namespace) n /\ forall m, In m usings -> declared m n -> m = ns)).
Proof.
  intros E cfg own qs e l e' declared NN Q WH V.
  assert (VI : forall f, Forall (fun i => visible_ends (texts (l_format_item (ld_ops csharp_lang (Some own) f) i))) (program_imports l)).
  { intros f. eapply Forall_impl; [|exact V]. intros i (H1 & H2). cbn. unfold cs_format_item. destruct (_ || _)%bool; [apply visible_three|apply visible_one]; assumption. }
  destruct (assembled_body csharp_lang cfg (Some own) (ld_default_format csharp_lang) eq_refl eq_refl qs e l e' Q (VI _)) as (t & cs & _ & Q' & -> & U & _).
  assert (N : Forall (fun i => named (cs_namespace i)) (uses (build cs))).
  { rewrite U. eapply Forall_impl; [|exact V]. intros i H. apply H. }
  pose proof (csharp_resolution_values cfg (Some own) cs declared N) as RV. cbv zeta in RV.
  set (f := cs_format (Some own) (build cs)) in *. set (types := cs_chosen (Some own) (build cs)) in *. set (usings := cs_usings (Some own) (build cs)) in *.
  destruct RV as (T & S & K & RE & _). rewrite U in T, RE.
  destruct (shown_namespaced cfg own f qs e l e' _ Q WH Q' (VI f)) as (doc & IT & DO & VE & NT & TX).
  exists (build cs), (written_literal (ld_ops csharp_lang (Some own) f)), types, usings, (ref_text csharp_lang (Some own) f). split; [exact Q'|].
  split; [lit_ok|]. split.
  { split; [|split; assumption]. intros k. etransitivity; [apply T|]. unfold first_named. cbn [option_map].
    assert (EQ : forall x : str * str, Some (content own) <> Some (fst x) <-> fst x <> content own) by (intros x; split; [intros H1 H2; apply H1; f_equal; auto|intros H1 [= H2]; auto]).
    split; intros (H1 & H2 & H3); (split; [exact H1|]); (split; [apply EQ; exact H2|]); intros k' K1 K2; apply H3; auto; apply EQ; exact K2. }
  split.
  { pose proof (cs_block_text cfg own cs doc NN N IT DO VE NT) as FR. cbv zeta in FR. fold f in FR. rewrite TX in FR.
    unfold csharp_block. change (fun i : cs_import => concat (l_format_item (ld_ops csharp_lang (Some own) f) i)) with (ref_text csharp_lang (Some own) f) in FR.
    rewrite <- !app_assoc in FR. exact FR. }
  intros i Hi ns n. destruct (RE i Hi) as (w & RW & EX). exists w. split; [apply (text_of_reference csharp_lang cfg (Some own) f i); exact RW|].
  etransitivity; [exact EX|]. cbn [option_map]. split; intros [H1 H2]; (split; [exact H1|]); intros Q1 Q2 IN.
  - destruct (H2 Q1) as [H3 H4]; [intros [= X]; auto|exact IN|]. split; [apply H3; reflexivity|exact H4].
  - destruct (H2 Q1) as [H3 H4]; [intros X; apply Q2; f_equal; auto|exact IN|]. split; [intros m [= <-]; exact H3|exact H4].
Qed.
Print Assumptions C87_csharp_namespace_file.

(** ** JavaScript *)
Theorem C87_js_file : forall E relative cfg module_path (qs : list (quoted_item js_import E)) e l e',
  quotes_program qs e l e' ->
  Forall js_words (program_imports l) -> Forall js_made (program_imports l) ->
  exists t literal wildcards modules, quote qs e = Some (e', t) /\ literal_of (js_lang relative) literal /\ js_listed (program_imports l) wildcards modules /\
    is_file (js_lang relative) cfg module_path t
      (map (js_wildcard_line literal (js_specifier relative module_path)) wildcards ++
       map (js_module_line literal (js_specifier relative module_path)) modules) literal (fun i => fst (js_needs i)) l /\
    forall i, In i (program_imports l) ->
      (js_denotes (js_header_binds wildcards modules) (fst (js_needs i)) (snd (js_needs i)) <->
       exists j, js_kept (program_imports l) j /\ js_needs j = js_needs i /\
         forall k, js_kept (program_imports l) k -> fst (js_needs k) = fst (js_needs i) -> k = j).
Proof.
  intros E relative cfg mp qs e l e' Q V M.
  destruct (assembled_body (js_lang relative) cfg mp tt eq_refl eq_refl qs e l e' Q) as (t & cs & body & Q' & -> & U & HB & B).
  { eapply Forall_impl; [|exact V]. intros i (H1 & H2). apply visible_one. destruct (js_import_kind i); [destruct (js_alias i)| |]; assumption. }
  destruct (C41_js_resolution_exact relative cfg mp cs body) as (wildcards & modules & J1 & J2 & J3 & J4 & J5 & R & RE).
  { rewrite U. exact V. } { rewrite U. exact M. } { exact B. }
  rewrite U in J2, J4, J5, RE. exists (build cs), (quoted_text js_ops), wildcards, modules. split; [exact Q'|]. split; [lit_ok|].
  split; [split; [assumption|split; [assumption|split; [assumption|split; [assumption|exact J5]]]]|].
  split.
  - eapply file_agree; [reflexivity| |exact HB|exact R].
    intros i Hi. apply (text_of_reference (js_lang relative) cfg mp tt). apply RE. exact Hi.
  - intros i Hi. apply RE. exact Hi.
Qed.
Print Assumptions C87_js_file.

(** ** Python *)
Theorem C87_python_file : forall E cfg (qs : list (quoted_item py_import E)) e l e',
  quotes_program qs e l e' ->
  Forall python_words (program_imports l) ->
  exists t literal froms modules reference, quote qs e = Some (e', t) /\ literal_of python_lang literal /\ python_listed (program_imports l) froms modules /\
    is_file python_lang cfg tt t (map py_from_line froms ++ map py_import_line modules) literal reference l /\
    forall i, In i (program_imports l) ->
      renders python_lang cfg tt tt (only i) (reference i) /\
      (py_denotes (py_header_binds froms modules) (reference i) (py_object i) <->
       exists j, In j (program_imports l) /\ fst (py_needs j) = py_root (reference i) /\
         (forall k, In k (program_imports l) -> fst (py_needs k) = py_root (reference i) ->
            py_spot_of k = py_spot_of j \/ py_spot_before (py_spot_of k) (py_spot_of j)) /\
         py_object i = snd (py_needs j) ++ py_rest (reference i)).
Proof.
  intros E cfg qs e l e' Q V.
  destruct (assembled_body python_lang cfg tt tt eq_refl eq_refl qs e l e' Q) as (t & cs & body & Q' & -> & U & HB & B).
  { eapply Forall_impl; [|exact V]. intros [[m|m [ma|]] n [a|]|m [a|]] H; cbn in H; repeat match goal with H : _ /\ _ |- _ => destruct H end;
      first [apply visible_one; assumption|apply (visible_three (content _) py_sep (content _)); assumption]. }
  destruct (C43_python_resolution_exact cfg cs body) as (froms & modules & J1 & J2 & J3 & J4 & J5 & R & RE).
  { rewrite U. eapply Forall_impl; [|exact V]. intros [[m|m ma] n a|m a] H; cbn in *; tauto. } { exact B. }
  rewrite U in J3, J5, RE. exists (build cs), (written_literal (ld_ops python_lang tt tt)), froms, modules, (ref_text python_lang tt tt).
  split; [exact Q'|]. split; [lit_ok|]. split; [split; [assumption|split; [assumption|split; [assumption|split; assumption]]]|].
  split; [eapply file_agree; [reflexivity|reflexivity|exact HB|exact R]|].
  intros i Hi. destruct (RE i Hi) as (x & RX & EX). rewrite (text_of_reference python_lang cfg tt tt i x RX). split; [exact RX|exact EX].
Qed.
Print Assumptions C87_python_file.

(** ** Nix *)
Theorem C87_nix_file : forall E cfg scoped (qs : list (quoted_item nix_import E)) e l e' (has : str -> str -> Prop),
  quotes_program qs e l e' ->
  Forall nix_made (program_imports l) ->
  (forall t, uses t = program_imports l -> (forall i, nix_used t i -> nix_named i) /\ nix_values_ok cfg scoped t) ->
  exists t literal arguments withs inherits (variables : list nix_var) lines,
    quote qs e = Some (e', t) /\ uses t = program_imports l /\ literal_of nix_lang literal /\ nix_listed t arguments withs inherits variables /\
    Forall2 (fun k ls => fst ls = fst k /\
       renders nix_lang cfg scoped tt (nix_value (fst (snd k)) (snd (snd k))) (stack (c_newline cfg) (snd ls))) variables lines /\
    (let ind := indent_text (c_indentation cfg) 1 in
     is_file nix_lang cfg scoped t
       (sections [if scoped then [] else nix_arguments_section ind arguments;
                  nix_withs_section withs;
                  nix_let_section ind inherits lines]) literal nix_name l) /\
    forall i, nix_used t i ->
      let free name := forall j, nix_used t j -> nix_binder j -> nix_name j <> name in
      let alone := forall j, nix_used t j -> nix_binder j -> nix_name j = nix_name i -> j = i in
      ((exists o, nix_means cfg scoped i o /\
          nix_denotes has scoped arguments withs (nix_lets inherits lines) (nix_name i) o) <->
       match i with
       | NArgument n => free (content n)
       | NInherit path _ => alone /\ forall r, nix_path_root (content path) r -> free r
       | NVariable _ _ _ => alone
       | NWith path n =>
           free (content n) /\ (forall r, nix_path_root (content path) r -> free r) /\
           (scoped = false -> forall j, nix_used t j -> ~ nix_needs_argument j (content n)) /\
           exists w m, In (NWith w m) (uses t) /\ content w = content path /\
             forall q m', In (NWith q m') (uses t) -> name_before w q -> content q <> content path ->
               ~ has (content q) (content n)
       end).
Proof.
  intros E cfg scoped qs e l e' has Q M V.
  assert (NA : Forall nix_named (program_imports l)).
  { assert (ES : uses (mk_tokens (rev (map (Lang 0) (program_imports l))) 0) = program_imports l).
    { unfold uses, imports_of, items. cbn [ritems]. rewrite rev_involutive. clear. induction (program_imports l) as [|x us IH]; [reflexivity|]. cbn. rewrite IH. reflexivity. }
    apply Forall_forall. intros i Hi. destruct (V _ ES) as [H _]. apply H. constructor. rewrite ES. exact Hi. }
  destruct (assembled_body nix_lang cfg scoped tt eq_refl eq_refl qs e l e' Q) as (t & cs & body & Q' & -> & U & HB & B).
  { eapply Forall_impl; [|exact NA]. intros [n|q n|n v k|q n] H; apply visible_one; first [exact H|apply H]. }
  destruct (V (build cs) U) as [V1 V2].
  destruct (C42_nix_resolution_exact cfg scoped cs body has) as (arguments & withs & inherits & variables & lines & LI & LV & R & RE).
  { rewrite U. exact M. } { exact V1. } { exact V2. } { exact B. }
  exists (build cs), (written_literal (ld_ops nix_lang scoped tt)), arguments, withs, inherits, variables, lines.
  split; [exact Q'|]. split; [exact U|]. split; [lit_ok|]. split; [exact LI|]. split; [exact LV|]. split.
  - eapply file_agree; [reflexivity| |exact HB|exact R].
    intros i Hi. apply (text_of_reference nix_lang cfg scoped tt). apply RE. constructor. rewrite U. exact Hi.
  - intros i Hi. apply RE. exact Hi.
Qed.
Print Assumptions C87_nix_file.

(** ** Rust *)
Theorem C87_rust_file : forall E mode cfg (qs : list (quoted_item rust_import E)) e l e',
  quotes_program qs e l e' -> Forall rust_names_ok (program_imports l) ->
  exists t literal mods reference, quote qs e = Some (e', t) /\ literal_of rust_lang literal /\
    sorted name_before (map fst mods) /\
    (forall m leaves, In (m, leaves) mods -> leaves <> [] /\ sorted (rust_leaf_before name_before) leaves) /\
    (forall m x, (exists leaves, In (m, leaves) mods /\ In x leaves) <->
       exists i, In i (program_imports l) /\ rust_asks mode i m x) /\
    is_file rust_lang cfg mode t (map rust_use_line mods) literal reference l /\
    forall i, In i (program_imports l) ->
      renders rust_lang cfg mode tt (only i) (reference i) /\
      (rust_denotes (rust_entries mods) (reference i) (rust_object i) <->
       (forall j m x q j' m' x' q', In j (program_imports l) -> In j' (program_imports l) ->
          rust_asks mode j m x -> rust_binds (m, x) (rust_root (reference i)) q ->
          rust_asks mode j' m' x' -> rust_binds (m', x') (rust_root (reference i)) q' -> (m, x) = (m', x')) /\
       (forall j m x q, In j (program_imports l) -> rust_asks mode j m x -> rust_binds (m, x) (rust_root (reference i)) q ->
          rust_object i = q ++ rust_rest (reference i))).
Proof.
  intros E mode cfg qs e l e' Q V.
  destruct (assembled_body rust_lang cfg mode tt eq_refl eq_refl qs e l e' Q) as (t & cs & body & Q' & -> & U & HB & [R CS]).
  { eapply Forall_impl; [|exact V]. intros i H. apply names_text. exact H. }
  exists (build cs), (written_literal (ld_ops rust_lang mode tt)), (rust_mods mode (build cs)), (ref_text rust_lang mode tt).
  split; [exact Q'|]. split; [lit_ok|].
  split; [eapply increasing_sorted; [apply name_before_cmp|apply rust_mods_sorted]|].
  split; [intros m leaves H; apply (rust_leaves_ok mode _ m leaves H)|].
  split; [intros m x; rewrite <- U; apply in_rust_mods|]. split.
  - eapply file_agree; [reflexivity|reflexivity|exact HB|]. apply rust_file; auto. rewrite U. eapply Forall_impl; [exact names_named|exact V].
  - intros i Hi. rewrite Forall_forall in V. destruct (rust_resolution cfg mode cs i) as (expr & RN & EX); [rewrite U; exact Hi|apply names_simple; auto|].
    rewrite (text_of_reference rust_lang cfg mode tt i expr RN). split; [exact RN|]. rewrite <- U. exact EX.
Qed.
Print Assumptions C87_rust_file.

(** ** Examples *)
Section Laid.
Context {LI : Type}.
(** Words with the white space in front of them, what they stand for and what they are
    to the macro, laid out from a position. *)
Notation entry := (str * str * (piece LI * (cursor -> quoted_item LI nat)))%type.
Fixpoint laid (p : pos) (ws : list entry) : list (cursor * (str * (piece LI * quoted_item LI nat))) :=
  match ws with
  | [] => []
  | (b, w, (x, q)) :: ws' => let at1 := advance p b in let c := mk_cursor at1 (advance at1 w) in (c, (w, (x, q c))) :: laid (c_end c) ws'
  end.
Definition laid_program p ws : program LI := map (fun '(c, (w, (x, _))) => (c, (w, x))) (laid p ws).
Definition laid_quote p ws : list (quoted_item LI nat) := map (fun '(_, (_, (_, q))) => q) (laid p ws).
Definition laid_text (ws : list entry) : str := flat_map (fun '(b, w, _) => b ++ w) ws.
Lemma laid_quotes ws p e e' : Forall (fun x : entry => all_white (fst (fst x)) /\ snd (fst x) <> []) ws -> starts_fit (map fst (laid_program p ws)) ->
  all_stand (all_tokens (laid_quote p ws)) e (laid_program p ws) e' -> ends_fit (laid_program p ws) -> quotes_program (laid_quote p ws) e (laid_program p ws) e'.
Proof.
  intros G FIT A EN. apply (quotes_words _ p (laid_text ws)); auto. clear FIT A EN.
  revert p. induction G as [|[[b w] [x q]] ws (W & NE) _ IH]; intros p; [apply written_end|].
  unfold laid_program in *. cbn [laid_text flat_map laid map fst snd]. rewrite <- app_assoc.
  apply written_blank; [exact W|]. apply written_token; [exact NE|]. apply IH.
Qed.
Lemma flat_fit (l : program LI) : forallb (fun y => piece_depth (snd (snd y)) =? 0) l = true -> ends_fit l.
Proof.
  intros H. destruct l as [|x l]; [exact I|]. unfold ends_fit. apply flat_ends. rewrite Forall_map, Forall_forall. intros y Y. cbn [snd].
  apply Nat.eqb_eq. rewrite forallb_forall in H. apply (H y Y).
Qed.
Definition word_ (b w : str) : entry := (b, w, (Itself, fun c => QText c w)).
Definition literal_ (b w v : str) : entry := (b, w, (LiteralOf v, fun c => QQuoted c v)).
Definition value_ (b w : str) (x : piece LI) (f : nat -> value LI * nat) : entry := (b, w, (x, fun c => QEval c f)).
End Laid.

Section JavaExample.
Let java_list := mk_java (Static $"java.util") (Static $"List").
Let java_integer := mk_java (Static $"java.lang") (Static $"Integer").
(** [$list<$int> x$f;], round [n] *)
Definition j_field (n : nat) : list (str * str * (piece java_import * (cursor -> quoted_item java_import nat))) :=
  [value_ [] $"$list" (ReferenceTo java_list) (fun e => (VLang java_list, e)); word_ [] $"<";
   value_ [] $"$int" (ReferenceTo java_integer) (fun e => (VLang java_integer, e)); word_ [] $">";
   word_ $" " $"x"; value_ [] $"$f" (TextOf (dec_z (Z.of_nat n))) (fun e => (VInt (Z.of_nat e), e)); word_ [] $";"].
(** [void m() {
      return $(quoted("a"));
    }] *)
Definition j_method : list (str * str * (piece java_import * (cursor -> quoted_item java_import nat))) :=
  [word_ [] $"void"; word_ $" " $"m"; word_ [] $"("; word_ [] $")"; word_ $" " $"{";
   word_ ([10%N] ++ $"      ") $"return"; value_ $"  " $"$(quoted(""a""))" (LiteralOf $"a") (fun e => (VQuoted (VStr $"a"), S e)); word_ [] $";";
   word_ ([10%N] ++ $"    ") $"}"].
Definition j_at : pos := mk_pos 9 4.
Definition j_stream : tokens java_import := match quote (laid_quote j_at j_method) 0 with Some (_, t) => t | None => new end.
Definition j_body : pos := mk_pos 2 30.
Definition j_join : option (cursor * list (quoted_item java_import nat)) :=
  Some (mk_cursor (mk_pos 2 20) (mk_pos 2 28), [QControl (mk_cursor (mk_pos 2 21) (mk_pos 2 27)) KPush]).
(** [class A {
      $(for f in 0..2 join ($['\r']) { $list<$int> x$f; })

      $method
    }] *)
Definition j_class : list (str * str * (piece java_import * (cursor -> quoted_item java_import nat))) :=
  [word_ [] $"class"; word_ $" " $"A"; word_ $" " $"{";
   ([10%N] ++ $"  ", $"$(for f in 0..2 join ($['\r']) { $list<$int> x$f; })",
     (Rounds (mk_separator false [] (Some KPush)) [laid_program j_body (j_field 0); laid_program j_body (j_field 1)],
      fun c => QLoop c (fun e => (PropsRounds.each 2, e)) j_join (laid_quote j_body (j_field 0))));
   value_ ([10%N] ++ [10%N] ++ $"  ") $"$method" (Fragment (laid_program j_at j_method)) (fun e => (VTokens j_stream, e));
   word_ [10%N] $"}"].
Lemma j_field_quotes n : n < 2 -> quotes_program (laid_quote j_body (j_field 0)) n (laid_program j_body (j_field n)) n /\ whole (laid_program j_body (j_field n)).
Proof.
  intros H. assert (SQ : laid_quote j_body (j_field 0) = laid_quote j_body (j_field n)) by reflexivity. rewrite SQ. clear SQ.
  assert (L : line_starts (map fst (laid_program j_body (j_field n))) = [30]) by reflexivity.
  split; [|split; [discriminate|vm_compute; reflexivity]].
  apply laid_quotes; [repeat constructor; discriminate| | |apply flat_fit; vm_compute; reflexivity].
  - intros before c after E0 N. rewrite L in E0. destruct before as [|b1 before]; [congruence|]. injection E0 as _ E0. destruct before; discriminate.
  - repeat (eapply all_stand_next; [solve [constructor|eapply stands_import; reflexivity|
      eapply stands_text; [reflexivity|reflexivity|destruct n as [|[|n]]; [discriminate|discriminate|lia]]]|]). apply all_stand_end.
Qed.
Ltac fit := repeat match goal with E0 : _ :: _ = ?before ++ _ :: _ |- _ => destruct before as [|? before]; [injection E0 as <- _|injection E0 as <- E0] end; try congruence.
Lemma j_method_quotes : quotes_program (laid_quote j_at j_method) 0 (laid_program j_at j_method) 1 /\ whole (laid_program j_at j_method).
Proof.
  assert (L : line_starts (map fst (laid_program j_at j_method)) = [4; 6; 4]) by (vm_compute; reflexivity).
  split; [|split; [discriminate|vm_compute; reflexivity]].
  apply laid_quotes; [repeat constructor; discriminate| | |apply flat_fit; vm_compute; reflexivity].
  - intros before c after E0 N. rewrite L in E0. clear L. fit.
    + left. cbn. lia.
    + right. exists [], [6]. split; [reflexivity|repeat constructor; lia].
    + destruct before; discriminate.
  - repeat (eapply all_stand_next; [solve [constructor|eapply stands_quoted; reflexivity]|]). apply all_stand_end.
Qed.
Example C87_java_source : laid_text j_class = $"class A {
  $(for f in 0..2 join ($['\r']) { $list<$int> x$f; })

  $method
}".
Proof. vm_compute. reflexivity. Qed.
Example C87_java_hypotheses : let l := laid_program (mk_pos 1 0) j_class in
  quotes_program (laid_quote (mk_pos 1 0) j_class) 7 l 1 /\ Forall java_words (program_imports l) /\ length (program_imports l) = 4.
Proof.
  cbv zeta. split; [|split; [repeat (constructor; try discriminate)|reflexivity]].
  assert (L : line_starts (map fst (laid_program (mk_pos 1 0) j_class)) = [0; 2; 2; 0]) by (vm_compute; reflexivity).
  apply laid_quotes; [repeat constructor; discriminate| | |apply flat_fit; vm_compute; reflexivity].
  - intros before c after E0 N. rewrite L in E0. clear L. fit.
    + left. cbn. lia.
    + right. exists [0], []. split; [reflexivity|repeat constructor; lia].
    + right. exists [], [2; 2]. split; [reflexivity|repeat constructor; lia].
    + destruct before; discriminate.
  - do 3 (eapply all_stand_next; [constructor|]).
    eapply all_stand_next.
    { eapply stands_loop; [vm_compute; discriminate|reflexivity|apply (separated_control 2 20 28 KPush); lia| |discriminate|repeat constructor; first [discriminate|vm_compute; reflexivity]].
      eapply quotes_round; [apply (j_field_quotes 0); lia|discriminate|].
      eapply quotes_round; [apply (j_field_quotes 1); lia|discriminate|]. apply quotes_no_rounds. }
    eapply all_stand_next.
    { eapply stands_stream; [reflexivity| |exact (proj1 j_method_quotes)|exact (proj1 (proj2 j_method_quotes))]. vm_compute. reflexivity. }
    eapply all_stand_next; [constructor|]. apply all_stand_end.
Qed.
Example C87_java_example :
  option_map (fun '(_, t) => outcome (format_file java_lang string_writer ex_cfg t (Some (Static $"app")) (formatter_new []))) (quote (laid_quote (mk_pos 1 0) j_class) 7) = Some ($"package app;

import java.util.List;

class A {
    List<Integer> x0;
    List<Integer> x1;

    void m() {
        return ""a"";
    }
}
", true) /\
  program_text (c_newline ex_cfg) (c_indentation ex_cfg) (fun v => $"""" ++ v ++ $"""") (fun i => content (ja_name i)) 0 (laid_program (mk_pos 1 0) j_class) =
  $"class A {
    List<Integer> x0;
    List<Integer> x1;

    void m() {
        return ""a"";
    }
}".
Proof. split; vm_compute; reflexivity. Qed.
End JavaExample.

(** [f($(for _ in 0..2 join (, ) => $i), $(if yes { $j } else { none }), $(match n { 0 => a, _ => "q" }))], for any imports. *)
Section LineExample.
Context {LI : Type} (i j : LI).
Notation entry := (str * str * (piece LI * (cursor -> quoted_item LI nat)))%type.
Let at1 := mk_pos 1 100.
Definition l_one (x : LI) : list entry := [value_ [] $"$i" (ReferenceTo x) (fun e => (VLang x, S e))].
Definition l_word (w : str) : list entry := [word_ [] w].
Definition l_quoted : list entry := [literal_ [] $"""q""" $"q"].
Definition l_call : list entry :=
  [word_ [] $"f"; word_ [] $"(";
   ([], $"$(for _ in 0..2 join (, ) => $i)", (Rounds (mk_separator false $"," (Some KSpace)) [laid_program at1 (l_one i); laid_program at1 (l_one i)],
     fun c => QLoop c (fun e => (PropsRounds.each 2, e)) (Some (mk_cursor (mk_pos 1 20) (mk_pos 1 24), [QText (mk_cursor (mk_pos 1 21) (mk_pos 1 22)) $","]))
       (laid_quote at1 (l_one i))));
   word_ [] $",";
   ($"  ", $"$(if yes { $j } else { none })", (Fragment (laid_program at1 (l_one j)),
     fun c => QIf c (fun e => (Nat.ltb 0 e, e)) (laid_quote at1 (l_one j)) (Some (laid_quote at1 (l_word $"none")))));
   word_ [] $",";
   ($" ", $"$(match n { 0 => a, _ => ""q"" })", (Fragment (laid_program at1 l_quoted),
     fun c => QMatch c (fun e => (Nat.min 1 e, e)) [(None, laid_quote at1 (l_word $"a")); (None, laid_quote at1 l_quoted)]));
   word_ [] $")"].
Lemma one_fits (x : entry) p : starts_fit (map fst (laid_program p [x])).
Proof.
  destruct x as [[b w] [x q]]. intros before c after E0 N. cbn in E0. destruct before as [|b1 before]; [congruence|]. injection E0 as _ E0. destruct before; discriminate.
Qed.
Lemma l_one_quotes x e : quotes_program (laid_quote at1 (l_one x)) e (laid_program at1 (l_one x)) (S e) /\ whole (laid_program at1 (l_one x)).
Proof.
  split; [|split; [discriminate|reflexivity]]. apply laid_quotes; [repeat constructor; discriminate|apply one_fits| |apply flat_fit; vm_compute; reflexivity].
  eapply all_stand_next; [eapply stands_import; reflexivity|]. apply all_stand_end.
Qed.
Example C87_line_hypotheses : let l := laid_program (mk_pos 1 0) l_call in
  quotes_program (laid_quote (mk_pos 1 0) l_call) 7 l 3 /\ program_imports l = [i; i; j].
Proof.
  cbv zeta. split; [|reflexivity]. apply laid_quotes; [repeat constructor; discriminate| | |apply flat_fit; vm_compute; reflexivity].
  - intros before c after E0 N. change (line_starts _) with [0] in E0. destruct before as [|b1 before]; [congruence|]. injection E0 as _ E0. destruct before; discriminate.
  - do 2 (eapply all_stand_next; [constructor|]).
    eapply all_stand_next.
    { eapply stands_loop; [vm_compute; discriminate|reflexivity|apply (separated_text 1 20 21 24 $","); cbn; lia || discriminate| |discriminate|repeat constructor; first [discriminate|vm_compute; reflexivity]].
      eapply quotes_round; [apply (l_one_quotes i 0)|discriminate|].
      eapply quotes_round; [apply (l_one_quotes i 1)|discriminate|]. apply quotes_no_rounds. }
    eapply all_stand_next; [constructor|].
    eapply all_stand_next.
    { eapply stands_if; [vm_compute; discriminate|reflexivity|apply (l_one_quotes j 2)|apply (l_one_quotes j 2)]. }
    eapply all_stand_next; [constructor|].
    eapply all_stand_next.
    { eapply stands_match; [vm_compute; discriminate|reflexivity|reflexivity| |discriminate].
      apply laid_quotes; [repeat constructor; discriminate|apply one_fits| |apply flat_fit; vm_compute; reflexivity]. eapply all_stand_next; [constructor|]. apply all_stand_end. }
    eapply all_stand_next; [constructor|]. apply all_stand_end.
Qed.
End LineExample.
Definition file_of_call {LI C F} (L : lang_def LI C F) c (i j : LI) : option (str * bool) :=
  option_map (fun '(_, t) => outcome (format_file L string_writer ex_cfg t c (formatter_new []))) (quote (laid_quote (mk_pos 1 0) (l_call i j)) 7).
Example C87_line_files :
  file_of_call rust_lang Direct (rust_new (Static $"std::fmt") (Static $"Debug")) (rust_new (Static $"std::io") (Static $"Read")) =
    Some ($"use std::fmt::Debug;
use std::io::Read;

f(Debug, Debug, Read, ""q"")
", true) /\
  file_of_call python_lang tt (py_new (Static $"b") (Static $"f")) (py_new (Static $"a") (Static $"g")) =
    Some ($"from a import g
from b import f

f(f, f, g, ""q"")
", true) /\
  file_of_call go_lang None (mk_go (Static $"a/b") (Static $"f")) (mk_go (Static $"fmt") (Static $"G")) =
    Some ($"import ""a/b""
import ""fmt""

f(b.f, b.f, fmt.G, ""q"")
", true).
Proof. repeat split; vm_compute; reflexivity. Qed.
Example C87_csharp_namespace_example :
  let i := mk_cs (Static $"System") (Static $"Console") false in let j := mk_cs (Static $"App") (Static $"Log") false in
  let l := laid_program (mk_pos 1 0) (l_call i j) in
  quotes_program (laid_quote (mk_pos 1 0) (l_call i j)) 7 l 3 /\ whole l /\ Forall csharp_words (program_imports l) /\
  file_of_call csharp_lang (Some (Static $"App")) i j =
    Some ($"using System;

namespace App {
    f(Console, Console, Log, ""q"")
}
", true).
Proof.
  cbv zeta. split; [apply C87_line_hypotheses|]. split; [split; [discriminate|reflexivity]|].
  split; [repeat (constructor; try discriminate)|]. vm_compute. reflexivity.
Qed.

(** Words that show nothing: those marked [TextOf []] here. *)
Section SparseExample.
Notation entry := (str * str * (piece c_import * (cursor -> quoted_item c_import nat)))%type.
Definition laid_sparse p (ws : list entry) : sparse c_import :=
  map (fun '(c, (w, (x, _))) => (c, (w, match x with TextOf [] => None | _ => Some x end))) (laid p ws).
Lemma laid_sparse_written (ws : list entry) : Forall (fun x : entry => all_white (fst (fst x)) /\ snd (fst x) <> []) ws -> forall p,
  written p (laid_text ws) (map (fun x => (fst x, fst (snd x))) (laid_sparse p ws)).
Proof.
  induction 1 as [|[[b w] [x q]] ws (W & NE) _ IH]; intros p; [apply written_end|].
  unfold laid_sparse in *. cbn [laid_text flat_map laid map fst snd]. rewrite <- app_assoc.
  apply written_blank; [exact W|]. apply written_token; [exact NE|]. apply IH.
Qed.
Let printf := mk_c (Static $"stdio.h") (Static $"printf") true.
(** [int f($none) {
      $(let x = 2)

      $(if x > 2 => g();)
      $printf($(if x > 2 => x) "a" );$(for _ in 0..0 => y)
    }] *)
Definition s_main : list entry :=
  [word_ [] $"int"; word_ $" " $"f"; word_ [] $"("; value_ [] $"$none" (TextOf []) (fun e => (VOption None, e)); word_ [] $")"; word_ $" " $"{";
   ([10%N] ++ $"  ", $"$(let x = 2)", (TextOf [], fun c => QLet c (fun _ => 2)));
   ([10; 10]%N ++ $"  ", $"$(if x > 2 => g();)", (TextOf [], fun c => QIf c (fun e => (2 <? e, e)) (laid_quote (mk_pos 4 16) [word_ [] $"g"; word_ [] $"("; word_ [] $")"; word_ [] $";"]) None));
   value_ ([10%N] ++ $"  ") $"$printf" (ReferenceTo printf) (fun e => (VLang printf, e)); word_ [] $"(";
   ([], $"$(if x > 2 => x)", (TextOf [], fun c => QIf c (fun e => (2 <? e, e)) (laid_quote (mk_pos 5 24) [word_ [] $"x"]) None));
   literal_ $" " $"""a""" $"a"; word_ $" " $")"; word_ [] $";";
   ([], $"$(for _ in 0..0 => y)", (TextOf [], fun c => QLoop c (fun e => ([], S e)) None (laid_quote (mk_pos 5 70) [word_ [] $"y"])));
   word_ [10%N] $"}"].
Ltac fit := repeat match goal with E0 : _ :: _ = ?before ++ _ :: _ |- _ => destruct before as [|? before]; [injection E0 as <- _|injection E0 as <- E0] end; try congruence.
Definition s_source : sparse c_import := laid_sparse (mk_pos 1 0) s_main.
Example C87_sparse_source : laid_text s_main = $"int f($none) {
  $(let x = 2)

  $(if x > 2 => g();)
  $printf($(if x > 2 => x) ""a"" );$(for _ in 0..0 => y)
}".
Proof. vm_compute. reflexivity. Qed.
Example C87_sparse_hypotheses :
  quotes_program (laid_quote (mk_pos 1 0) s_main) 7 (left_over s_source) 3 /\ Forall c_words (program_imports (left_over s_source)) /\
  may_delete s_source /\ length s_source = 16 /\ length (left_over s_source) = 11.
Proof.
  assert (MD : may_delete s_source).
  { let v := eval vm_compute in (sparse_lines s_source) in assert (L : sparse_lines s_source = v) by (vm_compute; reflexivity).
    split; [rewrite L|split; [exists (hd (mk_cursor (mk_pos 0 0) (mk_pos 0 0), ([], None)) s_source), (tl s_source); split; [reflexivity|vm_compute; discriminate]|]].
    - split; [|split].
      + intros before l l' after E0 K. clear L.
        repeat match goal with E0 : _ :: _ = ?b ++ _ :: _ :: _ |- _ => destruct b as [|? b]; [injection E0 as <- <- _; solve [reflexivity|discriminate K]|injection E0 as <- E0] end.
        destruct before as [|? [|? ?]]; discriminate.
      + clear L. repeat (constructor; [vm_compute; exact Logic.I || reflexivity|]). constructor.
      + clear L. intros K. vm_compute in K. discriminate.
    - exists (removelast s_source), (last s_source (mk_cursor (mk_pos 0 0) (mk_pos 0 0), ([], None))). split; [vm_compute; reflexivity|vm_compute; discriminate]. }
  assert (PI : program_imports (left_over s_source) = [printf]) by (vm_compute; reflexivity).
  assert (CW : Forall c_words (program_imports (left_over s_source))).
  { rewrite PI. constructor; [|constructor]. split; discriminate. }
  assert (L1 : length s_source = 16) by (vm_compute; reflexivity).
  assert (L2 : length (left_over s_source) = 11) by (vm_compute; reflexivity).
  split; [|exact (conj CW (conj MD (conj L1 L2)))]. clear PI CW L1 L2.
  apply (quotes_sparse _ (mk_pos 1 0) (laid_text s_main)); [| | |exact MD].
  - apply laid_sparse_written. repeat constructor; discriminate.
  - intros before c after E0 N. assert (L : line_starts (map fst s_source) = [0; 2; 2; 2; 0]) by (vm_compute; reflexivity). rewrite L in E0. clear L MD. fit.
    + left. cbn. lia.
    + right. exists [0], []. split; [reflexivity|repeat constructor; lia].
    + right. exists [0], [2]. split; [reflexivity|repeat constructor; lia].
    + right. exists [], [2; 2; 2]. split; [reflexivity|repeat constructor; lia].
    + destruct before; discriminate.
  - clear MD. let v := eval vm_compute in s_source in assert (S1 : s_source = v) by (vm_compute; reflexivity).
    let v := eval vm_compute in (all_tokens (laid_quote (mk_pos 1 0) s_main)) in assert (S2 : all_tokens (laid_quote (mk_pos 1 0) s_main) = v) by (vm_compute; reflexivity).
    rewrite S1, S2. clear S1 S2.
    do 3 (eapply all_may_next; [constructor|reflexivity|]).
    eapply all_may_skip; [eapply nothing_value; [reflexivity|auto]|].
    do 2 (eapply all_may_next; [constructor|reflexivity|]).
    eapply all_may_skip; [apply nothing_let|].
    eapply all_may_skip; [apply nothing_if; [vm_compute; discriminate|reflexivity]|].
    eapply all_may_next; [eapply stands_import; reflexivity|reflexivity|]. eapply all_may_next; [constructor|reflexivity|].
    eapply all_may_skip; [apply nothing_if; [vm_compute; discriminate|reflexivity]|].
    do 3 (eapply all_may_next; [constructor|reflexivity|]).
    eapply all_may_skip; [apply nothing_loop; [vm_compute; discriminate|reflexivity]|].
    eapply all_may_next; [constructor|reflexivity|]. apply all_may_end.
Qed.
Example C87_sparse_file :
  option_map (fun '(_, t) => outcome (format_file c_lang string_writer ex_cfg t tt (formatter_new []))) (quote (laid_quote (mk_pos 1 0) s_main) 7) =
    Some ($"#include <stdio.h>

int f() {

    printf( ""a"" );
}
", true).
Proof. vm_compute. reflexivity. Qed.
End SparseExample.
