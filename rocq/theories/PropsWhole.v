(** * Properties of the files of quoted programs (C86).

    A program in the target language is quoted, with imports, string literals and
    texts interpolated.  The file is the header for exactly those imports, and the
    program, and each reference denotes what it is meant to, under conditions on the
    imports of the program alone.  Rust is C84.

    Vocabulary: [SpecWhole.v], [SpecReread.v] (white space), [SpecFile.v],
    [SpecLang.v], [SpecResolve.v], [SpecJs.v], [SpecPython.v], [SpecNix.v]. *)
From Verif Require Import Str SpecStr StrFacts Quote SpecLex LexFacts QuoteFacts Tokens SpecTokens TokensRun Values Fmt SpecFmt RenderFacts StringFacts
  SpecLang SpecResolve LangBase LangC LangSwift LangGo LangDart LangJava LangCsharp LangJs SpecJs JsFacts LangPython SpecPython PythonFacts LangNix SpecNix
  HeaderFacts FileFacts ImportFacts JavaFacts Macro SpecMacro SpecWords SpecReread SpecFile PropsQuote PropsReread PropsLang PropsNames PropsJs PropsNix PropsResolve PropsClash SpecWhole WholeFacts.

Ltac lit_ok := let v := fresh in intros v; apply quoted_to_string; reflexivity.
Lemma visible_one (s : str) : s <> [] -> visible_ends (texts [s]).
Proof. intros NE. split; [exists (AText s), []|exists [], (AText s)]; (split; [reflexivity|]); destruct s; [congruence|reflexivity|congruence|reflexivity]. Qed.
Lemma visible_three (a b c : str) : a <> [] -> c <> [] -> visible_ends (texts [a; b; c]).
Proof.
  intros NA NC. split; [exists (AText a), [AText b; AText c]|exists [AText a; AText b], (AText c)];
    (split; [reflexivity|]); [destruct a; [congruence|reflexivity]|destruct c; [congruence|reflexivity]].
Qed.
Lemma is_code_ext {LI} lit lit' (ref ref' : LI -> str) (l : list (cursor * (str * bit LI))) s body :
  (forall v, lit v = lit' v) -> (forall i, In i (imports l) -> ref i = ref' i) -> is_code lit ref l s body -> is_code lit' ref' l s body.
Proof.
  intros H1 H2 (b & s1 & E & W & R). exists b, s1. split; [exact E|]. split; [exact W|].
  replace (map (fun x => (fst (snd x), in_file lit' ref' (snd x))) l) with (map (fun x => (fst (snd x), in_file lit ref (snd x))) l); [exact R|].
  apply map_ext_in. intros [c [w b0]] H. cbn [fst snd]. f_equal. unfold in_file. cbn [fst snd]. destruct b0 as [|v|v|i]; auto.
  apply H2. apply in_flat_map. exists (c, (w, Imported i)). split; [exact H|left; reflexivity].
Qed.
Lemma literal_unique {LI C F} (L : lang_def LI C F) lit lit' : literal_of L lit -> literal_of L lit' -> forall v, lit v = lit' v.
Proof. intros H1 H2 v. specialize (H1 v). specialize (H2 v). congruence. Qed.
Lemma renders_unique {LI C F} (L : lang_def LI C F) cfg c f t s s' : renders L cfg c f t s -> renders L cfg c f t s' -> s = s'.
Proof. unfold renders. congruence. Qed.
Lemma text_of_reference {LI C F} (L : lang_def LI C F) cfg c f i s : renders L cfg c f (only i) s -> ref_text L c f i = s.
Proof. intros H. eapply renders_unique; [exact (only_renders L cfg c f i)|exact H]. Qed.

(** ** C *)
Theorem C86_c_file : forall E cfg (qs : list (quoted_item c_import E)) e p s l e',
  all_white (c_newline cfg) -> c_newline cfg <> [] -> quotes qs e p s l e' ->
  Forall c_words (imports l) ->
  exists t literal keys, quote qs e = Some (e', t) /\ literal_of c_lang literal /\ c_listed (imports l) keys /\
    gives_file c_lang cfg tt t s l (map (c_line literal) keys) literal (fun i => content (c_item i)).
Proof.
  intros E cfg qs e p s l e' W N Q V.
  destruct (source_body c_lang cfg tt tt eq_refl eq_refl qs e p s l e' W N Q) as (t & cs & body & Q' & -> & U & B & IC).
  { eapply Forall_impl; [|exact V]. intros i [_ H]. apply visible_one. exact H. }
  destruct (C36_c_includes cfg cs body) as (lit & keys & HL & S & K & R).
  { rewrite U. eapply Forall_impl; [|exact V]. intros i H. apply H. } { exact B. }
  rewrite U in K. exists (build cs), lit, keys. split; [exact Q'|]. split; [exact HL|]. split; [split; assumption|].
  exists body. split; [exact R|]. eapply is_code_ext; [| |exact IC].
  - eapply literal_unique; [|exact HL]. lit_ok.
  - intros i _. apply (text_of_reference c_lang cfg tt tt). apply C36_c_reference.
Qed.
Print Assumptions C86_c_file.

(** ** Swift *)
Theorem C86_swift_file : forall E cfg (qs : list (quoted_item swift_import E)) e p s l e' (declared : str -> str -> Prop),
  all_white (c_newline cfg) -> c_newline cfg <> [] -> quotes qs e p s l e' ->
  Forall swift_words (imports l) ->
  exists t literal keys, quote qs e = Some (e', t) /\ literal_of swift_lang literal /\ swift_listed (imports l) keys /\
    gives_file swift_lang cfg tt t s l (map swift_line keys) literal (fun i => content (sw_name i)) /\
    forall i, In i (imports l) ->
      (swift_denotes declared (map content keys) (content (sw_name i)) (content (sw_module i)) <->
       declared (content (sw_module i)) (content (sw_name i)) /\
       forall j, In j (imports l) -> declared (content (sw_module j)) (content (sw_name i)) ->
         content (sw_module j) = content (sw_module i)).
Proof.
  intros E cfg qs e p s l e' declared W N Q V.
  destruct (source_body swift_lang cfg tt tt eq_refl eq_refl qs e p s l e' W N Q) as (t & cs & body & Q' & -> & U & B & IC).
  { eapply Forall_impl; [|exact V]. intros i [_ H]. apply visible_one. exact H. }
  destruct (C66_swift_resolution_exact cfg cs body declared) as (keys & S & K & R & RE).
  { rewrite U. eapply Forall_impl; [|exact V]. intros i H. apply H. } { exact B. }
  rewrite U in K, RE. exists (build cs), (written_literal (ld_ops swift_lang tt tt)), keys. split; [exact Q'|]. split; [lit_ok|]. split; [split; assumption|].
  split.
  - exists body. split; [exact R|]. eapply is_code_ext; [reflexivity| |exact IC].
    intros i Hi. apply (text_of_reference swift_lang cfg tt tt). apply RE. exact Hi.
  - intros i Hi. apply RE. exact Hi.
Qed.
Print Assumptions C86_swift_file.

(** ** Go *)
Theorem C86_go_file : forall E cfg package (qs : list (quoted_item go_import E)) e p s l e' (package_of : str -> str),
  all_white (c_newline cfg) -> c_newline cfg <> [] -> quotes qs e p s l e' ->
  opt_named package -> Forall go_words (imports l) ->
  exists t literal keys reference, quote qs e = Some (e', t) /\ literal_of go_lang literal /\ go_listed (imports l) keys /\
    gives_file go_lang cfg package t s l
      (package_then (option_map go_package_line package) (map (go_line literal) keys)) literal reference /\
    forall i, In i (imports l) ->
      (exists x, last_segment $"/" (content (go_module i)) x /\ reference i = x ++ $"." ++ content (go_name i)) /\
      (go_denotes package_of (map content keys) (reference i) (content (go_module i)) (content (go_name i)) <->
       last_segment $"/" (content (go_module i)) (package_of (content (go_module i))) /\
       forall j, In j (imports l) ->
         package_of (content (go_module j)) = package_of (content (go_module i)) -> go_module j = go_module i).
Proof.
  intros E cfg package qs e p s l e' package_of W N Q NP V.
  destruct (source_body go_lang cfg package tt eq_refl eq_refl qs e p s l e' W N Q) as (t & cs & body & Q' & -> & U & B & IC).
  { eapply Forall_impl; [|exact V]. intros i (_ & H1 & H2). apply visible_three; [|exact H1]. intros X. apply H2. rewrite <- X. apply after_last_sep_spec. discriminate. }
  destruct (C64_go_resolution_exact cfg package cs body package_of NP) as (lit & keys & HL & S & K & R & RE).
  { rewrite U. eapply Forall_impl; [|exact V]. intros i H. apply H. } { exact B. }
  rewrite U in K, RE. exists (build cs), lit, keys, (ref_text go_lang package tt). split; [exact Q'|]. split; [exact HL|]. split; [split; assumption|].
  split.
  - exists body. split; [exact R|]. eapply is_code_ext; [|reflexivity|exact IC]. eapply literal_unique; [|exact HL]. lit_ok.
  - intros i Hi. destruct (RE i Hi) as (w & RW & EX). rewrite (text_of_reference go_lang cfg package tt i w RW). split; [|exact EX].
    destruct (C39_go_reference cfg package i) as (x & LX & RX). exists x. split; [exact LX|]. eapply renders_unique; eauto.
Qed.
Print Assumptions C86_go_file.

(** ** Dart *)
Theorem C86_dart_file : forall E cfg (qs : list (quoted_item dart_import E)) e p s l e' (declared : str -> str -> Prop),
  all_white (c_newline cfg) -> c_newline cfg <> [] -> quotes qs e p s l e' ->
  Forall dart_words (imports l) ->
  exists t literal keys, quote qs e = Some (e', t) /\ literal_of dart_lang literal /\ dart_listed (imports l) keys /\
    gives_file dart_lang cfg tt t s l (map (dart_line literal) keys) literal
      (fun i => dart_written (option_map content (da_alias i)) (content (da_name i))) /\
    forall i, In i (imports l) ->
      let path := content (da_path i) in let name := content (da_name i) in
      (dart_denotes declared (map dart_texts keys) (option_map content (da_alias i)) name path <->
       declared path name /\
       (path = $"dart:core" -> da_alias i = None) /\
       (forall j, In j (imports l) -> content (da_path j) <> $"dart:core" ->
          option_map content (da_alias j) = option_map content (da_alias i) ->
          declared (content (da_path j)) name ->
          content (da_path j) = path \/ dart_system (content (da_path j)) /\ ~ dart_system path) /\
       (da_alias i = None -> declared $"dart:core" name -> path = $"dart:core" \/ ~ dart_system path)).
Proof.
  intros E cfg qs e p s l e' declared W N Q V.
  destruct (source_body dart_lang cfg tt tt eq_refl eq_refl qs e p s l e' W N Q) as (t & cs & body & Q' & -> & U & B & IC).
  { eapply Forall_impl; [|exact V]. intros i (H1 & H2). cbn. unfold dart_format_item. destruct (da_alias i); [apply (visible_three (content i0) dart_sep (content (da_name i)) H2 H1)|apply visible_one; exact H1]. }
  destruct (C65_dart_resolution_exact cfg cs body declared) as (lit & keys & HL & S & K & R & RE).
  { rewrite U. eapply Forall_impl; [|exact V]. intros i H. apply H. } { exact B. }
  rewrite U in K, RE. exists (build cs), lit, keys. split; [exact Q'|]. split; [exact HL|]. split; [split; assumption|].
  split.
  - exists body. split; [exact R|]. eapply is_code_ext; [| |exact IC]. { eapply literal_unique; [|exact HL]. lit_ok. }
    intros i Hi. apply (text_of_reference dart_lang cfg tt tt). apply RE. exact Hi.
  - intros i Hi. apply RE. exact Hi.
Qed.
Print Assumptions C86_dart_file.

(** ** Java *)
Theorem C86_java_file : forall E cfg package (qs : list (quoted_item java_import E)) e p s l e' (declared : str -> str -> Prop),
  all_white (c_newline cfg) -> c_newline cfg <> [] -> quotes qs e p s l e' ->
  opt_named package -> Forall java_words (imports l) ->
  exists t literal keys reference, quote qs e = Some (e', t) /\ literal_of java_lang literal /\ java_listed package (imports l) keys /\
    gives_file java_lang cfg package t s l
      (package_then (option_map java_package_line package) (map java_line keys)) literal reference /\
    forall i, In i (imports l) -> let q := content (ja_package i) in let n := content (ja_name i) in
      exists w, reference i = written_text w /\
      (java_denotes declared (option_map content package) (java_text_keys keys) w q n <->
       declared q n /\
       (java_own package (ja_package i) ->
          (forall j, In j (imports l) -> ~ java_own package (ja_package j) -> content (ja_name j) <> n) /\
          (forall o, option_map content package = Some o -> o <> q -> ~ declared o n))).
Proof.
  intros E cfg package qs e p s l e' declared W N Q NP V.
  assert (VI : forall f, Forall (fun i => visible_ends (texts (l_format_item (ld_ops java_lang package f) i))) (imports l)).
  { intros f. eapply Forall_impl; [|exact V]. intros i (H1 & H2). cbn. unfold java_format_item. destruct (_ && _)%bool; [apply visible_three|apply visible_one]; assumption. }
  destruct (source_body java_lang cfg package [] eq_refl eq_refl qs e p s l e' W N Q (VI [])) as (t & cs & _ & Q' & -> & U & _).
  destruct (C40_java_resolution_exact cfg package cs declared NP) as (keys & f & S & K & RE & R).
  { rewrite U. exact V. }
  rewrite U in K, RE.
  destruct (source_body java_lang cfg package f eq_refl eq_refl qs e p s l e' W N Q (VI f)) as (t & cs' & body & Q2 & _ & _ & B & IC).
  rewrite Q' in Q2. injection Q2 as <-.
  exists (build cs), (written_literal (ld_ops java_lang package f)), keys, (ref_text java_lang package f). split; [exact Q'|].
  split; [lit_ok|]. split; [split; assumption|]. split; [exists body; split; [apply R; exact B|exact IC]|].
  intros i Hi q n. destruct (RE i Hi) as (w & RW & EX). exists w. split; [|exact EX]. apply (text_of_reference java_lang cfg package f i). exact RW.
Qed.
Print Assumptions C86_java_file.

(** ** C#, for files without a namespace of their own *)
Theorem C86_csharp_file : forall E cfg (qs : list (quoted_item cs_import E)) e p s l e' (declared : str -> str -> Prop),
  all_white (c_newline cfg) -> c_newline cfg <> [] -> quotes qs e p s l e' ->
  Forall csharp_words (imports l) ->
  exists t literal types usings reference, quote qs e = Some (e', t) /\ literal_of csharp_lang literal /\ csharp_listed (imports l) types usings /\
    gives_file csharp_lang cfg None t s l (map cs_line usings) literal reference /\
    forall i, In i (imports l) -> let ns := content (cs_namespace i) in let n := content (cs_name i) in
      exists w, reference i = written_text w /\
      (cs_denotes declared None usings w ns n <->
       declared ns n /\
       (cs_qualified i = false -> In (ns, n) types -> forall m, In m usings -> declared m n -> m = ns)).
Proof.
  intros E cfg qs e p s l e' declared W N Q V.
  assert (VI : forall f, Forall (fun i => visible_ends (texts (l_format_item (ld_ops csharp_lang None f) i))) (imports l)).
  { intros f. eapply Forall_impl; [|exact V]. intros i (H1 & H2). cbn. unfold cs_format_item. destruct (_ || _)%bool; [apply visible_three|apply visible_one]; assumption. }
  destruct (source_body csharp_lang cfg None (ld_default_format csharp_lang) eq_refl eq_refl qs e p s l e' W N Q (VI _)) as (t & cs & _ & Q' & -> & U & _).
  destruct (C37_csharp_resolution_exact cfg None cs declared) as (types & usings & f & T & S & K & RE & R).
  { rewrite U. eapply Forall_impl; [|exact V]. intros i H. apply H. }
  rewrite U in T, RE.
  destruct (source_body csharp_lang cfg None f eq_refl eq_refl qs e p s l e' W N Q (VI f)) as (t & cs' & body & Q2 & _ & _ & B & IC).
  rewrite Q' in Q2. injection Q2 as <-.
  exists (build cs), (written_literal (ld_ops csharp_lang None f)), types, usings, (ref_text csharp_lang None f). split; [exact Q'|].
  split; [lit_ok|]. split.
  { split; [|split; assumption]. intros k. etransitivity; [apply T|]. unfold first_named. cbn. 
    split; intros (H1 & _ & H3); (split; [exact H1|]); (split; [first [exact I|discriminate]|]); intros k' K1 _; apply H3; auto; discriminate. }
  split; [exists body; split; [apply R; [reflexivity|exact B]|exact IC]|].
  intros i Hi ns n. destruct (RE i Hi) as (w & RW & EX). exists w. split; [apply (text_of_reference csharp_lang cfg None f i); exact RW|].
  etransitivity; [exact EX|]. split; intros [H1 H2]; (split; [exact H1|]).
  - intros Q1 IN. apply H2; auto. discriminate.
  - intros Q1 _ IN. split; [intros m; discriminate|]. apply H2; auto.
Qed.
Print Assumptions C86_csharp_file.

(** ** JavaScript *)
Theorem C86_js_file : forall E relative cfg module_path (qs : list (quoted_item js_import E)) e p s l e',
  all_white (c_newline cfg) -> c_newline cfg <> [] -> quotes qs e p s l e' ->
  Forall js_words (imports l) -> Forall js_made (imports l) ->
  exists t literal wildcards modules, quote qs e = Some (e', t) /\ literal_of (js_lang relative) literal /\ js_listed (imports l) wildcards modules /\
    gives_file (js_lang relative) cfg module_path t s l
      (map (js_wildcard_line literal (js_specifier relative module_path)) wildcards ++
       map (js_module_line literal (js_specifier relative module_path)) modules) literal (fun i => fst (js_needs i)) /\
    forall i, In i (imports l) ->
      (js_denotes (js_header_binds wildcards modules) (fst (js_needs i)) (snd (js_needs i)) <->
       exists j, js_kept (imports l) j /\ js_needs j = js_needs i /\
         forall k, js_kept (imports l) k -> fst (js_needs k) = fst (js_needs i) -> k = j).
Proof.
  intros E relative cfg mp qs e p s l e' W N Q V M.
  destruct (source_body (js_lang relative) cfg mp tt eq_refl eq_refl qs e p s l e' W N Q) as (t & cs & body & Q' & -> & U & B & IC).
  { eapply Forall_impl; [|exact V]. intros i (H1 & H2). apply visible_one. destruct (js_import_kind i); [destruct (js_alias i)| |]; assumption. }
  destruct (C41_js_resolution_exact relative cfg mp cs body) as (wildcards & modules & J1 & J2 & J3 & J4 & J5 & R & RE).
  { rewrite U. exact V. } { rewrite U. exact M. } { exact B. }
  rewrite U in J2, J4, J5, RE. exists (build cs), (quoted_text js_ops), wildcards, modules. split; [exact Q'|]. split; [lit_ok|].
  split; [split; [assumption|split; [assumption|split; [assumption|split; [assumption|exact J5]]]]|].
  split.
  - exists body. split; [exact R|]. eapply is_code_ext; [reflexivity| |exact IC].
    intros i Hi. apply (text_of_reference (js_lang relative) cfg mp tt). apply RE. exact Hi.
  - intros i Hi. apply RE. exact Hi.
Qed.
Print Assumptions C86_js_file.

(** ** Python *)
Theorem C86_python_file : forall E cfg (qs : list (quoted_item py_import E)) e p s l e',
  all_white (c_newline cfg) -> c_newline cfg <> [] -> quotes qs e p s l e' ->
  Forall python_words (imports l) ->
  exists t literal froms modules reference, quote qs e = Some (e', t) /\ literal_of python_lang literal /\ python_listed (imports l) froms modules /\
    gives_file python_lang cfg tt t s l (map py_from_line froms ++ map py_import_line modules) literal reference /\
    forall i, In i (imports l) ->
      renders python_lang cfg tt tt (only i) (reference i) /\
      (py_denotes (py_header_binds froms modules) (reference i) (py_object i) <->
       exists j, In j (imports l) /\ fst (py_needs j) = py_root (reference i) /\
         (forall k, In k (imports l) -> fst (py_needs k) = py_root (reference i) ->
            py_spot_of k = py_spot_of j \/ py_spot_before (py_spot_of k) (py_spot_of j)) /\
         py_object i = snd (py_needs j) ++ py_rest (reference i)).
Proof.
  intros E cfg qs e p s l e' W N Q V.
  destruct (source_body python_lang cfg tt tt eq_refl eq_refl qs e p s l e' W N Q) as (t & cs & body & Q' & -> & U & B & IC).
  { eapply Forall_impl; [|exact V]. intros [[m|m [ma|]] n [a|]|m [a|]] H; cbn in H; repeat match goal with H : _ /\ _ |- _ => destruct H end;
      first [apply visible_one; assumption|apply (visible_three (content _) py_sep (content _)); assumption]. }
  destruct (C43_python_resolution_exact cfg cs body) as (froms & modules & J1 & J2 & J3 & J4 & J5 & R & RE).
  { rewrite U. eapply Forall_impl; [|exact V]. intros [[m|m ma] n a|m a] H; cbn in *; tauto. } { exact B. }
  rewrite U in J3, J5, RE. exists (build cs), (written_literal (ld_ops python_lang tt tt)), froms, modules, (ref_text python_lang tt tt).
  split; [exact Q'|]. split; [lit_ok|]. split; [split; [assumption|split; [assumption|split; [assumption|split; assumption]]]|].
  split; [exists body; split; [exact R|exact IC]|].
  intros i Hi. destruct (RE i Hi) as (x & RX & EX). rewrite (text_of_reference python_lang cfg tt tt i x RX). split; [exact RX|exact EX].
Qed.
Print Assumptions C86_python_file.

(** ** Nix *)
Theorem C86_nix_file : forall E cfg scoped (qs : list (quoted_item nix_import E)) e p s l e' (has : str -> str -> Prop),
  all_white (c_newline cfg) -> c_newline cfg <> [] -> quotes qs e p s l e' ->
  Forall nix_made (imports l) ->
  (forall t, uses t = imports l -> (forall i, nix_used t i -> nix_named i) /\ nix_values_ok cfg scoped t) ->
  exists t literal arguments withs inherits (variables : list nix_var) lines,
    quote qs e = Some (e', t) /\ uses t = imports l /\ literal_of nix_lang literal /\ nix_listed t arguments withs inherits variables /\
    Forall2 (fun k ls => fst ls = fst k /\
       renders nix_lang cfg scoped tt (nix_value (fst (snd k)) (snd (snd k))) (stack (c_newline cfg) (snd ls))) variables lines /\
    (let ind := indent_text (c_indentation cfg) 1 in
     gives_file nix_lang cfg scoped t s l
       (sections [if scoped then [] else nix_arguments_section ind arguments;
                  nix_withs_section withs;
                  nix_let_section ind inherits lines]) literal nix_name) /\
    forall i, nix_used t i ->
      let free name := forall j, nix_used t j -> nix_binder j -> nix_name j <> name in
      let alone := forall j, nix_used t j -> nix_binder j -> nix_name j = nix_name i -> j = i in
      ((exists o, nix_means cfg scoped i o /\
          nix_denotes has scoped arguments withs (nix_lets inherits lines) (nix_name i) o) <->
       match i with
       | NArgument n => free (content n)
       | NInherit path _ => alone /\ forall r, nix_path_root (content path) r -> free r
       | NVariable _ _ _ => alone
       | NWith path n =>
           free (content n) /\ (forall r, nix_path_root (content path) r -> free r) /\
           (scoped = false -> forall j, nix_used t j -> ~ nix_needs_argument j (content n)) /\
           exists w m, In (NWith w m) (uses t) /\ content w = content path /\
             forall q m', In (NWith q m') (uses t) -> name_before w q -> content q <> content path ->
               ~ has (content q) (content n)
       end).
Proof.
  intros E cfg scoped qs e p s l e' has W N Q M V.
  assert (NA : Forall nix_named (imports l)).
  { assert (ES : uses (mk_tokens (rev (map (Lang 0) (imports l))) 0) = imports l).
    { unfold uses, imports_of, items. cbn [ritems]. rewrite rev_involutive. clear. induction (imports l) as [|x us IH]; [reflexivity|]. cbn. rewrite IH. reflexivity. }
    apply Forall_forall. intros i Hi. destruct (V _ ES) as [H _]. apply H. constructor. rewrite ES. exact Hi. }
  destruct (source_body nix_lang cfg scoped tt eq_refl eq_refl qs e p s l e' W N Q) as (t & cs & body & Q' & -> & U & B & IC).
  { eapply Forall_impl; [|exact NA]. intros [n|q n|n v k|q n] H; apply visible_one; first [exact H|apply H]. }
  destruct (V (build cs) U) as [V1 V2].
  destruct (C42_nix_resolution_exact cfg scoped cs body has) as (arguments & withs & inherits & variables & lines & LI & LV & R & RE).
  { rewrite U. exact M. } { exact V1. } { exact V2. } { exact B. }
  exists (build cs), (written_literal (ld_ops nix_lang scoped tt)), arguments, withs, inherits, variables, lines.
  split; [exact Q'|]. split; [exact U|]. split; [lit_ok|]. split; [exact LI|]. split; [exact LV|]. split.
  - exists body. split; [exact R|]. eapply is_code_ext; [reflexivity| |exact IC].
    intros i Hi. apply (text_of_reference nix_lang cfg scoped tt). apply RE. constructor. rewrite U. exact Hi.
  - intros i Hi. apply RE. exact Hi.
Qed.
Print Assumptions C86_nix_file.

(** ** Examples *)
Section Lay.
Context {LI : Type}.
(** Words with the white space in front of them, laid out from a position, and the
    quote with these tokens. *)
Fixpoint lay (p : pos) (ws : list (str * str * bit LI)) : list (cursor * (str * bit LI)) :=
  match ws with
  | [] => []
  | (b, w, x) :: ws' => let q := advance p b in (mk_cursor q (advance q w), (w, x)) :: lay (advance q w) ws'
  end.
Definition source_text (ws : list (str * str * bit LI)) : str := flat_map (fun '(b, w, _) => b ++ w) ws.
Definition quote_one (x : cursor * (str * bit LI)) : quoted_item LI nat :=
  let '(c, (w, b)) := x in
  match b with
  | Plain => QText c w
  | Quoted v => QQuoted c v
  | Constant v => QEval c (fun e => (VStr v, S e))
  | Imported i => QEval c (fun e => (VLang i, S e))
  end.
Definition evals (l : list (cursor * (str * bit LI))) : nat :=
  length (filter (fun x => match snd (snd x) with Constant _ | Imported _ => true | _ => false end) l).
Definition good_word (x : str * str * bit LI) : Prop :=
  all_white (fst (fst x)) /\ snd (fst x) <> [] /\ match snd x with Constant v => v <> [] | _ => True end.
Lemma written_blank b : forall p s l, all_white b -> written (advance p b) s l -> written p (b ++ s) l.
Proof. induction b as [|c b IH]; intros p s l W F; [exact F|]. inversion W; subst. cbn [app]. apply written_white; [assumption|]. apply IH; assumption. Qed.
Lemma lay_quotes ws p : Forall good_word ws -> starts_fit (map fst (lay p ws)) ->
  quotes (map quote_one (lay p ws)) 0 p (source_text ws) (lay p ws) (evals (lay p ws)).
Proof.
  intros G FIT. split; [|split; [|exact FIT]]; clear FIT.
  - revert p. induction G as [|[[b w] x] ws (W & NE & _) _ IH]; intros p; [apply written_end|]. cbn [source_text flat_map lay map fst snd].
    rewrite <- app_assoc. apply written_blank; [exact W|]. apply written_token; [exact NE|]. apply IH.
  - enough (X : forall n, is_source (all_tokens (map quote_one (lay p ws))) n (lay p ws) (n + evals (lay p ws))) by apply X.
    revert p. induction G as [|[[b w] x] ws (_ & _ & NE) _ IH]; intros p n; [cbn; lia|]. cbn [lay map]. set (q := advance p b). set (r := advance q w).
    cbn [snd] in NE.
    destruct x as [|v|v|i]; cbn [quote_one all_tokens flat_map tokens_of app is_source].
    + split; [reflexivity|]. split; [reflexivity|]. exact (IH r n).
    + split; [reflexivity|]. split; [reflexivity|]. exact (IH r n).
    + split; [reflexivity|]. split; [exact NE|]. eexists _, _. split; [reflexivity|]. split; [reflexivity|].
      replace (n + evals _) with (S n + evals (lay r ws)) by (unfold evals; cbn; lia). exact (IH r (S n)).
    + split; [reflexivity|]. eexists _, _. split; [reflexivity|]. split; [reflexivity|].
      replace (n + evals _) with (S n + evals (lay r ws)) by (unfold evals; cbn; lia). exact (IH r (S n)).
Qed.
End Lay.
Definition file_from {LI C F} (L : lang_def LI C F) c (ws : list (str * str * bit LI)) : option (str * bool) :=
  option_map (fun '(_, t) => outcome (format_file L string_writer ex_cfg t c (formatter_new []))) (quote (map quote_one (lay (mk_pos 1 0) ws)) 0).

Definition w_java : list (str * str * bit java_import) :=
  let util := mk_java (Static $"java.util") (Static $"List") in let other := mk_java (Static $"my") (Static $"List") in
  let int := mk_java (Static $"java.lang") (Static $"Integer") in
  [([], $"class", Plain); ($" ", $"A", Plain); ($" ", $"{", Plain);
   ([10%N] ++ $"  ", $"$list", Imported util); ($"", $"<", Plain); ($"", $"$int", Imported int); ($"", $">", Plain); ($" ", $"xs", Plain);
   ($" ", $"=", Plain); ($" ", $"$other", Imported other); ($"", $".", Plain); ($"", $"$make", Constant $"of"); ($"", $"(", Plain);
   ($"", $"""a""", Quoted $"a"); ($"", $")", Plain); ($"", $";", Plain); ([10%N], $"}", Plain)].
Example C86_java_source : source_text w_java = $"class A {
  $list<$int> xs = $other.$make(""a"");
}".
Proof. vm_compute. reflexivity. Qed.
Ltac good_words := repeat (apply Forall_cons; [split; [repeat constructor|split; [discriminate|first [exact I|discriminate]]]|]); apply Forall_nil.
Example C86_java_hypotheses :
  let l := lay (mk_pos 1 0) w_java in
  quotes (map quote_one l) 0 (mk_pos 1 0) (source_text w_java) l 4 /\ Forall java_words (imports l) /\ length (imports l) = 3.
Proof.
  cbv zeta. split; [|split; [repeat (constructor; try discriminate)|reflexivity]].
  apply (lay_quotes w_java); [good_words|].
  intros before c after E0 N. assert (L : line_starts (map fst (lay (mk_pos 1 0) w_java)) = [0; 2; 0]) by (vm_compute; reflexivity). rewrite L in E0. clear L.
  destruct before as [|b1 before]; [congruence|]. injection E0 as <- E0.
  destruct before as [|b2 before]; [injection E0 as <- _; left; cbn; lia|]. injection E0 as <- E0.
  destruct before as [|b3 before]; [injection E0 as <- _; right; exists [], [2]; split; [reflexivity|repeat constructor; cbn; lia]|].
  injection E0 as _ E0. destruct before; discriminate.
Qed.
Example C86_java_example : file_from java_lang (Some (Static $"app")) w_java = Some ($"package app;

import java.util.List;

class A {
    List<Integer> xs = my.List.of(""a"");
}
", true).
Proof. vm_compute. reflexivity. Qed.

(** The same for the other languages, a program on one line. *)
Definition one_line {LI} (i j : LI) : list (str * str * bit LI) :=
  [([], $"x", Plain); ($" ", $"=", Plain); ($"  ", $"$i", Imported i); ($"", $"(", Plain); ($"", $"$j", Imported j);
   ($"", $",", Plain); ($" ", $"""q""", Quoted $"q"); ($"", $")", Plain)].
Example C86_line_hypotheses : forall LI (i j : LI), let l := lay (mk_pos 1 0) (one_line i j) in
  quotes (map quote_one l) 0 (mk_pos 1 0) (source_text (one_line i j)) l 2 /\ imports l = [i; j].
Proof.
  intros LI i j. split; [|reflexivity]. apply (lay_quotes (one_line i j)); [good_words|].
  intros before c after E0 N. assert (L : line_starts (map fst (lay (mk_pos 1 0) (one_line i j))) = [0]) by (vm_compute; reflexivity). rewrite L in E0. clear L.
  destruct before as [|b1 before]; [congruence|]. injection E0 as _ E0. destruct before; discriminate.
Qed.
Example C86_line_files :
  file_from c_lang tt (one_line (mk_c (Static $"stdio.h") (Static $"f") true) (mk_c (Static $"a.h") (Static $"g") false)) =
    Some ($"#include ""a.h""
#include <stdio.h>

x = f(g, ""q"")
", true) /\
  file_from swift_lang tt (one_line (mk_swift (Static $"B") (Static $"f")) (mk_swift (Static $"A") (Static $"g"))) =
    Some ($"import A
import B

x = f(g, ""q"")
", true) /\
  file_from go_lang (Some (Static $"main")) (one_line (mk_go (Static $"a/b") (Static $"f")) (mk_go (Static $"fmt") (Static $"G"))) =
    Some ($"package main

import ""a/b""
import ""fmt""

x = b.f(fmt.G, ""q"")
", true) /\
  file_from dart_lang tt (one_line (mk_dart (Static $"a.dart") (Static $"f") (Some (Static $"a"))) (mk_dart (Static $"dart:core") (Static $"int") None)) =
    Some ($"import ""a.dart"" as a;

x = a.f(int, ""q"")
", true) /\
  file_from csharp_lang None (one_line (mk_cs (Static $"A") (Static $"F") false) (mk_cs (Static $"B") (Static $"F") false)) =
    Some ($"using A;

x = F(B.F, ""q"")
", true) /\
  file_from (js_lang no_relative) None (one_line (js_new (MGlobal (Static $"m")) (Static $"f")) (js_into_wildcard (js_new (MGlobal (Static $"n")) (Static $"g")))) =
    Some ($"import * as g from ""n"";
import {f} from ""m"";

x = f(g, ""q"")
", true) /\
  file_from python_lang tt (one_line (py_new (Static $"a") (Static $"f")) (PyModule (Static $"os") None)) =
    Some ($"from a import f
import os

x = f(os, ""q"")
", true) /\
  file_from nix_lang false (one_line (NInherit (Static $"lib") (Static $"f")) (NArgument (Static $"self"))) =
    Some ($"{
    lib,
    self,
    ...
}:

let
    inherit (lib) f;
in

x = f(self, ""q"")
", true).
Proof. repeat split; vm_compute; reflexivity. Qed.
