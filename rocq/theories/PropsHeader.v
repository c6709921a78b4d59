(** * Properties of file headers in general (C46, C47, C48).

    Vocabulary: [SpecFile.v], [SpecHeader.v]. *)
From Verif Require Import Str StrFacts Tokens SpecTokens TokensRun TokensFacts Values Fmt SpecFmt RenderFacts
  StringFacts Order OrderFacts SpecOrder SpecFile SpecHeader SpecLang HeaderFacts FileFacts ImportFacts PickFacts JavaFacts CsharpFacts
  BlockFacts GroupFacts LangBase LangC LangSwift LangGo LangDart LangJava LangCsharp LangPython SpecPython PythonFacts
  LangRust SpecRust RustFacts LangJs SpecJs JsFacts LangNix SpecNix NixFacts NixHeader NixFile PropsLang PropsNames PropsJs PropsNix.

Lemma walk_same {LI} (cs1 cs2 : list (call LI)) : same_set (uses (build cs1)) (uses (build cs2)) ->
  same_set (walk_imports (build cs1)) (walk_imports (build cs2)).
Proof. intros S x. rewrite (walk_set cs1 x), (walk_set cs2 x). apply S. Qed.
Lemma forall_same {A} (P : A -> Prop) l1 l2 : same_set l1 l2 -> Forall P l1 -> Forall P l2.
Proof. intros S F. rewrite Forall_forall in *. intros x H. apply F, S, H. Qed.

Section Same.
Context {LI : Type} (cs1 cs2 : list (call LI)).
Notation t1 := (build cs1). Notation t2 := (build cs2).
Hypothesis S : same_set (uses t1) (uses t2).
Lemma fold_same {K} (c : K -> K -> comparison) (key : LI -> option K) : order c ->
  fold_left (fun s i => match key i with Some k => set_insert c k s | None => s end) (walk_imports t1) [] =
  fold_left (fun s i => match key i with Some k => set_insert c k s | None => s end) (walk_imports t2) [].
Proof. intros O. apply (collect_same O), walk_same, S. Qed.
End Same.

Theorem C46_c : forall cfg cs1 cs2, let t1 := build cs1 in let t2 := build cs2 in
  same_set (uses t1) (uses t2) ->
  same_header c_lang tt t1 t2 /\
  (Forall (fun i => named (c_path i)) (uses t1) -> same_header_text c_lang cfg tt t1 t2).
Proof.
  intros cfg cs1 cs2 t1 t2 S.
  pose proof (fold_same cs1 cs2 S c_key_cmp (fun i => Some (c_path i, c_system i)) c_key_order) as E. cbv beta iota in E.
  split.
  - exists (c_imports t1 new), tt. split; [reflexivity|]. cbn [ld_format_file c_lang]. unfold c_imports.
    fold t1 t2 in E. rewrite E. reflexivity.
  - intros N. pose proof (forall_same _ _ _ S N) as N2.
    exists (map (c_line (quoted_text (ld_ops c_lang tt tt))) (c_keys t1)), tt. intros b1 b2 [R1 S1] [R2 S2].
    split; [apply c_file; auto|]. assert (K : c_keys t1 = c_keys t2) by exact E. rewrite K. apply c_file; auto.
Qed.
Print Assumptions C46_c.

Theorem C46_swift : forall cfg cs1 cs2, let t1 := build cs1 in let t2 := build cs2 in
  same_set (uses t1) (uses t2) ->
  same_header swift_lang tt t1 t2 /\
  (Forall (fun i => named (sw_module i)) (uses t1) -> same_header_text swift_lang cfg tt t1 t2).
Proof.
  intros cfg cs1 cs2 t1 t2 S.
  pose proof (fold_same cs1 cs2 S cmp_item_str (fun i => Some (sw_module i)) item_str_order) as E. cbv beta iota in E.
  split.
  - exists (swift_imports t1 new), tt. split; [reflexivity|]. cbn [ld_format_file swift_lang]. unfold swift_imports.
    fold t1 t2 in E. rewrite E. reflexivity.
  - intros N. pose proof (forall_same _ _ _ S N) as N2.
    exists (map swift_line (swift_keys t1)), tt. intros b1 b2 [R1 S1] [R2 S2].
    split; [apply swift_file; auto|]. assert (K : swift_keys t1 = swift_keys t2) by exact E. rewrite K. apply swift_file; auto.
Qed.
Print Assumptions C46_swift.

Theorem C46_go : forall cfg package cs1 cs2, let t1 := build cs1 in let t2 := build cs2 in
  same_set (uses t1) (uses t2) ->
  same_header go_lang package t1 t2 /\
  (opt_named package -> Forall (fun i => named (go_module i)) (uses t1) -> same_header_text go_lang cfg package t1 t2).
Proof.
  intros cfg p cs1 cs2 t1 t2 S.
  pose proof (fold_same cs1 cs2 S cmp_item_str (fun i => Some (go_module i)) item_str_order) as E. cbv beta iota in E.
  split.
  - exists (go_header p t1), tt. split; [reflexivity|]. cbn [ld_format_file go_lang]. unfold go_header, go_imports.
    fold t1 t2 in E. rewrite E. reflexivity.
  - intros NP N. pose proof (forall_same _ _ _ S N) as N2.
    exists (package_then (option_map go_package_line p) (map (go_line (quoted_text (ld_ops go_lang p tt))) (go_keys t1))), tt.
    intros b1 b2 [R1 S1] [R2 S2].
    split; [apply go_file; auto|]. assert (K : go_keys t1 = go_keys t2) by exact E. rewrite K. apply go_file; auto.
Qed.
Print Assumptions C46_go.

Theorem C46_dart : forall cfg cs1 cs2, let t1 := build cs1 in let t2 := build cs2 in
  same_set (uses t1) (uses t2) ->
  same_header dart_lang tt t1 t2 /\
  (Forall (fun i => opt_named (da_alias i)) (uses t1) -> same_header_text dart_lang cfg tt t1 t2).
Proof.
  intros cfg cs1 cs2 t1 t2 S.
  assert (K : dart_keys t1 = dart_keys t2) by (apply (collect_same dart_key_order), walk_same, S).
  split.
  - exists (dart_imports t1 new), tt. split; [reflexivity|]. cbn [ld_format_file dart_lang]. unfold dart_imports.
    rewrite !dart_keys_model, K. reflexivity.
  - intros N. pose proof (forall_same _ _ _ S N) as N2.
    exists (map (dart_line (quoted_text (ld_ops dart_lang tt tt))) (dart_keys t1)), tt. intros b1 b2 [R1 S1] [R2 S2].
    split; [apply dart_file; auto|]. rewrite K. apply dart_file; auto.
Qed.
Print Assumptions C46_dart.

Theorem C46_java : forall cfg package cs1 cs2, let t1 := build cs1 in let t2 := build cs2 in
  same_set (uses t1) (uses t2) ->
  same_header java_lang package t1 t2 /\
  (opt_named package -> Forall (fun i => named (ja_package i) /\ named (ja_name i)) (uses t1) ->
   same_header_text java_lang cfg package t1 t2).
Proof.
  intros cfg p cs1 cs2 t1 t2 S.
  assert (K : java_keys t1 = java_keys t2) by (apply (collect_same java_key_order), walk_same, S).
  split.
  - exists (fst (java_header p t1)), (snd (java_header p t1)). 
    assert (E : java_header p t1 = java_header p t2).
    { unfold java_header, java_imports. change (fold_left _ (walk_imports t1) []) with (java_keys t1).
      change (fold_left _ (walk_imports t2) []) with (java_keys t2). rewrite K. reflexivity. }
    assert (H : forall t, ld_format_file java_lang t p =
      [(fst (java_header p t), snd (java_header p t)); (t, snd (java_header p t))])
      by (intros t; cbn [ld_format_file java_lang]; destruct (java_header p t); reflexivity).
    rewrite !H, <- E. auto.
  - intros NP N. pose proof (forall_same _ _ _ S N) as N2.
    exists (package_then (option_map java_package_line p) (map java_line (java_chosen p t1))), (java_format p t1).
    intros b1 b2 [R1 S1] [R2 S2].
    assert (KC : java_chosen p t1 = java_chosen p t2) by (unfold java_chosen; rewrite K; reflexivity).
    assert (KF : java_format p t1 = java_format p t2) by (unfold java_format; rewrite KC; reflexivity).
    split; [apply java_file; auto|]. rewrite KC. rewrite KF in R2, S2. apply java_file; auto.
Qed.
Print Assumptions C46_java.

(** With a namespace the body is inside a block: the same lines before it. *)
Theorem C46_csharp : forall cfg namespace cs1 cs2, let t1 := build cs1 in let t2 := build cs2 in
  same_set (uses t1) (uses t2) ->
  match namespace with
  | None => same_header csharp_lang None t1 t2 /\
      (Forall (fun i => named (cs_namespace i)) (uses t1) -> same_header_text csharp_lang cfg None t1 t2)
  | Some ns => exists header f,
      ld_format_file csharp_lang t1 namespace = [(cs_namespace_block ns t1 header, f)] /\
      ld_format_file csharp_lang t2 namespace = [(cs_namespace_block ns t2 header, f)]
  end.
Proof.
  intros cfg p cs1 cs2 t1 t2 S.
  assert (K : cs_keys t1 = cs_keys t2) by (apply (collect_same cs_key_order), walk_same, S).
  assert (E : cs_imports t1 p new [] = cs_imports t2 p new []).
  { unfold cs_imports. change (fold_left _ (walk_imports t1) []) with (cs_keys t1).
    change (fold_left _ (walk_imports t2) []) with (cs_keys t2). rewrite K. reflexivity. }
  destruct p as [ns|].
  - exists (fst (cs_imports t1 (Some ns) new [])), (snd (cs_imports t1 (Some ns) new [])).
    cbn [ld_format_file csharp_lang]. unfold cs_format_file. rewrite E. destruct (cs_imports t2 (Some ns) new []). auto.
  - split.
    + exists (fst (cs_imports t1 None new [])), (snd (cs_imports t1 None new [])).
      cbn [ld_format_file csharp_lang]. unfold cs_format_file. rewrite E. destruct (cs_imports t2 None new []). auto.
    + intros N. pose proof (forall_same _ _ _ S N) as N2.
      exists (map cs_line (cs_usings None t1)), (cs_format None t1).
      intros b1 b2 [R1 S1] [R2 S2].
      assert (KC : cs_chosen None t1 = cs_chosen None t2) by (unfold cs_chosen; rewrite K; reflexivity).
      assert (KU : cs_usings None t1 = cs_usings None t2) by (unfold cs_usings; rewrite KC; reflexivity).
      assert (KF : cs_format None t1 = cs_format None t2) by (unfold cs_format; rewrite KC; reflexivity).
      split; [apply cs_file; auto|]. rewrite KU. rewrite KF in R2, S2. apply cs_file; auto.
Qed.
Print Assumptions C46_csharp.

Theorem C46_csharp_namespace : forall cfg ns cs1 cs2, let t1 := build cs1 in let t2 := build cs2 in
  same_set (uses t1) (uses t2) -> named ns -> Forall (fun i => named (cs_namespace i)) (uses t1) ->
  exists header f, forall cs doc, (cs = cs1 \/ cs = cs2) ->
    let t := build cs in
    items t = doc_items doc -> doc_ok doc = true ->
    let l := doc_atoms (ld_ops csharp_lang (Some ns) f) cfg doc in
    visible_ends l -> level_body l ->
    exists lines, renders csharp_lang cfg (Some ns) f t (stack (c_newline cfg) lines) /\
      (Forall (fun a => no_newline (a_text a)) l -> Forall no_newline lines) /\
      file_renders csharp_lang cfg (Some ns) t
        (file_text (c_newline cfg) header
           (stack (c_newline cfg)
              (($"namespace " ++ content ns ++ $" {") ::
               map (indent_line (indent_text (c_indentation cfg) 1)) lines ++ [$"}"]))).
Proof.
  intros cfg ns cs1 cs2 t1 t2 S NN N. pose proof (forall_same _ _ _ S N) as N2.
  assert (K : cs_keys t1 = cs_keys t2) by (apply (collect_same cs_key_order), walk_same, S).
  assert (KC : cs_chosen (Some ns) t1 = cs_chosen (Some ns) t2) by (unfold cs_chosen; rewrite K; reflexivity).
  assert (KU : cs_usings (Some ns) t1 = cs_usings (Some ns) t2) by (unfold cs_usings; rewrite KC; reflexivity).
  assert (KF : cs_format (Some ns) t1 = cs_format (Some ns) t2) by (unfold cs_format; rewrite KC; reflexivity).
  exists (map cs_line (cs_usings (Some ns) t1)), (cs_format (Some ns) t1).
  intros cs doc [->| ->] t EI OK l V LV; exists (sym_lines (layout (c_indentation cfg) l)); 
    (split; [apply doc_renders; auto|]); (split; [apply layout_lines_no_newline|]).
  - apply cs_block_file; auto.
  - fold t2 in t. rewrite KU. unfold l in *. clear l. rewrite KF in *. apply cs_block_file; auto.
Qed.
Print Assumptions C46_csharp_namespace.

Theorem C46_python : forall cfg cs1 cs2, let t1 := build cs1 in let t2 := build cs2 in
  same_set (uses t1) (uses t2) ->
  same_header python_lang tt t1 t2 /\
  (Forall py_named (uses t1) -> same_header_text python_lang cfg tt t1 t2).
Proof.
  intros cfg cs1 cs2 t1 t2 S. pose proof (walk_same cs1 cs2 S) as W. fold t1 t2 in W.
  assert (KF : py_froms t1 = py_froms t2).
  { apply (group_same item_str_order [] py_from_grp (fun v e => In e v) py_adds (increasing py_key_cmp)); auto.
    - intros i k f v e H. apply (py_mem_step i k f v e H).
    - constructor.
    - intros i k f v H I. unfold py_from_grp in H. destruct i as [[]|]; try discriminate. injection H as <- <-.
      apply (insert_increasing py_key_order); auto.
    - intros v w Iv Iw H. apply (increasing_unique py_key_order); auto. }
  assert (KM : py_mods t1 = py_mods t2) by (apply (collect_same py_key_order), W).
  split.
  - exists (py_imports t1 new), tt. split; [reflexivity|]. cbn [ld_format_file python_lang]. unfold py_imports, py_collect.
    rewrite !py_collect_eq. fold (py_froms t1) (py_froms t2) (py_mods t1) (py_mods t2). rewrite KF, KM. reflexivity.
  - intros N. pose proof (forall_same _ _ _ S N) as N2.
    exists (map py_from_line (py_froms t1) ++ map py_import_line (py_mods t1)), tt. intros b1 b2 [R1 S1] [R2 S2].
    split; [apply py_file; auto|]. rewrite KF, KM. apply py_file; auto.
Qed.
Print Assumptions C46_python.

Theorem C46_rust : forall cfg mode cs1 cs2, let t1 := build cs1 in let t2 := build cs2 in
  same_set (uses t1) (uses t2) ->
  same_header rust_lang mode t1 t2 /\
  (Forall rust_named (uses t1) -> same_header_text rust_lang cfg mode t1 t2).
Proof.
  intros cfg mode cs1 cs2 t1 t2 S. pose proof (walk_same cs1 cs2 S) as W. fold t1 t2 in W.
  assert (K : rust_map mode t1 = rust_map mode t2).
  { apply (group_same item_str_order unused (rust_grp mode) used_mem (used_adds mode) used_ok); auto.
    - apply unused_mem.
    - apply used_step.
    - repeat split; constructor.
    - apply used_ok_step.
    - intros [s1 a1 n1] [s2 a2 n2] [A1 N1] [A2 N2] H. cbn in *. f_equal.
      + pose proof (H ESelf) as HS. cbn in HS. destruct s1, s2; auto; intuition congruence.
      + apply (increasing_unique item_str_order); auto. intros a. apply (H (EAlias a)).
      + apply (increasing_unique rust_name_order); auto. intros k. apply (H (EName k)). }
  split.
  - exists (rust_imports t1 mode new), tt. split; [reflexivity|]. cbn [ld_format_file rust_lang]. unfold rust_imports.
    rewrite !(rust_collect_eq mode). fold (rust_map mode t1) (rust_map mode t2). rewrite K. reflexivity.
  - intros N. pose proof (forall_same _ _ _ S N) as N2.
    exists (map rust_use_line (rust_mods mode t1)), tt. intros b1 b2 [R1 S1] [R2 S2].
    split; [apply rust_file; auto|]. unfold rust_mods. rewrite K. apply rust_file; auto.
Qed.
Print Assumptions C46_rust.

(** JavaScript, when no module has two default imports under different names. *)
Lemma js_same cs1 cs2 : let t1 := build cs1 in let t2 := build cs2 in
  same_set (uses t1) (uses t2) ->
  (forall i j, In i (uses t1) -> In j (uses t1) -> js_import_kind i = KDefault -> js_import_kind j = KDefault ->
     js_import_module i = js_import_module j -> js_name i = js_name j) ->
  js_mods t1 = js_mods t2.
Proof.
  intros t1 t2 S U.
  pose proof (js_mods_sorted t1) as S1. pose proof (js_mods_sorted t2) as S2.
  assert (KS : forall m, In m (map fst (js_mods t1)) <-> In m (map fst (js_mods t2))).
  { intros m. pose proof (js_mods_keys cs1 m) as E1. pose proof (js_mods_keys cs2 m) as E2. cbv zeta in E1, E2.
    fold t1 in E1. fold t2 in E2. rewrite E1, E2.
    split; intros (i & H & R); exists i; (split; [apply S; auto|auto]). }
  apply (map_ext_get module_order); auto. intros m.
  destruct (map_get cmp_js_module m (js_mods t1)) as [r1|] eqn:G1.
  - pose proof (proj1 (get_in module_order m r1 _ S1) G1) as I1.
    destruct (map_get cmp_js_module m (js_mods t2)) as [r2|] eqn:G2.
    + pose proof (proj1 (get_in module_order m r2 _ S2) G2) as I2. f_equal.
      assert (ES : r_set r1 = r_set r2).
      { apply (increasing_unique element_order); eauto using js_elements_sorted. intros e.
        assert (X : forall cs r (I : In (m, r) (js_mods (build cs))), In e (r_set r) <->
           exists i, In i (uses (build cs)) /\ js_import_kind i = KNamed /\ js_import_module i = m /\ js_asks i = e).
        { intros cs r I. rewrite <- (in_js_elements cs m e). split; [eauto|]. intros (r' & I' & H).
          apply (get_in module_order) in I, I'; try apply js_mods_sorted. congruence. }
        rewrite (X cs1 r1 I1), (X cs2 r2 I2). split; intros (i & H & R); exists i; (split; [apply S; auto|auto]). }
      assert (ED : r_default r1 = r_default r2).
      { pose proof (js_default_in cs1 m r1 I1) as D1. pose proof (js_default_in cs2 m r2 I2) as D2. cbv zeta in *.
        fold t1 in D1. fold t2 in D2.
        assert (F : forall us d, first_default us m d -> exists i, In i us /\ js_import_kind i = KDefault /\
           js_import_module i = m /\ js_name i = d).
        { intros us d (b & i & a & -> & H1 & H2 & H3 & _). exists i. split; [apply in_elt|auto]. }
        destruct (r_default r1) as [d1|], (r_default r2) as [d2|]; auto.
        - apply F in D1 as (i & A1 & A2 & A3 & <-). apply F in D2 as (j & B1 & B2 & B3 & <-). f_equal.
          apply U; auto; [apply S; auto|congruence].
        - apply F in D1 as (i & A1 & A2 & A3 & _). exfalso. apply (D2 i); auto. apply S; auto.
        - apply F in D2 as (i & A1 & A2 & A3 & _). exfalso. apply (D1 i); auto. apply S; auto. }
      destruct r1, r2; cbn in *; congruence.
    + apply (get_none module_order) in G2. exfalso. apply G2, KS. apply in_map_iff. exists (m, r1). auto.
  - apply (get_none module_order) in G1. symmetry. apply (get_none module_order). intros H. apply G1. apply KS. exact H.
Qed.
Theorem C46_js_partial : forall relative cfg module_path cs1 cs2, let t1 := build cs1 in let t2 := build cs2 in
  same_set (uses t1) (uses t2) ->
  (forall i j, In i (uses t1) -> In j (uses t1) -> js_import_kind i = KDefault -> js_import_kind j = KDefault ->
     js_import_module i = js_import_module j -> js_name i = js_name j) ->
  same_header (js_lang relative) module_path t1 t2 /\
  (Forall js_named (uses t1) -> same_header_text (js_lang relative) cfg module_path t1 t2).
Proof.
  intros relative cfg mp cs1 cs2 t1 t2 S U. pose proof (walk_same cs1 cs2 S) as W. fold t1 t2 in W.
  assert (KM : js_mods t1 = js_mods t2) by (apply js_same; auto).
  assert (KW : js_wilds t1 = js_wilds t2) by (apply (collect_same wildcard_order), W).
  split.
  - exists (js_imports relative t1 mp new), tt. split; [reflexivity|]. cbn [ld_format_file js_lang].
    unfold js_imports, js_collect. rewrite !js_collect_eq.
    fold (js_mods t1) (js_mods t2) (js_wilds t1) (js_wilds t2). rewrite KM, KW. reflexivity.
  - intros N. pose proof (forall_same _ _ _ S N) as N2.
    exists (map (js_wildcard_line (quoted_text (ld_ops (js_lang relative) mp tt)) (js_specifier relative mp)) (js_wilds t1) ++
        map (js_module_line (quoted_text (ld_ops (js_lang relative) mp tt)) (js_specifier relative mp))
          (map module_view (js_mods t1))), tt. intros b1 b2 [R1 S1] [R2 S2].
    split; [apply js_file; auto|]. rewrite KM, KW. apply js_file; auto.
Qed.
Print Assumptions C46_js_partial.

Theorem C46_nix : forall cfg scoped cs1 cs2, let t1 := build cs1 in let t2 := build cs2 in
  same_set (uses t1) (uses t2) ->
  same_header nix_lang scoped t1 t2 /\
  (Forall nix_made (uses t1) -> (forall i, nix_used t1 i -> nix_named i) -> nix_values_ok cfg scoped t1 ->
   same_header_text nix_lang cfg scoped t1 t2).
Proof.
  intros cfg scoped cs1 cs2 t1 t2 S. pose proof (walk_same cs1 cs2 S) as W. fold t1 t2 in W.
  assert (FM : forall {A} (f : nix_import -> list A), same_set (flat_map f (walk_imports t1)) (flat_map f (walk_imports t2))).
  { intros A f x. rewrite !in_flat_map. split; intros (i & H & R); exists i; (split; [apply W; auto|auto]). }
  assert (KA : nix_args t1 = nix_args t2).
  { apply (increasing_unique str_order); try apply (inserts_increasing _ str_order).
    intros x. unfold nix_args. rewrite !(in_inserts _ str_order). apply FM. }
  assert (KW : nix_ws t1 = nix_ws t2).
  { apply (increasing_unique item_str_order); try apply (inserts_increasing _ item_str_order).
    intros x. unfold nix_ws. rewrite !(in_inserts _ item_str_order). apply FM. }
  assert (KI : nix_inherits t1 = nix_inherits t2).
  { apply (increasing_unique inherit_order); try apply (inserts_increasing _ inherit_order).
    intros x. unfold nix_inherits. rewrite !(in_inserts _ inherit_order). apply FM. }
  assert (KV : nix_vars t1 = nix_vars t2).
  { apply (increasing_unique nix_var_order); try apply (inserts_increasing _ nix_var_order).
    intros x. unfold nix_vars. rewrite !(in_inserts _ nix_var_order). apply FM. }
  split.
  - exists (nix_header scoped t1), tt. split; [reflexivity|].
    assert (E : nix_header scoped t2 = nix_header scoped t1); [|cbn [ld_format_file nix_lang]; rewrite E; reflexivity].
    unfold nix_header, nix_imports, nix_withs, nix_arguments.
    rewrite !nix_collect_eq, !nix_args_eq, !nix_ws_eq.
    fold (nix_inherits t1) (nix_inherits t2) (nix_vars t1) (nix_vars t2). rewrite KA, KW, KI, KV. reflexivity.
  - intros M N V.
    destruct (nix_ready cs1 M N) as (A1 & A2 & A3 & A4 & A5). fold t1 in A1, A2, A3, A4, A5.
    destruct (vars_docs cfg scoped cs1 V) as [docs D]. fold t1 in D.
    eexists _, tt. intros b1 b2 [R1 S1] [R2 S2]. split.
    + apply (nix_file cfg scoped t1 docs); auto.
    + rewrite KA, KW, KI, KV in *. apply (nix_file cfg scoped t2 docs); auto.
Qed.
Print Assumptions C46_nix.

(** ** Examples and counterexamples *)

(** The same imports in another order and with repetitions. *)
Example C46_example : let t1 := build (ex_calls ex_c) in let t2 := build (ex_calls (rev ex_c ++ ex_c)) in
  same_set (uses t1) (uses t2) /\ uses t1 <> uses t2 /\ same_header c_lang tt t1 t2 /\
  same_header_text c_lang ex_cfg tt t1 t2.
Proof.
  assert (S : same_set (uses (build (ex_calls ex_c))) (uses (build (ex_calls (rev ex_c ++ ex_c)))))
    by (vm_compute; intuition congruence).
  destruct (C46_c ex_cfg _ _ S) as [H1 H2]. split; [exact S|]. split; [vm_compute; discriminate|].
  split; [exact H1|]. apply H2. repeat constructor; discriminate.
Qed.
Lemma C46_js_example : let t1 := build (ex_calls ex_js) in let t2 := build (ex_calls (rev ex_js)) in
  same_set (uses t1) (uses t2) /\
  (forall i j, In i (uses t1) -> In j (uses t1) -> js_import_kind i = KDefault -> js_import_kind j = KDefault ->
     js_import_module i = js_import_module j -> js_name i = js_name j).
Proof.
  split; [vm_compute; intuition congruence|]. vm_compute. 
  intros i j [<-|[<-|[<-|[<-|H]]]] [<-|[<-|[<-|[<-|H']]]]; try discriminate; auto;
   repeat match goal with H : _ \/ _ |- _ => destruct H as [<-|H] | H : False |- _ => destruct H end; try discriminate; auto.
Qed.
(** Two default imports of a module: which one is imported depends on the order. *)
Theorem C46_js_refuted : let t1 := build (ex_calls ex_js_defaults) in let t2 := build (ex_calls (rev ex_js_defaults)) in
  same_set (uses t1) (uses t2) /\ ~ same_header (js_lang no_relative) None t1 t2 /\
  ~ same_header_text (js_lang no_relative) ex_cfg None t1 t2.
Proof.
  intros t1 t2. split; [vm_compute; intuition congruence|]. split.
  - intros (h & f & E1 & E2). vm_compute in E1, E2. congruence.
  - intros (h & f & H).
    assert (B1 : body_of (js_lang no_relative) ex_cfg None f t1 ($"a" ++ [10%N] ++ $"b"))
      by (destruct f; split; [vm_compute; reflexivity|plain_start]).
    assert (B2 : body_of (js_lang no_relative) ex_cfg None f t2 ($"b" ++ [10%N] ++ $"a"))
      by (destruct f; split; [vm_compute; reflexivity|plain_start]).
    destruct (H _ _ B1 B2) as [R1 R2].
    assert (X1 : file_renders (js_lang no_relative) ex_cfg None t1
      ($"import a from " ++ [34%N] ++ $"m" ++ [34%N] ++ $";" ++ [10; 10]%N ++ $"a" ++ [10%N] ++ $"b" ++ [10%N])) by (vm_compute; reflexivity).
    assert (X2 : file_renders (js_lang no_relative) ex_cfg None t2
      ($"import b from " ++ [34%N] ++ $"m" ++ [34%N] ++ $";" ++ [10; 10]%N ++ $"b" ++ [10%N] ++ $"a" ++ [10%N])) by (vm_compute; reflexivity).
    assert (SI : forall a b : str, (a, true) = (b, true) -> a = b) by congruence.
    unfold file_renders in *. rewrite R1 in X1. rewrite R2 in X2. apply SI in X1, X2.
    destruct h as [|l h]; [discriminate|].
    change (file_text (c_newline ex_cfg) (l :: h) ($"a" ++ [10%N] ++ $"b")) with
      ((stack [10%N] (l :: h) ++ ([10; 10]%N ++ $"a" ++ [10%N] ++ $"b")) ++ [10%N]) in X1.
    change (file_text (c_newline ex_cfg) (l :: h) ($"b" ++ [10%N] ++ $"a")) with
      ((stack [10%N] (l :: h) ++ ([10; 10]%N ++ $"b" ++ [10%N] ++ $"a")) ++ [10%N]) in X2.
    rewrite <- app_assoc in X1, X2.
    assert (A1 := app_inv_tail (([10; 10]%N ++ $"a" ++ [10%N] ++ $"b") ++ [10%N]) (stack [10%N] (l :: h))
      ($"import a from " ++ [34%N] ++ $"m" ++ [34%N] ++ $";") X1).
    assert (A2 := app_inv_tail (([10; 10]%N ++ $"b" ++ [10%N] ++ $"a") ++ [10%N]) (stack [10%N] (l :: h))
      ($"import b from " ++ [34%N] ++ $"m" ++ [34%N] ++ $";") X2).
    rewrite A1 in A2. discriminate.
Qed.
Print Assumptions C46_js_refuted.

(** ** C47 *)

Lemma nodup_on {A B} (f : A -> B) l : (forall x y, In x l -> In y l -> f x = f y -> x = y) -> NoDup l -> NoDup (map f l).
Proof.
  intros I N. induction N as [|x l H N IH]; cbn; constructor.
  - intros X. apply in_map_iff in X as [y [E Y]]. apply I in E; [subst; auto|right; auto|left; auto].
  - apply IH. intros; apply I; auto; right; auto.
Qed.
Lemma pair_irrefl {A B} (R1 : A -> A -> Prop) (R2 : B -> B -> Prop) :
  (forall x, ~ R1 x x) -> (forall x, ~ R2 x x) -> forall x, ~ pair_before R1 R2 x x.
Proof. intros I1 I2 x [H|[_ H]]; [apply (I1 _ H)|apply (I2 _ H)]. Qed.
Lemma opt_irrefl x : ~ opt_before name_before x x.
Proof. destruct x; cbn; auto. apply name_before_irrefl. Qed.
Lemma text_irrefl x : ~ text_before x x.
Proof.
  intros (p & a & b & E1 & E2 & H). subst. apply app_inv_head in E2. subst. destruct b as [|n b]; auto. apply N.lt_irrefl in H; auto.
Qed.
Lemma opt_text_inj a b : (forall x y, a = Some x -> b = Some y -> content x = content y -> x = y) ->
  opt_text a = opt_text b -> a = b.
Proof. destruct a, b; cbn; try discriminate; auto. intros H [= E]. f_equal. apply H; auto. Qed.
Lemma module_irrefl x : ~ module_before x x.
Proof.
  destruct x as [p|s]; cbn; [|apply name_before_irrefl]. induction p as [|c p IH]; cbn; auto.
  intros [H|[_ H]]; auto. destruct c; cbn in H; auto. apply (text_irrefl _ H).
Qed.
Lemma element_irrefl x : ~ element_before x x.
Proof. destruct x; cbn; [apply name_before_irrefl|]. apply (pair_irrefl _ _ name_before_irrefl name_before_irrefl). Qed.

(** Java and C# compare names by text: every simple name, and every namespace,
    is imported at most once. *)
Theorem C47_java : forall cfg package cs, let t := build cs in
  opt_named package -> Forall (fun i => named (ja_package i) /\ named (ja_name i)) (uses t) ->
  exists imports f, NoDup (map (fun k => content (snd k)) imports) /\
    (forall k, In k imports -> exists i, In i (uses t) /\ k = (ja_package i, ja_name i)) /\
    (forall body, body_of java_lang cfg package f t body ->
       file_renders java_lang cfg package t
         (file_text (c_newline cfg)
            (package_then (option_map java_package_line package) (map java_line imports)) body)).
Proof.
  intros cfg p cs t NP N. destruct (C40_java_imports cfg p cs NP N) as (ims & f & _ & M & ND & _ & R).
  exists ims, f. split; auto. split; auto. intros k H. apply M in H as [H _]. exact H.
Qed.
Print Assumptions C47_java.
Theorem C47_csharp : forall cfg namespace cs, let t := build cs in
  Forall (fun i => named (cs_namespace i)) (uses t) ->
  exists usings f, NoDup usings /\
    (forall n, In n usings -> exists i, In i (uses t) /\ content (cs_namespace i) = n) /\
    (namespace = None -> forall body, body_of csharp_lang cfg namespace f t body ->
       file_renders csharp_lang cfg namespace t (file_text (c_newline cfg) (map cs_line usings) body)) /\
    (forall ns doc, namespace = Some ns -> named ns ->
       items t = doc_items doc -> doc_ok doc = true ->
       let l := doc_atoms (ld_ops csharp_lang namespace f) cfg doc in
       visible_ends l -> level_body l ->
       exists block, file_renders csharp_lang cfg namespace t (file_text (c_newline cfg) (map cs_line usings) block)).
Proof.
  intros cfg ns cs t N. destruct (C37_csharp_usings cfg ns cs N) as (ims & us & f & M & S & MU & _ & _ & R1 & R2).
  exists us, f. split; [|split; [|split]].
  - eapply sorted_nodup; [apply text_irrefl|exact S].
  - intros n H. apply MU in H as [name H]. apply M in H as [(i & Hi & [= -> ->]) _]. eauto.
  - exact R1.
  - intros n doc E1 E2 E3 E4 l V LB. destruct (R2 n doc E1 E2 E3 E4 V LB) as (ls & _ & _ & R). eauto.
Qed.
Print Assumptions C47_csharp.

(** The others, when names with the same text are given as the same kind of
    string. *)
Theorem C47_c_partial : forall cfg cs body, let t := build cs in
  Forall (fun i => named (c_path i)) (uses t) -> one_kind (fun i => [c_path i]) (uses t) ->
  body_of c_lang cfg tt tt t body ->
  exists lit keys, literal_of c_lang lit /\ NoDup (map (fun k => (content (fst k), snd k)) keys) /\
    (forall path system, In (path, system) keys -> exists i, In i (uses t) /\ c_path i = path /\ c_system i = system) /\
    file_renders c_lang cfg tt t (file_text (c_newline cfg) (map (c_line lit) keys) body).
Proof.
  intros cfg cs body t N O B. destruct (C36_c_includes cfg cs body N B) as (lit & ks & L & S & M & R).
  exists lit, ks. split; auto. split; [|split; auto; intros; apply M; auto].
  apply nodup_on.
  - intros [x1 x2] [y1 y2] X Y [= E1 E2]. cbn in *. apply M in X as (i & Hi & <- & <-). apply M in Y as (j & Hj & <- & <-).
    f_equal; auto. apply (O i j); cbn; auto.
  - eapply sorted_nodup; [apply pair_irrefl; [apply name_before_irrefl|]|exact S]. intros x [H1 H2]. congruence.
Qed.
Print Assumptions C47_c_partial.
Theorem C47_swift_partial : forall cfg cs body, let t := build cs in
  Forall (fun i => named (sw_module i)) (uses t) -> one_kind (fun i => [sw_module i]) (uses t) ->
  body_of swift_lang cfg tt tt t body ->
  exists keys, NoDup (map content keys) /\
    (forall m, In m keys -> exists i, In i (uses t) /\ sw_module i = m) /\
    file_renders swift_lang cfg tt t (file_text (c_newline cfg) (map swift_line keys) body).
Proof.
  intros cfg cs body t N O B. destruct (C45_swift_imports cfg cs body N B) as (ks & S & M & R).
  exists ks. split; [|split; auto; intros; apply M; auto].
  apply nodup_on; [|eapply sorted_nodup; [apply name_before_irrefl|exact S]].
  intros x y X Y E. apply M in X as (i & Hi & <-). apply M in Y as (j & Hj & <-). apply (O i j); cbn; auto.
Qed.
Print Assumptions C47_swift_partial.
Theorem C47_go_partial : forall cfg package cs body, let t := build cs in
  opt_named package -> Forall (fun i => named (go_module i)) (uses t) -> one_kind (fun i => [go_module i]) (uses t) ->
  body_of go_lang cfg package tt t body ->
  exists lit keys, literal_of go_lang lit /\ NoDup (map content keys) /\
    (forall m, In m keys -> exists i, In i (uses t) /\ go_module i = m) /\
    file_renders go_lang cfg package t
      (file_text (c_newline cfg)
         (package_then (option_map go_package_line package) (map (go_line lit) keys)) body).
Proof.
  intros cfg p cs body t NP N O B. destruct (C39_go_imports cfg p cs body NP N B) as (lit & ks & L & S & M & R).
  exists lit, ks. split; auto. split; [|split; auto; intros; apply M; auto].
  apply nodup_on; [|eapply sorted_nodup; [apply name_before_irrefl|exact S]].
  intros x y X Y E. apply M in X as (i & Hi & <-). apply M in Y as (j & Hj & <-). apply (O i j); cbn; auto.
Qed.
Print Assumptions C47_go_partial.
Theorem C47_dart_partial : forall cfg cs body, let t := build cs in
  Forall (fun i => opt_named (da_alias i)) (uses t) ->
  one_kind (fun i => da_path i :: opt_name (da_alias i)) (uses t) ->
  body_of dart_lang cfg tt tt t body ->
  exists lit keys, literal_of dart_lang lit /\ NoDup (map as_text keys) /\
    (forall path alias, In (path, alias) keys -> exists i, In i (uses t) /\ da_path i = path /\ da_alias i = alias) /\
    file_renders dart_lang cfg tt t (file_text (c_newline cfg) (map (dart_line lit) keys) body).
Proof.
  intros cfg cs body t N O B. destruct (C38_dart_imports cfg cs body N B) as (lit & ks & L & S & M & R).
  exists lit, ks. split; auto. split; [|split; auto; intros; apply M; auto].
  apply nodup_on; [|eapply sorted_nodup; [apply (pair_irrefl _ _ name_before_irrefl opt_irrefl)|exact S]].
  intros [x1 x2] [y1 y2] X Y [= E1 E2]. cbn in *.
  apply M in X as (_ & i & Hi & <- & <-). apply M in Y as (_ & j & Hj & <- & <-).
  f_equal; [apply (O i j); cbn; auto|]. apply opt_text_inj; auto.
  intros x y A1 A2 E. rewrite A1, A2 in *. apply (O i j); auto; cbn; [rewrite A1|rewrite A2]; cbn; auto.
Qed.
Print Assumptions C47_dart_partial.

Definition py_names (i : py_import) : list item_str :=
  match i with
  | PyModule m a => m :: opt_name a
  | PyImport (Unqualified m) n a => m :: n :: opt_name a
  | PyImport (Qualified m a) n al => m :: opt_name a ++ n :: opt_name al
  end.
Lemma as_text_inj k1 k2 : (forall x y, x = fst k1 \/ In x (opt_name (snd k1)) ->
    y = fst k2 \/ In y (opt_name (snd k2)) -> content x = content y -> x = y) -> as_text k1 = as_text k2 -> k1 = k2.
Proof.
  destruct k1 as [x1 x2], k2 as [y1 y2]. cbn. intros H E. unfold as_text in E. cbn in E. injection E as E1 E2. f_equal.
  - apply H; auto.
  - apply opt_text_inj; auto. intros x y -> -> E. apply H; cbn; auto.
Qed.
Theorem C47_python_partial : forall cfg cs body, let t := build cs in
  Forall py_named (uses t) -> one_kind py_names (uses t) ->
  body_of python_lang cfg tt tt t body ->
  exists froms imports,
    NoDup (map (fun m => content (fst m)) froms) /\
    (forall m names, In (m, names) froms -> NoDup (map as_text names)) /\
    NoDup (map as_text imports) /\
    file_renders python_lang cfg tt t
      (file_text (c_newline cfg) (map py_from_line froms ++ map py_import_line imports) body).
Proof.
  intros cfg cs body t N O B.
  destruct (C43_python_imports cfg cs body N B) as (fs & ims & S1 & NS & M1 & S2 & M2 & R). fold t in M1, M2.
  exists fs, ims. split; [|split; [|split]]; auto.
  - rewrite <- map_map. apply nodup_on; [|eapply sorted_nodup; [apply name_before_irrefl|exact S1]].
    assert (X : forall x, In x (map fst fs) -> exists n a, In (PyImport (Unqualified x) n a) (uses t)).
    { intros x H. apply in_map_iff in H as [[m ns] [<- H]]. destruct (NS m ns H) as [NE _].
      destruct ns as [|[n a] ns]; [congruence|]. exists n, a. apply M1. eexists. split; [exact H|left; auto]. }
    intros x y Hx Hy E. apply X in Hx as (n1 & a1 & Hx). apply X in Hy as (n2 & a2 & Hy).
    apply (O _ _ x y Hx Hy); cbn; auto.
  - intros m ns H. destruct (NS m ns H) as [_ S]. 
    apply nodup_on; [|eapply sorted_nodup; [apply (pair_irrefl _ _ name_before_irrefl opt_irrefl)|exact S]].
    intros k1 k2 H1 H2. apply as_text_inj. intros x y Hx Hy.
    destruct k1 as [n1 a1], k2 as [n2 a2].
    assert (U1 : In (PyImport (Unqualified m) n1 a1) (uses t)) by (apply M1; eauto).
    assert (U2 : In (PyImport (Unqualified m) n2 a2) (uses t)) by (apply M1; eauto).
    cbn in Hx, Hy. apply (O _ _ x y U1 U2); cbn; intuition.
  - apply nodup_on; [|eapply sorted_nodup; [apply (pair_irrefl _ _ name_before_irrefl opt_irrefl)|exact S2]].
    assert (X : forall k, In k ims -> exists i, In i (uses t) /\ forall x, x = fst k \/ In x (opt_name (snd k)) -> In x (py_names i)).
    { intros [m a] H. apply M2 in H as [[n [al H]]|H]; eexists; (split; [exact H|]); cbn; intros x Hx; rewrite ?in_app_iff; intuition. }
    intros k1 k2 H1 H2. apply as_text_inj. intros x y Hx Hy.
    destruct (X k1 H1) as (i & Hi & Ii). destruct (X k2 H2) as (j & Hj & Ij). apply (O i j); auto.
Qed.
Print Assumptions C47_python_partial.

Definition rust_names (i : rust_import) : list item_str :=
  ru_name i :: opt_name (ru_alias i) ++ match ru_module i with RModule _ m => [m] | RAliased m a => [m; a] end.
Definition leaf_names (l : rust_leaf) : list item_str :=
  match l with LSelf a => opt_name a | LName n a => n :: opt_name a end.
(** A leaf as text: the member, if it is not the module itself, and its alias. *)
Definition leaf_as_text (l : rust_leaf) : option str * option str :=
  match l with LSelf a => (None, opt_text a) | LName n a => (Some (content n), opt_text a) end.
Theorem C47_rust_partial : forall cfg mode cs body, let t := build cs in
  Forall rust_named (uses t) -> one_kind rust_names (uses t) ->
  body_of rust_lang cfg mode tt t body ->
  exists mods,
    NoDup (map (fun m => content (fst m)) mods) /\
    (forall m leaves, In (m, leaves) mods -> NoDup (map leaf_as_text leaves)) /\
    file_renders rust_lang cfg mode t (file_text (c_newline cfg) (map rust_use_line mods) body).
Proof.
  intros cfg mode cs body t N O B.
  destruct (C44_rust_uses cfg mode cs body N B) as (ms & S1 & NS & M & R). fold t in M.
  exists ms. split; [|split]; auto.
  - rewrite <- map_map. apply nodup_on; [|eapply sorted_nodup; [apply name_before_irrefl|exact S1]].
    assert (X : forall x, In x (map fst ms) -> exists i, In i (uses t) /\ In x (rust_names i)).
    { intros x H. apply in_map_iff in H as [[m ns] [<- H]]. destruct (NS m ns H) as [NE _].
      destruct ns as [|l ns]; [congruence|]. destruct (proj1 (M m l)) as (i & Hi & A); [eexists; split; [exact H|left; auto]|].
      exists i. split; auto. unfold rust_asks in A. unfold rust_names. right. apply in_or_app. right.
      destruct (ru_module i) as [md m'|m' a]; destruct A as [-> _]; left; auto. }
    intros x y Hx Hy E. apply X in Hx as (i & Hi & Ii). apply X in Hy as (j & Hj & Ij). apply (O i j); auto.
  - intros m ls H. destruct (NS m ls H) as [_ S].
    apply nodup_on; [|eapply sorted_nodup; [apply leaf_before_irrefl|exact S]].
    assert (X : forall l, In l ls -> exists i, In i (uses t) /\ forall x, In x (leaf_names l) -> In x (rust_names i)).
    { intros l Hl. destruct (proj1 (M m l)) as (i & Hi & A); [eauto|]. exists i. split; auto.
      intros x Hx. unfold rust_asks in A. unfold rust_names. destruct (ru_module i) as [md m'|m' a]; destruct A as [-> A].
      - destruct (rust_effective mode md); [subst l|destruct A as [-> _]]; cbn in *; rewrite ?in_app_iff; intuition.
      - subst l. cbn in *. rewrite in_app_iff. cbn. intuition. }
    intros l1 l2 H1 H2 E. destruct (X l1 H1) as (i & Hi & Ii). destruct (X l2 H2) as (j & Hj & Ij).
    assert (C : forall x y, In x (leaf_names l1) -> In y (leaf_names l2) -> content x = content y -> x = y) by (intros; apply (O i j); auto).
    destruct l1 as [a1|n1 a1], l2 as [a2|n2 a2]; try discriminate; unfold leaf_as_text in E; injection E as E.
    + f_equal. apply opt_text_inj; auto. intros x y -> ->. apply C; cbn; auto.
    + f_equal; [apply C; cbn; auto|]. apply opt_text_inj; auto. intros x y -> ->. apply C; cbn; auto.
Qed.
Print Assumptions C47_rust_partial.

Definition js_names (i : js_import) : list item_str :=
  js_name i :: opt_name (js_alias i) ++ match js_import_module i with MGlobal m => [m] | MPath _ => [] end.
Definition module_text (m : js_module) : path + str := match m with MPath p => inl p | MGlobal s => inr (content s) end.
Definition element_text (e : js_element) : str * option str :=
  match e with EPlain n => (content n, None) | EAliased n a => (content n, Some (content a)) end.
Definition element_names (e : js_element) : list item_str :=
  match e with EPlain n => [n] | EAliased n a => [n; a] end.
Theorem C47_js_partial : forall relative cfg module_path cs body, let t := build cs in
  Forall js_named (uses t) -> one_kind js_names (uses t) ->
  body_of (js_lang relative) cfg module_path tt t body ->
  exists wildcards modules,
    NoDup (map (fun k => (module_text (fst k), content (snd k))) wildcards) /\
    NoDup (map (fun k => module_text (fst k)) modules) /\
    (forall m default elements, In (m, (default, elements)) modules -> NoDup (map element_text elements)) /\
    file_renders (js_lang relative) cfg module_path t
      (file_text (c_newline cfg)
         (map (js_wildcard_line (quoted_text js_ops) (js_specifier relative module_path)) wildcards ++
          map (js_module_line (quoted_text js_ops) (js_specifier relative module_path)) modules) body).
Proof.
  intros relative cfg mp cs body t N O B.
  destruct (C41_js_imports relative cfg mp cs body N B) as (ws & ms & S1 & M1 & S2 & M2 & E & R). fold t in M1, M2, E.
  assert (MI : forall i j, In i (uses t) -> In j (uses t) ->
     module_text (js_import_module i) = module_text (js_import_module j) -> js_import_module i = js_import_module j).
  { intros i j Hi Hj X. destruct (js_import_module i) as [p|s] eqn:E1, (js_import_module j) as [q|u] eqn:E2; cbn in X; try discriminate.
    - injection X as ->. reflexivity.
    - injection X as X. f_equal. apply (O i j); auto; unfold js_names; [rewrite E1|rewrite E2]; cbn; right; apply in_or_app; right; left; auto. }
  exists ws, ms. split; [|split; [|split]]; auto.
  - apply nodup_on; [|eapply sorted_nodup; [apply (pair_irrefl _ _ module_irrefl name_before_irrefl)|exact S1]].
    intros [m1 n1] [m2 n2] H1 H2 [= E1 E2]. apply M1 in H1 as (i & Hi & _ & <- & <-). apply M1 in H2 as (j & Hj & _ & <- & <-).
    f_equal; auto. apply (O i j); cbn; auto.
  - rewrite <- (map_map fst module_text). apply nodup_on; [|eapply sorted_nodup; [apply module_irrefl|exact S2]].
    intros m1 m2 H1 H2 X. apply M2 in H1 as (i & Hi & _ & <-). apply M2 in H2 as (j & Hj & _ & <-). auto.
  - intros m d els H. destruct (E m d els H) as (S & ME & _).
    apply nodup_on; [|eapply sorted_nodup; [apply element_irrefl|exact S]].
    intros e1 e2 H1 H2 X. apply ME in H1 as (i & Hi & _ & _ & <-). apply ME in H2 as (j & Hj & _ & _ & <-).
    unfold js_asks in *. destruct (js_alias i) as [a|] eqn:A1, (js_alias j) as [b|] eqn:A2; cbn in X; try discriminate.
    + injection X as X1 X2. f_equal.
      * apply (O i j); cbn; auto.
      * apply (O i j); auto; unfold js_names; [rewrite A1|rewrite A2]; cbn; auto.
    + injection X as X1. f_equal. apply (O i j); cbn; auto.
Qed.
Print Assumptions C47_js_partial.

(** The arguments of a Nix file are compared by text.  Names by [inherit] and [with]
    are not. *)
Theorem C47_nix_partial : forall cfg scoped cs body, let t := build cs in
  Forall nix_made (uses t) -> (forall i, nix_used t i -> nix_named i) -> nix_values_ok cfg scoped t ->
  body_of nix_lang cfg scoped tt t body ->
  exists arguments withs inherits lines,
    NoDup arguments /\
    ((forall w1 n1 w2 n2, In (NWith w1 n1) (uses t) -> In (NWith w2 n2) (uses t) -> content w1 = content w2 -> w1 = w2) ->
     NoDup (map content withs)) /\
    ((forall p1 n1 p2 n2, nix_used t (NInherit p1 n1) -> nix_used t (NInherit p2 n2) ->
       content p1 = content p2 -> content n1 = content n2 -> p1 = p2 /\ n1 = n2) ->
     NoDup (map (fun k => (content (fst k), content (snd k))) inherits)) /\
    let p := indent_text (c_indentation cfg) 1 in
    file_renders nix_lang cfg scoped t
      (file_text (c_newline cfg)
         (sections [if scoped then [] else nix_arguments_section p arguments;
                    nix_withs_section withs;
                    nix_let_section p inherits lines]) body).
Proof.
  intros cfg scoped cs body t MD N V B.
  destruct (C42_nix_header cfg scoped cs body MD N V B) as (args & ws & ins & vs & ls & S1 & M1 & S2 & M2 & S3 & M3 & S4 & M4 & F & R).
  exists args, ws, ins, ls. split; [eapply sorted_nodup; [apply text_irrefl|exact S1]|]. split; [|split; auto].
  - intros U. apply nodup_on; [|eapply sorted_nodup; [apply name_before_irrefl|exact S2]].
    intros x y H1 H2 E. apply M2 in H1 as [n1 H1]. apply M2 in H2 as [n2 H2]. eauto.
  - intros U. apply nodup_on; [|eapply sorted_nodup; [apply (pair_irrefl _ _ name_before_irrefl name_before_irrefl)|exact S3]].
    intros [p1 n1] [p2 n2] H1 H2 [= E1 E2]. cbn in *. apply M3 in H1, H2.
    destruct (U p1 n1 p2 n2 H1 H2 E1 E2). congruence.
Qed.
Print Assumptions C47_nix_partial.

(** A use given as a static and as an owned string. *)
Definition twice {A} (f : item_str -> A) (s : str) : list A := [f (Static s); f (Box s)].
Definition q (s : str) : str := [34%N] ++ s ++ [34%N].
Example C47_java_example : let t := build (ex_calls (twice (fun p => mk_java p (Static $"List")) $"java.util")) in
  Forall (fun i => named (ja_package i) /\ named (ja_name i)) (uses t) /\ NoDup (uses t) /\
  file_renders java_lang ex_cfg None t
    (stack [10%N] [$"import java.util.List;"; []; $"List"; $"List"; []]).
Proof.
  split; [repeat constructor; discriminate|]. split; [|vm_compute; reflexivity].
  repeat constructor; vm_compute; intuition congruence.
Qed.
Example C47_csharp_example : let t := build (ex_calls (twice (fun p => mk_cs p (Static $"List") false) $"System")) in
  Forall (fun i => named (cs_namespace i)) (uses t) /\ NoDup (uses t) /\
  file_renders csharp_lang ex_cfg None t
    (stack [10%N] [$"using System;"; []; $"List"; $"List"; []]).
Proof.
  split; [repeat constructor; discriminate|]. split; [|vm_compute; reflexivity].
  repeat constructor; vm_compute; intuition congruence.
Qed.
Example C47_example :
  one_kind (fun i => [c_path i]) (uses (build (ex_calls ex_c))) /\
  one_kind py_names (uses (build (ex_calls ex_py))) /\
  one_kind js_names (uses (build (ex_calls ex_js))).
Proof.
  assert (H : forall {LI} (names : LI -> list item_str) us,
    (forall i a, In i us -> In a (names i) -> exists s, a = Static s) -> one_kind names us).
  { intros LI names us H i j a b Hi Hj Ha Hb E. destruct (H i a Hi Ha), (H j b Hj Hb). subst. cbn in E. congruence. }
  repeat split; apply H; vm_compute; intros i a Hi Ha;
    repeat match goal with
           | H : _ \/ _ |- _ => destruct H as [<-|H]
           | H : False |- _ => destruct H
           end; eauto.
Qed.
Theorem C47_c_refuted : file_renders c_lang ex_cfg tt
  (build (ex_calls (twice (fun p => mk_c p (Static $"f") true) $"a.h")))
  (stack [10%N] [$"#include <a.h>"; $"#include <a.h>"; []; $"f"; $"f"; []]).
Proof. vm_compute. reflexivity. Qed.
Print Assumptions C47_c_refuted.
Theorem C47_swift_refuted : file_renders swift_lang ex_cfg tt
  (build (ex_calls (twice (fun p => mk_swift p (Static $"f")) $"M")))
  (stack [10%N] [$"import M"; $"import M"; []; $"f"; $"f"; []]).
Proof. vm_compute. reflexivity. Qed.
Print Assumptions C47_swift_refuted.
(** Go rejects a file that imports a package twice under one name. *)
Theorem C47_go_refuted : file_renders go_lang ex_cfg None
  (build (ex_calls (twice (fun p => mk_go p (Static $"Println")) $"fmt")))
  (stack [10%N] [$"import " ++ q $"fmt"; $"import " ++ q $"fmt"; []; $"fmt.Println"; $"fmt.Println"; []]).
Proof. vm_compute. reflexivity. Qed.
Print Assumptions C47_go_refuted.
Theorem C47_dart_refuted : file_renders dart_lang ex_cfg tt
  (build (ex_calls (twice (fun p => mk_dart p (Static $"f") None) $"a.dart")))
  (stack [10%N] [$"import " ++ q $"a.dart" ++ $";"; $"import " ++ q $"a.dart" ++ $";"; []; $"f"; $"f"; []]).
Proof. vm_compute. reflexivity. Qed.
Print Assumptions C47_dart_refuted.
Theorem C47_python_refuted : file_renders python_lang ex_cfg tt
  (build (ex_calls (twice (fun p => PyImport (Unqualified p) (Static $"f") None) $"m")))
  (stack [10%N] [$"from m import f"; $"from m import f"; []; $"f"; $"f"; []]).
Proof. vm_compute. reflexivity. Qed.
Print Assumptions C47_python_refuted.
(** Rust rejects both. *)
Theorem C47_rust_refuted :
  file_renders rust_lang ex_cfg Direct
    (build (ex_calls (twice (fun p => rust_new p (Static $"f")) $"m")))
    (stack [10%N] [$"use m::f;"; $"use m::f;"; []; $"f"; $"f"; []]) /\
  file_renders rust_lang ex_cfg Direct
    (build (ex_calls (twice (fun n => rust_new (Static $"m") n) $"f")))
    (stack [10%N] [$"use m::{f, f};"; []; $"f"; $"f"; []]).
Proof. split; vm_compute; reflexivity. Qed.
Print Assumptions C47_rust_refuted.
(** So does JavaScript. *)
Theorem C47_js_refuted : file_renders (js_lang no_relative) ex_cfg None
  (build (ex_calls (twice (fun p => js_new (MGlobal p) (Static $"f")) $"m")))
  (stack [10%N] [$"import {f} from " ++ q $"m" ++ $";"; $"import {f} from " ++ q $"m" ++ $";"; []; $"f"; $"f"; []]).
Proof. vm_compute. reflexivity. Qed.
Print Assumptions C47_js_refuted.
(** And Nix. *)
Theorem C47_nix_refuted : file_renders nix_lang ex_cfg true
  (build (ex_calls (twice (fun p => NInherit p (Static $"x")) $"lib")))
  (stack [10%N] [$"let"; $"    inherit (lib) x;"; $"    inherit (lib) x;"; $"in"; []; $"x"; $"x"; []]).
Proof. vm_compute. reflexivity. Qed.
Print Assumptions C47_nix_refuted.

(** ** C48 *)

Definition ends_ok (l : list str) : Prop := l <> [] -> last l [] <> [].
Lemma ends_cat a b : (b = [] -> ends_ok a) -> ends_ok b -> ends_ok (a ++ b).
Proof.
  intros A B. destruct b as [|x b] using rev_ind.
  - rewrite app_nil_r. auto.
  - intros _. rewrite app_assoc, last_last. specialize (B (fun E => app_cons_not_nil b [] x (eq_sym E))).
    rewrite last_last in B. exact B.
Qed.
Lemma last_line {A} (line : A -> str) (ks : list A) : (forall k, line k <> []) -> ends_ok (map line ks).
Proof.
  intros H NE. destruct ks as [|k ks _] using rev_ind; [contradiction|]. rewrite map_app. cbn. rewrite last_last. apply H.
Qed.
Lemma last_package (package : option str) lines : (forall p, package = Some p -> p <> []) -> ends_ok lines ->
  ends_ok (package_then package lines).
Proof.
  intros NP L. destruct package as [p|]; auto. cbn. destruct lines as [|l ls].
  - intros _. cbn. auto.
  - apply (ends_cat [p; []]); auto. discriminate.
Qed.
Theorem C48_c : forall cfg cs, let t := build cs in
  Forall (fun i => named (c_path i)) (uses t) -> header_then_body c_lang cfg tt t.
Proof.
  intros cfg cs t N. exists (map (c_line (quoted_text (ld_ops c_lang tt tt))) (c_keys t)), tt.
  split; [apply last_line; intros [p []]; discriminate|]. intros body [R S]. apply c_file; auto.
Qed.
Print Assumptions C48_c.
Theorem C48_swift : forall cfg cs, let t := build cs in
  Forall (fun i => named (sw_module i)) (uses t) -> header_then_body swift_lang cfg tt t.
Proof.
  intros cfg cs t N. exists (map swift_line (swift_keys t)), tt.
  split; [apply last_line; intros p; discriminate|]. intros body [R S]. apply swift_file; auto.
Qed.
Print Assumptions C48_swift.
Theorem C48_go : forall cfg package cs, let t := build cs in
  opt_named package -> Forall (fun i => named (go_module i)) (uses t) -> header_then_body go_lang cfg package t.
Proof.
  intros cfg p cs t NP N.
  exists (package_then (option_map go_package_line p) (map (go_line (quoted_text (ld_ops go_lang p tt))) (go_keys t))), tt.
  split; [|intros body [R S]; apply go_file; auto].
  apply last_package; [|apply last_line; discriminate]. destruct p; cbn; [intros ? [= <-]|]; discriminate.
Qed.
Print Assumptions C48_go.
Theorem C48_dart : forall cfg cs, let t := build cs in
  Forall (fun i => opt_named (da_alias i)) (uses t) -> header_then_body dart_lang cfg tt t.
Proof.
  intros cfg cs t N. exists (map (dart_line (quoted_text (ld_ops dart_lang tt tt))) (dart_keys t)), tt.
  split; [apply last_line; intros [p [a|]]; discriminate|]. intros body [R S]. apply dart_file; auto.
Qed.
Print Assumptions C48_dart.
Theorem C48_java : forall cfg package cs, let t := build cs in
  opt_named package -> Forall (fun i => named (ja_package i) /\ named (ja_name i)) (uses t) ->
  header_then_body java_lang cfg package t.
Proof.
  intros cfg p cs t NP N.
  exists (package_then (option_map java_package_line p) (map java_line (java_chosen p t))), (java_format p t).
  split; [|intros body [R S]; apply java_file; auto].
  apply last_package; [|apply last_line; discriminate]. destruct p; cbn; [intros ? [= <-]|]; discriminate.
Qed.
Print Assumptions C48_java.
(** C#: with a namespace, the body's lines are one level deeper in its block. *)
Theorem C48_csharp : forall cfg namespace cs, let t := build cs in
  Forall (fun i => named (cs_namespace i)) (uses t) ->
  match namespace with
  | None => header_then_body csharp_lang cfg None t
  | Some ns => named ns -> exists header f, (header <> [] -> last header [] <> []) /\
      forall doc, items t = doc_items doc -> doc_ok doc = true ->
        let l := doc_atoms (ld_ops csharp_lang namespace f) cfg doc in
        visible_ends l -> level_body l ->
        exists lines,
          renders csharp_lang cfg namespace f t (stack (c_newline cfg) lines) /\
          (Forall (fun a => no_newline (a_text a)) l -> Forall no_newline lines) /\
          file_renders csharp_lang cfg namespace t
            (file_text (c_newline cfg) header
               (stack (c_newline cfg)
                  (($"namespace " ++ content ns ++ $" {") ::
                   map (indent_line (indent_text (c_indentation cfg) 1)) lines ++ [$"}"])))
  end.
Proof.
  intros cfg ns cs t N. destruct (C37_csharp_usings cfg ns cs N) as (ims & us & f & _ & _ & _ & _ & _ & R1 & R2).
  assert (L : ends_ok (map cs_line us)) by (apply last_line; intros; discriminate).
  destruct ns as [ns|].
  - intros NN. exists (map cs_line us), f. split; auto. intros doc E OK l V LB. apply (R2 ns doc eq_refl NN E OK V LB).
  - exists (map cs_line us), f. split; auto.
Qed.
Print Assumptions C48_csharp.
Theorem C48_python : forall cfg cs, let t := build cs in
  Forall py_named (uses t) -> header_then_body python_lang cfg tt t.
Proof.
  intros cfg cs t N. exists (map py_from_line (py_froms t) ++ map py_import_line (py_mods t)), tt.
  split; [|intros body [R S]; apply py_file; auto].
  apply ends_cat; [intros _|]; apply last_line; discriminate.
Qed.
Print Assumptions C48_python.
Theorem C48_rust : forall cfg mode cs, let t := build cs in
  Forall rust_named (uses t) -> header_then_body rust_lang cfg mode t.
Proof.
  intros cfg mode cs t N. exists (map rust_use_line (rust_mods mode t)), tt.
  split; [apply last_line; intros []; discriminate|]. intros body [R S]. apply rust_file; auto.
Qed.
Print Assumptions C48_rust.
Theorem C48_js : forall relative cfg module_path cs, let t := build cs in
  Forall js_named (uses t) -> header_then_body (js_lang relative) cfg module_path t.
Proof.
  intros relative cfg mp cs t N.
  exists (map (js_wildcard_line (quoted_text (ld_ops (js_lang relative) mp tt)) (js_specifier relative mp)) (js_wilds t) ++
        map (js_module_line (quoted_text (ld_ops (js_lang relative) mp tt)) (js_specifier relative mp))
          (map module_view (js_mods t))), tt.
  split; [|intros body [R S]; apply js_file; auto].
  apply ends_cat; [intros _|]; apply last_line; [discriminate|]. intros [m [d e]]. discriminate.
Qed.
Print Assumptions C48_js.
Lemma sections_ok ss : Forall ends_ok ss -> ends_ok (sections ss).
Proof.
  induction 1 as [|s ss H F IH]; [intros X; contradiction|]. cbn.
  destruct s as [|l ls]; auto. destruct (sections ss) as [|r rs]; auto.
  change ((l :: ls) ++ [] :: r :: rs) with ((l :: ls) ++ [[]] ++ r :: rs). rewrite app_assoc. apply ends_cat; auto. discriminate.
Qed.
Lemma nix_header_end cfg (scoped : bool) (t : tokens nix_import) docs : ends_ok
  (sections [if scoped then @nil str else nix_arguments_section (indent_text (c_indentation cfg) 1) (nix_args t);
             nix_withs_section (nix_ws t);
             nix_let_section (indent_text (c_indentation cfg) 1) (nix_inherits t)
               (map (var_lines cfg scoped) (combine (nix_vars t) docs))]).
Proof.
  apply sections_ok. repeat constructor.
  - destruct scoped; [intros X; contradiction|]. unfold nix_arguments_section.
    match goal with |- ends_ok (?a :: ?b ++ [?c; ?d]) => change (ends_ok (a :: b ++ [c] ++ [d])) end.
    rewrite app_assoc. apply (ends_cat (_ :: _)); discriminate.
  - apply last_line. discriminate.
  - unfold nix_let_section. destruct (nix_inherits t), (map _ (combine (nix_vars t) docs)); [intros X; contradiction| | |];
    apply (ends_cat (_ :: _)); discriminate.
Qed.
Theorem C48_nix : forall cfg scoped cs, let t := build cs in
  Forall nix_made (uses t) -> (forall i, nix_used t i -> nix_named i) -> nix_values_ok cfg scoped t ->
  header_then_body nix_lang cfg scoped t.
Proof.
  intros cfg scoped cs t M N V.
  destruct (nix_ready cs M N) as (A1 & A2 & A3 & A4 & A5). fold t in A1, A2, A3, A4, A5.
  destruct (vars_docs cfg scoped cs V) as [docs D]. fold t in D.
  eexists _, tt. split; [|intros body [R S]; apply (nix_file cfg scoped t docs); auto].
  apply nix_header_end.
Qed.
Print Assumptions C48_nix.

Example C48_example : let t := build (ex_calls ex_c) in
  Forall (fun i => named (c_path i)) (uses t) /\
  body_of c_lang ex_cfg tt tt t (stack [10%N] [$"printf"; $"f"; $"puts"]) /\
  file_renders c_lang ex_cfg tt t
    (file_text [10%N] [$"#include " ++ q $"a.h"; $"#include <stdio.h>"] (stack [10%N] [$"printf"; $"f"; $"puts"])).
Proof.
  split; [repeat constructor; discriminate|]. split; [split; [vm_compute; reflexivity|plain_start]|]. vm_compute. reflexivity.
Qed.

(** A body that does not start cleanly: on its own it renders with a leading
    space, after a header without. *)
Definition ex_dirty : list (call c_import) :=
  [CSpace; CLine; CItem (Lang 0 (mk_c (Static $"a.h") (Static $"f") true))].
Theorem C48_dirty_start_refuted : let t := build ex_dirty in
  renders c_lang ex_cfg tt tt t $" f" /\
  file_renders c_lang ex_cfg tt t (stack [10%N] [$"#include <a.h>"; []; $"f"; []]) /\
  ~ exists header, header <> [] /\ file_renders c_lang ex_cfg tt t (file_text [10%N] header $" f").
Proof.
  intros t. assert (R : file_renders c_lang ex_cfg tt t (stack [10%N] [$"#include <a.h>"; []; $"f"; []])) by (vm_compute; reflexivity).
  split; [vm_compute; reflexivity|]. split; [exact R|]. intros (h & NE & X). unfold file_renders in *. rewrite R in X.
  destruct h as [|l h]; [congruence|].
  assert (SI : forall a b : str, (a, true) = (b, true) -> a = b) by congruence. apply SI in X.
  change (file_text [10%N] (l :: h) $" f") with ((stack [10%N] (l :: h) ++ [10; 10; 32; 102]%N) ++ [10%N]) in X.
  change (stack [10%N] [$"#include <a.h>"; []; $"f"; []]) with (($"#include <a.h>" ++ [10; 10; 102]%N) ++ [10%N]) in X.
  apply app_inv_tail in X. apply (f_equal (@rev N)) in X. rewrite !rev_app_distr in X. discriminate.
Qed.
Print Assumptions C48_dirty_start_refuted.

(** Every body, including those that do not start cleanly. *)
Lemma any_body {LI C F} (L : lang_def LI C F) cfg (c : C) (f : F) (t : tokens LI) header :
  (forall e, concat (l_open_quote (ld_ops L c f) e) <> []) -> ends_ok header ->
  (forall body body', renders L cfg c f t body ->
     carried (l_format_item (ld_ops L c f)) (c_indentation cfg) t body body' ->
     file_renders L cfg c t (placed_file (c_newline cfg) header body body')) ->
  header_then_any_body L cfg c t.
Proof.
  intros Q EH H. exists header, f. split; [exact EH|]. intros body R.
  destruct (carried_exists L cfg c f t body Q R) as [body' CB]. pose proof (H body body' R CB) as FR. split.
  - intros [->| ->]; [exact FR|]. destruct CB as [[_ ->]|(ws & rest & _ & NR & B & _)].
    + rewrite placed_same in FR. exact FR.
    + exfalso. symmetry in B. apply app_eq_nil in B as [_ B]. apply app_eq_nil in B as [_ B]. auto.
  - intros NH NB. destruct CB as [[-> _]|(ws & rest & LD & NR & B & B')]; [contradiction|].
    exists ws, (indent_text (c_indentation cfg) (level_of ws)), rest.
    assert (FR' : file_renders L cfg c t (file_text (c_newline cfg) header (indent_text (c_indentation cfg) (level_of ws) ++ rest))).
    { destruct header as [|h hs]; [contradiction|]. unfold placed_file in FR. rewrite B' in FR. exact FR. }
    split; [exact LD|]. split; [reflexivity|]. split; [exact B|]. split; [exact FR'|]. split.
    + intros X. unfold file_renders in X, FR'. rewrite X in FR'.
      assert (SI : forall a b : str, (a, true) = (b, true) -> a = b) by congruence. apply SI in FR'. clear X SI FR H.
      apply (f_equal (@length N)) in FR'. unfold file_text in FR'. rewrite B in FR'.
      destruct header as [|h hs]; [contradiction|].
      assert (A1 : forall x y : str, y <> [] -> exists z zs, x ++ y = z :: zs).
      { intros [|x0 x] [|y0 y] NY; try contradiction; cbn; eauto. }
      destruct (A1 (indent_text (c_indentation cfg) (level_of ws)) rest NR) as (z & zs & E1).
      destruct (A1 (indent_text (c_indentation cfg) (level_of ws) ++ repeat 32%N (overtaken ws)) rest NR) as (w & wss & E2).
      rewrite <- app_assoc in E2. rewrite E2, E1 in FR'. rewrite <- E1, <- E2 in FR'.
      rewrite !app_length, repeat_length in FR'. lia.
    + intros Z. rewrite B, Z. exact FR'.
Qed.
Theorem C48_c_any_body : forall cfg cs, let t := build cs in
  Forall (fun i => named (c_path i)) (uses t) -> header_then_any_body c_lang cfg tt t.
Proof.
  intros cfg cs t N. apply (any_body _ cfg tt tt t (map (c_line (quoted_text (ld_ops c_lang tt tt))) (c_keys t))).
  - open_quote.
  - apply last_line. intros [p []]; discriminate.
  - intros; apply c_placed; auto.
Qed.
Print Assumptions C48_c_any_body.
Theorem C48_swift_any_body : forall cfg cs, let t := build cs in
  Forall (fun i => named (sw_module i)) (uses t) -> header_then_any_body swift_lang cfg tt t.
Proof.
  intros cfg cs t N. apply (any_body _ cfg tt tt t (map swift_line (swift_keys t))).
  - open_quote.
  - apply last_line. discriminate.
  - intros; apply swift_placed; auto.
Qed.
Print Assumptions C48_swift_any_body.
Theorem C48_go_any_body : forall cfg package cs, let t := build cs in
  opt_named package -> Forall (fun i => named (go_module i)) (uses t) -> header_then_any_body go_lang cfg package t.
Proof.
  intros cfg p cs t NP N.
  apply (any_body _ cfg p tt t (package_then (option_map go_package_line p) (map (go_line (quoted_text (ld_ops go_lang p tt))) (go_keys t)))).
  - open_quote.
  - apply last_package; [|apply last_line; discriminate]. destruct p; cbn; [intros ? [= <-]|]; discriminate.
  - intros; apply go_placed; auto.
Qed.
Print Assumptions C48_go_any_body.
Theorem C48_dart_any_body : forall cfg cs, let t := build cs in
  Forall (fun i => opt_named (da_alias i)) (uses t) -> header_then_any_body dart_lang cfg tt t.
Proof.
  intros cfg cs t N. apply (any_body _ cfg tt tt t (map (dart_line (quoted_text (ld_ops dart_lang tt tt))) (dart_keys t))).
  - open_quote.
  - apply last_line. intros [p [a|]]; discriminate.
  - intros; apply dart_placed; auto.
Qed.
Print Assumptions C48_dart_any_body.
Theorem C48_java_any_body : forall cfg package cs, let t := build cs in
  opt_named package -> Forall (fun i => named (ja_package i) /\ named (ja_name i)) (uses t) ->
  header_then_any_body java_lang cfg package t.
Proof.
  intros cfg p cs t NP N.
  apply (any_body _ cfg p (java_format p t) t (package_then (option_map java_package_line p) (map java_line (java_chosen p t)))).
  - open_quote.
  - apply last_package; [|apply last_line; discriminate]. destruct p; cbn; [intros ? [= <-]|]; discriminate.
  - intros; apply java_placed; auto.
Qed.
Print Assumptions C48_java_any_body.
(** C# without a namespace. *)
Theorem C48_csharp_any_body : forall cfg cs, let t := build cs in
  Forall (fun i => named (cs_namespace i)) (uses t) -> header_then_any_body csharp_lang cfg None t.
Proof.
  intros cfg cs t N. apply (any_body _ cfg None (cs_format None t) t (map cs_line (cs_usings None t))).
  - open_quote.
  - apply last_line. discriminate.
  - intros; apply cs_placed; auto.
Qed.
Print Assumptions C48_csharp_any_body.
Theorem C48_python_any_body : forall cfg cs, let t := build cs in
  Forall py_named (uses t) -> header_then_any_body python_lang cfg tt t.
Proof.
  intros cfg cs t N. apply (any_body _ cfg tt tt t (map py_from_line (py_froms t) ++ map py_import_line (py_mods t))).
  - open_quote.
  - apply ends_cat; [intros _|]; apply last_line; discriminate.
  - intros; apply py_placed; auto.
Qed.
Print Assumptions C48_python_any_body.
Theorem C48_rust_any_body : forall cfg mode cs, let t := build cs in
  Forall rust_named (uses t) -> header_then_any_body rust_lang cfg mode t.
Proof.
  intros cfg mode cs t N. apply (any_body _ cfg mode tt t (map rust_use_line (rust_mods mode t))).
  - open_quote.
  - apply last_line. intros []; discriminate.
  - intros; apply rust_placed; auto.
Qed.
Print Assumptions C48_rust_any_body.
Theorem C48_js_any_body : forall relative cfg module_path cs, let t := build cs in
  Forall js_named (uses t) -> header_then_any_body (js_lang relative) cfg module_path t.
Proof.
  intros relative cfg mp cs t N.
  apply (any_body _ cfg mp tt t
    (map (js_wildcard_line (quoted_text (ld_ops (js_lang relative) mp tt)) (js_specifier relative mp)) (js_wilds t) ++
     map (js_module_line (quoted_text (ld_ops (js_lang relative) mp tt)) (js_specifier relative mp))
       (map module_view (js_mods t)))).
  - open_quote.
  - apply ends_cat; [intros _|]; apply last_line; [discriminate|]. intros [m [d e]]. discriminate.
  - intros; apply js_placed; auto.
Qed.
Print Assumptions C48_js_any_body.
Theorem C48_nix_any_body : forall cfg scoped cs, let t := build cs in
  Forall nix_made (uses t) -> (forall i, nix_used t i -> nix_named i) -> nix_values_ok cfg scoped t ->
  header_then_any_body nix_lang cfg scoped t.
Proof.
  intros cfg scoped cs t M N V.
  destruct (nix_ready cs M N) as (A1 & A2 & A3 & A4 & A5). fold t in A1, A2, A3, A4, A5.
  destruct (vars_docs cfg scoped cs V) as [docs D]. fold t in D.
  eapply (any_body _ cfg scoped tt t).
  - open_quote.
  - apply (nix_header_end cfg scoped t docs).
  - intros; apply (nix_placed cfg scoped t docs); auto.
Qed.
Print Assumptions C48_nix_any_body.

(** A body with two spaces before a blank line request and one after it, at
    level one: alone all three are there, below the header only the last. *)
Definition ex_overtaken : list (call c_import) :=
  let nothing := CItem (Lang 0 (mk_c (Static $"a.h") (Static []) true)) in
  [CSpace; nothing; CSpace; CLine; nothing; CIndent; nothing; CSpace;
   CItem (Lang 0 (mk_c (Static $"a.h") (Static $"f") true))].
Example C48_any_body_example : let t := build ex_overtaken in
  Forall (fun i => named (c_path i)) (uses t) /\
  renders c_lang ex_cfg tt tt t $"       f" /\
  file_renders c_lang ex_cfg tt t (stack [10%N] [$"#include <a.h>"; []; $"     f"; []]).
Proof. split; [repeat constructor; discriminate|]. vm_compute. auto. Qed.
