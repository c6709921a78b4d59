(** * When a header imports the same text twice, exactly (C47).

    Vocabulary: that of [PropsHeader.v]. *)
From Verif Require Import Str StrFacts Tokens SpecTokens TokensRun TokensFacts Values Fmt SpecFmt
  Order OrderFacts SpecOrder SpecFile SpecHeader SpecLang RenderFacts StringFacts HeaderFacts FileFacts ImportFacts LangBase LangC LangSwift LangGo LangDart LangPython SpecPython PythonFacts
  LangRust SpecRust RustFacts LangJs SpecJs JsFacts LangNix SpecNix NixFacts NixHeader NixFile PropsLang PropsNames PropsJs PropsNix PropsHeader.

Lemma nodup_map {A B} (f : A -> B) l : NoDup l ->
  (NoDup (map f l) <-> forall x y, In x l -> In y l -> f x = f y -> x = y).
Proof.
  intros N. split; [|intros H; apply nodup_on; auto].
  induction l as [|a l IH]; intros M x y X Y E; [destruct X|]. cbn in M. inversion N as [|? ? NA NL]; inversion M as [|? ? MA ML]; subst.
  destruct X as [->|X], Y as [->|Y]; auto.
  - exfalso. apply MA. rewrite E. apply in_map, Y.
  - exfalso. apply MA. rewrite <- E. apply in_map, X.
Qed.

(** Includes of the same file in the same brackets are written once exactly if they are
    given as the same kind of string. *)
Theorem C47_c_exact : forall cfg cs body, let t := build cs in
  Forall (fun i => named (c_path i)) (uses t) -> body_of c_lang cfg tt tt t body ->
  exists lit keys, literal_of c_lang lit /\
    (forall path system, In (path, system) keys <-> exists i, In i (uses t) /\ c_path i = path /\ c_system i = system) /\
    file_renders c_lang cfg tt t (file_text (c_newline cfg) (map (c_line lit) keys) body) /\
    (NoDup (map (fun k => (content (fst k), snd k)) keys) <->
     forall i j, In i (uses t) -> In j (uses t) ->
       content (c_path i) = content (c_path j) -> c_system i = c_system j -> c_path i = c_path j).
Proof.
  intros cfg cs body t N B. destruct (C36_c_includes cfg cs body N B) as (lit & ks & L & S & M & R). fold t in M.
  exists lit, ks. split; [exact L|]. split; [exact M|]. split; [exact R|].
  rewrite nodup_map by (eapply sorted_nodup; [apply pair_irrefl; [apply name_before_irrefl|]|exact S]; intros x [H1 H2]; congruence). split.
  - intros H i j Hi Hj E1 E2. specialize (H (c_path i, c_system i) (c_path j, c_system j)). rewrite !M in H. cbn in H.
    enough (X : (c_path i, c_system i) = (c_path j, c_system j)) by congruence. apply H; eauto. congruence.
  - intros H [x1 x2] [y1 y2] X Y [= E1 E2]. cbn in *. apply M in X as (i & Hi & <- & <-). apply M in Y as (j & Hj & <- & <-). f_equal; auto.
Qed.
Print Assumptions C47_c_exact.
Theorem C47_swift_exact : forall cfg cs body, let t := build cs in
  Forall (fun i => named (sw_module i)) (uses t) -> body_of swift_lang cfg tt tt t body ->
  exists keys, (forall m, In m keys <-> exists i, In i (uses t) /\ sw_module i = m) /\
    file_renders swift_lang cfg tt t (file_text (c_newline cfg) (map swift_line keys) body) /\
    (NoDup (map content keys) <->
     forall i j, In i (uses t) -> In j (uses t) -> content (sw_module i) = content (sw_module j) -> sw_module i = sw_module j).
Proof.
  intros cfg cs body t N B. destruct (C45_swift_imports cfg cs body N B) as (ks & S & M & R). fold t in M.
  exists ks. split; [exact M|]. split; [exact R|].
  rewrite nodup_map by (eapply sorted_nodup; [apply name_before_irrefl|exact S]). split.
  - intros H i j Hi Hj. apply H; apply M; eauto.
  - intros H x y X Y. apply M in X as (i & Hi & <-). apply M in Y as (j & Hj & <-). auto.
Qed.
Print Assumptions C47_swift_exact.
Theorem C47_go_exact : forall cfg package cs body, let t := build cs in
  opt_named package -> Forall (fun i => named (go_module i)) (uses t) -> body_of go_lang cfg package tt t body ->
  exists lit keys, literal_of go_lang lit /\ (forall m, In m keys <-> exists i, In i (uses t) /\ go_module i = m) /\
    file_renders go_lang cfg package t
      (file_text (c_newline cfg) (package_then (option_map go_package_line package) (map (go_line lit) keys)) body) /\
    (NoDup (map content keys) <->
     forall i j, In i (uses t) -> In j (uses t) -> content (go_module i) = content (go_module j) -> go_module i = go_module j).
Proof.
  intros cfg p cs body t NP N B. destruct (C39_go_imports cfg p cs body NP N B) as (lit & ks & L & S & M & R). fold t in M.
  exists lit, ks. split; [exact L|]. split; [exact M|]. split; [exact R|].
  rewrite nodup_map by (eapply sorted_nodup; [apply name_before_irrefl|exact S]). split.
  - intros H i j Hi Hj. apply H; apply M; eauto.
  - intros H x y X Y. apply M in X as (i & Hi & <-). apply M in Y as (j & Hj & <-). auto.
Qed.
Print Assumptions C47_go_exact.
(** Dart: [dart:core] is not imported at all. *)
Theorem C47_dart_exact : forall cfg cs body, let t := build cs in
  Forall (fun i => opt_named (da_alias i)) (uses t) -> body_of dart_lang cfg tt tt t body ->
  exists lit keys, literal_of dart_lang lit /\
    (forall path alias, In (path, alias) keys <->
       content path <> $"dart:core" /\ exists i, In i (uses t) /\ da_path i = path /\ da_alias i = alias) /\
    file_renders dart_lang cfg tt t (file_text (c_newline cfg) (map (dart_line lit) keys) body) /\
    (NoDup (map as_text keys) <->
     forall i j, In i (uses t) -> In j (uses t) -> content (da_path i) <> $"dart:core" ->
       content (da_path i) = content (da_path j) -> opt_text (da_alias i) = opt_text (da_alias j) ->
       da_path i = da_path j /\ da_alias i = da_alias j).
Proof.
  intros cfg cs body t N B. destruct (C38_dart_imports cfg cs body N B) as (lit & ks & L & S & M & R). fold t in M.
  exists lit, ks. split; [exact L|]. split; [exact M|]. split; [exact R|].
  rewrite nodup_map by (eapply sorted_nodup; [apply (pair_irrefl _ _ name_before_irrefl opt_irrefl)|exact S]). split.
  - intros H i j Hi Hj NC E1 E2. specialize (H (da_path i, da_alias i) (da_path j, da_alias j)). rewrite !M in H.
    enough (X : (da_path i, da_alias i) = (da_path j, da_alias j)) by (split; congruence). apply H; [eauto|split; [congruence|eauto]|unfold as_text; cbn [fst snd]; f_equal; assumption].
  - intros H [x1 x2] [y1 y2] X Y [= E1 E2]. cbn in *. apply M in X as (NC & i & Hi & <- & <-). apply M in Y as (_ & j & Hj & <- & <-).
    destruct (H i j Hi Hj NC E1 E2). congruence.
Qed.
Print Assumptions C47_dart_exact.

(** Python: the modules of [from], the names imported from each, and the imported modules. *)
Theorem C47_python_exact : forall cfg cs body, let t := build cs in
  Forall py_named (uses t) -> body_of python_lang cfg tt tt t body ->
  let imported m a := (exists n al, In (PyImport (Qualified m a) n al) (uses t)) \/ In (PyModule m a) (uses t) in
  exists froms imports,
    (forall m n a, (exists names, In (m, names) froms /\ In (n, a) names) <-> In (PyImport (Unqualified m) n a) (uses t)) /\
    (forall m a, In (m, a) imports <-> imported m a) /\
    file_renders python_lang cfg tt t
      (file_text (c_newline cfg) (map py_from_line froms ++ map py_import_line imports) body) /\
    (NoDup (map (fun m => content (fst m)) froms) <->
     forall m1 n1 a1 m2 n2 a2, In (PyImport (Unqualified m1) n1 a1) (uses t) -> In (PyImport (Unqualified m2) n2 a2) (uses t) ->
       content m1 = content m2 -> m1 = m2) /\
    (forall m names, In (m, names) froms ->
       (NoDup (map as_text names) <->
        forall n1 a1 n2 a2, In (PyImport (Unqualified m) n1 a1) (uses t) -> In (PyImport (Unqualified m) n2 a2) (uses t) ->
          content n1 = content n2 -> opt_text a1 = opt_text a2 -> n1 = n2 /\ a1 = a2)) /\
    (NoDup (map as_text imports) <->
     forall m1 a1 m2 a2, imported m1 a1 -> imported m2 a2 ->
       content m1 = content m2 -> opt_text a1 = opt_text a2 -> m1 = m2 /\ a1 = a2).
Proof.
  intros cfg cs body t N B imported.
  destruct (C43_python_imports cfg cs body N B) as (fs & ims & S1 & NS & M1 & S2 & M2 & R). fold t in M1, M2.
  exists fs, ims. split; [exact M1|]. split; [exact M2|]. split; [exact R|].
  assert (ND1 : NoDup (map fst fs)) by (eapply sorted_nodup; [apply name_before_irrefl|exact S1]).
  split; [|split].
  - rewrite <- map_map. rewrite nodup_map by exact ND1. split.
    + intros H m1 n1 a1 m2 n2 a2 H1 H2. apply M1 in H1 as (x & X & _), H2 as (y & Y & _). apply (in_map fst) in X, Y. apply H; assumption.
    + intros H.
      assert (X : forall x, In x (map fst fs) -> exists n a, In (PyImport (Unqualified x) n a) (uses t)).
      { intros x I. apply in_map_iff in I as [[m ns] [<- I]]. destruct (NS m ns I) as [NE _].
        destruct ns as [|[n a] ns]; [congruence|]. exists n, a. apply M1. eexists. split; [exact I|left; auto]. }
      intros x y Hx Hy. apply X in Hx as (n1 & a1 & Hx). apply X in Hy as (n2 & a2 & Hy). eauto.
  - intros m ns I. destruct (NS m ns I) as [_ S].
    assert (MN : forall n a, In (n, a) ns <-> In (PyImport (Unqualified m) n a) (uses t)).
    { intros n a. rewrite <- M1. split; [eauto|]. intros (ns' & I' & A). enough (ns = ns') by (subst; exact A).
      assert (X : (m, ns) = (m, ns')) by (apply (proj1 (nodup_map fst fs (NoDup_map_inv _ _ ND1)) ND1 _ _ I I' eq_refl)). congruence. }
    rewrite nodup_map by (eapply sorted_nodup; [apply (pair_irrefl _ _ name_before_irrefl opt_irrefl)|exact S]). split.
    + intros H n1 a1 n2 a2 H1 H2 E1 E2. apply MN in H1, H2. assert (X : (n1, a1) = (n2, a2)) by (apply H; auto; unfold as_text; cbn [fst snd]; f_equal; assumption). split; congruence.
    + intros H [n1 a1] [n2 a2] H1 H2 [= E1 E2]. apply MN in H1, H2. destruct (H n1 a1 n2 a2 H1 H2 E1 E2). congruence.
  - rewrite nodup_map by (eapply sorted_nodup; [apply (pair_irrefl _ _ name_before_irrefl opt_irrefl)|exact S2]). split.
    + intros H n1 a1 n2 a2 H1 H2 E1 E2. apply M2 in H1, H2. assert (X : (n1, a1) = (n2, a2)) by (apply H; auto; unfold as_text; cbn [fst snd]; f_equal; assumption). split; congruence.
    + intros H [n1 a1] [n2 a2] H1 H2 [= E1 E2]. apply M2 in H1, H2. destruct (H n1 a1 n2 a2 H1 H2 E1 E2). congruence.
Qed.
Print Assumptions C47_python_exact.

(** Rust: the modules, and what is used from each. *)
Theorem C47_rust_exact : forall cfg mode cs body, let t := build cs in
  Forall rust_named (uses t) -> body_of rust_lang cfg mode tt t body ->
  let asked m l := exists i, In i (uses t) /\ rust_asks mode i m l in
  exists mods,
    (forall m l, (exists leaves, In (m, leaves) mods /\ In l leaves) <-> asked m l) /\
    file_renders rust_lang cfg mode t (file_text (c_newline cfg) (map rust_use_line mods) body) /\
    (NoDup (map (fun m => content (fst m)) mods) <->
     forall m1 l1 m2 l2, asked m1 l1 -> asked m2 l2 -> content m1 = content m2 -> m1 = m2) /\
    (forall m leaves, In (m, leaves) mods ->
       (NoDup (map leaf_as_text leaves) <->
        forall l1 l2, asked m l1 -> asked m l2 -> leaf_as_text l1 = leaf_as_text l2 -> l1 = l2)).
Proof.
  intros cfg mode cs body t N B asked. destruct (C44_rust_uses cfg mode cs body N B) as (ms & S1 & NS & M & R). fold t in M.
  exists ms. split; [exact M|]. split; [exact R|].
  assert (ND1 : NoDup (map fst ms)) by (eapply sorted_nodup; [apply name_before_irrefl|exact S1]). split.
  - rewrite <- map_map. rewrite nodup_map by exact ND1. split.
    + intros H m1 l1 m2 l2 H1 H2. apply M in H1 as (x & X & _), H2 as (y & Y & _). apply (in_map fst) in X, Y. apply H; assumption.
    + intros H.
      assert (X : forall x, In x (map fst ms) -> exists l, asked x l).
      { intros x I. apply in_map_iff in I as [[m ns] [<- I]]. destruct (NS m ns I) as [NE _].
        destruct ns as [|l ns]; [congruence|]. exists l. apply M. eexists. split; [exact I|left; auto]. }
      intros x y Hx Hy. apply X in Hx as (l1 & Hx). apply X in Hy as (l2 & Hy). eauto.
  - intros m ns I. destruct (NS m ns I) as [_ S].
    assert (MN : forall l, In l ns <-> asked m l).
    { intros l. unfold asked. rewrite <- M. split; [eauto|]. intros (ns' & I' & A).
      assert (X : (m, ns) = (m, ns')) by (apply (proj1 (nodup_map fst ms (NoDup_map_inv _ _ ND1)) ND1 _ _ I I' eq_refl)). congruence. }
    rewrite nodup_map by (eapply sorted_nodup; [apply leaf_before_irrefl|exact S]). split.
    + intros H l1 l2 H1 H2. apply MN in H1, H2. auto.
    + intros H l1 l2 H1 H2. apply MN in H1, H2. auto.
Qed.
Print Assumptions C47_rust_exact.

(** JavaScript: the imports of whole modules, the modules of the others, and what is
    imported by name from each. *)
Theorem C47_js_exact : forall relative cfg module_path cs body, let t := build cs in
  Forall js_named (uses t) -> body_of (js_lang relative) cfg module_path tt t body ->
  exists wildcards modules,
    (forall m n, In (m, n) wildcards <->
       exists i, In i (uses t) /\ js_import_kind i = KWildcard /\ js_import_module i = m /\ js_name i = n) /\
    (forall m, In m (map fst modules) <->
       exists i, In i (uses t) /\ js_import_kind i <> KWildcard /\ js_import_module i = m) /\
    file_renders (js_lang relative) cfg module_path t
      (file_text (c_newline cfg)
         (map (js_wildcard_line (quoted_text js_ops) (js_specifier relative module_path)) wildcards ++
          map (js_module_line (quoted_text js_ops) (js_specifier relative module_path)) modules) body) /\
    (NoDup (map (fun k => (module_text (fst k), content (snd k))) wildcards) <->
     forall i j, In i (uses t) -> In j (uses t) -> js_import_kind i = KWildcard -> js_import_kind j = KWildcard ->
       module_text (js_import_module i) = module_text (js_import_module j) -> content (js_name i) = content (js_name j) ->
       js_import_module i = js_import_module j /\ js_name i = js_name j) /\
    (NoDup (map (fun k => module_text (fst k)) modules) <->
     forall i j, In i (uses t) -> In j (uses t) -> js_import_kind i <> KWildcard -> js_import_kind j <> KWildcard ->
       module_text (js_import_module i) = module_text (js_import_module j) -> js_import_module i = js_import_module j) /\
    (forall m default elements, In (m, (default, elements)) modules ->
       (NoDup (map element_text elements) <->
        forall i j, In i (uses t) -> In j (uses t) -> js_import_kind i = KNamed -> js_import_kind j = KNamed ->
          js_import_module i = m -> js_import_module j = m ->
          content (js_name i) = content (js_name j) -> opt_text (js_alias i) = opt_text (js_alias j) ->
          js_name i = js_name j /\ js_alias i = js_alias j)).
Proof.
  intros relative cfg mp cs body t N B.
  destruct (C41_js_imports relative cfg mp cs body N B) as (ws & ms & S1 & M1 & S2 & M2 & E & R). fold t in M1, M2, E.
  exists ws, ms. split; [exact M1|]. split; [exact M2|]. split; [exact R|]. split; [|split].
  - rewrite nodup_map by (eapply sorted_nodup; [apply (pair_irrefl _ _ module_irrefl name_before_irrefl)|exact S1]). split.
    + intros H i j Hi Hj Ki Kj E1 E2. specialize (H (js_import_module i, js_name i) (js_import_module j, js_name j)). rewrite !M1 in H.
      enough (X : (js_import_module i, js_name i) = (js_import_module j, js_name j)) by (split; congruence). apply H; [eauto 6|eauto 6|cbn; congruence].
    + intros H [m1 n1] [m2 n2] H1 H2 [= E1 E2]. apply M1 in H1 as (i & Hi & Ki & <- & <-). apply M1 in H2 as (j & Hj & Kj & <- & <-).
      destruct (H i j Hi Hj Ki Kj E1 E2). congruence.
  - rewrite <- (map_map fst module_text). rewrite nodup_map by (eapply sorted_nodup; [apply module_irrefl|exact S2]). split.
    + intros H i j Hi Hj Ki Kj. apply H; apply M2; eauto.
    + intros H m1 m2 H1 H2. apply M2 in H1 as (i & Hi & Ki & <-). apply M2 in H2 as (j & Hj & Kj & <-). auto.
  - intros m d els I. destruct (E m d els I) as (S & ME & _).
    rewrite nodup_map by (eapply sorted_nodup; [apply element_irrefl|exact S]). split.
    + intros H i j Hi Hj Ki Kj Mi Mj E1 E2. specialize (H (js_asks i) (js_asks j)). rewrite !ME in H.
      assert (X : js_asks i = js_asks j).
      { apply H; eauto 6. unfold js_asks. destruct (js_alias i), (js_alias j); cbn in *; congruence. }
      unfold js_asks in X. destruct (js_alias i), (js_alias j); try discriminate; split; congruence.
    + intros H e1 e2 H1 H2 X. apply ME in H1 as (i & Hi & Ki & Mi & <-). apply ME in H2 as (j & Hj & Kj & Mj & <-).
      destruct (H i j Hi Hj Ki Kj Mi Mj) as [A1 A2].
      * unfold js_asks in X. destruct (js_alias i), (js_alias j); cbn in X; congruence.
      * unfold js_asks in X. destruct (js_alias i), (js_alias j); cbn in X; cbn; congruence.
      * unfold js_asks. rewrite A1, A2. reflexivity.
Qed.
Print Assumptions C47_js_exact.

(** Nix: arguments never, the others again by kind. *)
Theorem C47_nix_exact : forall cfg scoped cs body, let t := build cs in
  Forall nix_made (uses t) -> (forall i, nix_used t i -> nix_named i) -> nix_values_ok cfg scoped t ->
  body_of nix_lang cfg scoped tt t body ->
  exists arguments withs inherits lines,
    (forall w, In w withs <-> exists n, In (NWith w n) (uses t)) /\
    (forall p n, In (p, n) inherits <-> nix_used t (NInherit p n)) /\
    (let p := indent_text (c_indentation cfg) 1 in
     file_renders nix_lang cfg scoped t
       (file_text (c_newline cfg)
          (sections [if scoped then [] else nix_arguments_section p arguments;
                     nix_withs_section withs;
                     nix_let_section p inherits lines]) body)) /\
    NoDup arguments /\
    (NoDup (map content withs) <->
     forall w1 n1 w2 n2, In (NWith w1 n1) (uses t) -> In (NWith w2 n2) (uses t) -> content w1 = content w2 -> w1 = w2) /\
    (NoDup (map (fun k => (content (fst k), content (snd k))) inherits) <->
     forall p1 n1 p2 n2, nix_used t (NInherit p1 n1) -> nix_used t (NInherit p2 n2) ->
       content p1 = content p2 -> content n1 = content n2 -> p1 = p2 /\ n1 = n2).
Proof.
  intros cfg scoped cs body t MD N V B.
  destruct (C42_nix_header cfg scoped cs body MD N V B) as (args & ws & ins & vs & ls & S1 & M1 & S2 & M2 & S3 & M3 & S4 & M4 & F & R). fold t in M2, M3.
  exists args, ws, ins, ls. split; [exact M2|]. split; [exact M3|]. split; [exact R|].
  split; [eapply sorted_nodup; [apply text_irrefl|exact S1]|]. split.
  - rewrite nodup_map by (eapply sorted_nodup; [apply name_before_irrefl|exact S2]). split.
    + intros H w1 n1 w2 n2 H1 H2. apply H; apply M2; eauto.
    + intros H w1 w2 H1 H2. apply M2 in H1 as [n1 H1], H2 as [n2 H2]. eauto.
  - rewrite nodup_map by (eapply sorted_nodup; [apply (pair_irrefl _ _ name_before_irrefl name_before_irrefl)|exact S3]). split.
    + intros H p1 n1 p2 n2 H1 H2 E1 E2. apply M3 in H1, H2. assert (X : (p1, n1) = (p2, n2)) by (apply H; auto; cbn; congruence). split; congruence.
    + intros H [p1 n1] [p2 n2] H1 H2 [= E1 E2]. apply M3 in H1, H2. destruct (H p1 n1 p2 n2 H1 H2 E1 E2). congruence.
Qed.
Print Assumptions C47_nix_exact.

(** Both cases arise. *)
Example C47_exact_example :
  let one := build (ex_calls [mk_c (Static $"a.h") (Static $"f") true; mk_c (Static $"a.h") (Static $"g") true; mk_c (Box $"a.h") (Static $"h") false]) in
  let two := build (ex_calls (twice (fun p => mk_c p (Static $"f") true) $"a.h")) in
  Forall (fun i => named (c_path i)) (uses one) /\ Forall (fun i => named (c_path i)) (uses two) /\
  body_of c_lang ex_cfg tt tt one (stack [10%N] [$"f"; $"g"; $"h"]) /\ body_of c_lang ex_cfg tt tt two (stack [10%N] [$"f"; $"f"]) /\
  (forall i j, In i (uses one) -> In j (uses one) ->
     content (c_path i) = content (c_path j) -> c_system i = c_system j -> c_path i = c_path j) /\
  ~ (forall i j, In i (uses two) -> In j (uses two) ->
     content (c_path i) = content (c_path j) -> c_system i = c_system j -> c_path i = c_path j).
Proof.
  cbv zeta. split; [repeat constructor; discriminate|]. split; [repeat constructor; discriminate|].
  split; [split; [vm_compute; reflexivity|plain_start]|]. split; [split; [vm_compute; reflexivity|plain_start]|]. split.
  - intros i j Hi Hj. vm_compute in Hi, Hj. destruct Hi as [<-|[<-|[<-|[]]]], Hj as [<-|[<-|[<-|[]]]]; cbn; intros; congruence || discriminate.
  - intros H. specialize (H (mk_c (Static $"a.h") (Static $"f") true) (mk_c (Box $"a.h") (Static $"f") true)).
    assert (X : Static $"a.h" = Box $"a.h"); [|discriminate X]. apply H; [vm_compute; auto|vm_compute; auto|reflexivity|reflexivity].
Qed.
