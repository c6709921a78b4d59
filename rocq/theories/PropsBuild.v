(** * Imports made by the functions and methods of each language (C73).

    Vocabulary: [SpecBuild.v] (what calls of methods amount to), [SpecFile.v]
    (files), [SpecLang.v]; model: [LangBuild.v] and the models of the languages. *)
From Verif Require Import Str StrFacts Tokens SpecTokens TokensRun Values Fmt SpecFmt RenderFacts
  StringFacts Order OrderFacts SpecFile SpecLang HeaderFacts FileFacts ImportFacts JavaFacts CsharpFacts GroupFacts
  LangBase LangC LangCsharp LangDart LangGo LangJava LangJs LangPython LangRust LangSwift LangBuild SpecBuild
  SpecJs JsFacts SpecPython PythonFacts SpecRust RustFacts PropsLang PropsNames.

Lemma only_clean {LI} (fmt_item : LI -> list str) (i : LI) : concat (fmt_item i) <> [] -> clean_start fmt_item (only i).
Proof. intros N. exists [], (Lang 0 i), []. repeat split; auto. intros [|? ?] b E; discriminate. Qed.
Lemma latest_app {A B} (f : A -> option B) cs c : latest f (cs ++ [c]) = match f c with Some b => Some b | None => latest f cs end.
Proof. induction cs as [|x cs IH]; cbn [app latest]; [destruct (f c); reflexivity|]. rewrite IH. destruct (f c); reflexivity. Qed.

(** ** JavaScript *)

Lemma js_calls m n cs : fold_left js_apply cs (js_new m n) =
  mk_js (fst (js_built n cs)) m n (snd (js_built n cs)).
Proof.
  induction cs as [|c cs IH] using rev_ind; [reflexivity|]. rewrite fold_left_app, IH. unfold js_built. rewrite latest_app.
  destruct c; reflexivity.
Qed.
(** Whatever methods are called, the last one decides what a file that uses just
    the import declares, and what the import is called in it. *)
Theorem C73_js : forall relative cfg module_path m n cs,
  let i := fold_left js_apply cs (js_new m n) in
  named n -> Forall (fun c => forall a, c = JAlias a -> named a) cs ->
  exists lit, literal_of (js_lang relative) lit /\
  file_renders (js_lang relative) cfg module_path (only i)
    (file_text (c_newline cfg)
       [js_declaration (lit (js_specifier relative module_path m)) n (js_built n cs)] (js_bound n (js_built n cs))).
Proof.
  intros relative cfg mp m n cs i N F. exists (quoted_text js_ops). split; [literal_ok|].
  assert (I : i = mk_js (fst (js_built n cs)) m n (snd (js_built n cs))) by apply js_calls.
  assert (NB : match js_built n cs with (KNamed, Some a) => named a | (_, Some _) => False | _ => True end).
  { unfold js_built. clear -F. induction cs as [|c cs IH] using rev_ind; [exact I|]. rewrite latest_app. apply Forall_app in F as [_ F]. inversion F; subst.
    destruct c; auto. }
  destruct (js_built n cs) as [k al]. cbn [fst snd] in I. clearbody i. subst i.
  set (i := mk_js k m n al).
  assert (B : concat (js_format_item i) = js_bound n (k, al)).
  { unfold i, js_format_item. cbn [js_import_kind js_alias js_name concat]. rewrite app_nil_r. destruct k, al; reflexivity || contradiction. }
  assert (NE : js_bound n (k, al) <> []) by (destruct k, al; try contradiction; auto).
  pose proof (js_file relative cfg mp [CItem (Lang 0 i)] (js_bound n (k, al))) as H. cbv zeta in H.
  change (build [CItem (Lang 0 i)]) with (only i) in H.
  assert (R : renders (js_lang relative) cfg mp tt (only i) (js_bound n (k, al))).
  { rewrite <- B. exact (only_renders (js_lang relative) cfg mp tt i). }
  assert (J : Forall js_named (uses (only i))).
  { constructor; [|constructor]. split; [exact N|]. cbn. destruct k, al; cbn; auto; contradiction. }
  specialize (H J R (fun _ => only_clean js_format_item i ltac:(rewrite B; exact NE))).
  match type of H with file_renders _ _ _ _ (file_text _ ?l _) =>
    assert (E : l = [js_declaration (quoted_text js_ops (js_specifier relative mp m)) n (k, al)]) end.
  { unfold js_wilds, js_mods. change (walk_imports (only i)) with [i]. subst i. destruct k, al; try contradiction; cbv -[app content quoted_text js_specifier]; rewrite <- ?app_assoc; reflexivity. }
  rewrite E in H. exact H.
Qed.
Print Assumptions C73_js.
(** A module given as a string is what the file names in its declaration, character
    by character, whatever the module path of the file. *)
Theorem C73_js_string : forall relative cfg module_path s n cs,
  let i := fold_left js_apply cs (js_new (js_module_from s) n) in
  named n -> Forall (fun c => forall a, c = JAlias a -> named a) cs ->
  exists lit, literal_of (js_lang relative) lit /\
  file_renders (js_lang relative) cfg module_path (only i)
    (file_text (c_newline cfg)
       [js_declaration (lit (content s)) n (js_built n cs)] (js_bound n (js_built n cs))).
Proof. intros relative cfg mp s n cs i N F. exact (C73_js relative cfg mp (js_module_from s) n cs N F). Qed.
Print Assumptions C73_js_string.

(** ** Python *)

Lemma py_calls m n cs : fold_left py_apply cs (py_new m n) =
  PyImport (if existsb py_qualifies cs then Qualified m (latest py_module_alias_of cs) else Unqualified m) n (latest py_alias_of cs).
Proof.
  induction cs as [|c cs IH] using rev_ind; [reflexivity|]. rewrite fold_left_app, IH, existsb_app, !latest_app.
  assert (Q : existsb py_qualifies cs = false -> latest py_module_alias_of cs = None).
  { clear. induction cs as [|c cs IH]; [reflexivity|]. cbn. intros H. apply orb_false_iff in H as [H1 H2]. rewrite (IH H2). destruct c; [reflexivity|discriminate|discriminate]. }
  destruct c; cbn; destruct (existsb py_qualifies cs); cbn; try reflexivity. rewrite Q by reflexivity. reflexivity.
Qed.
Lemma latest_forall {A B} (f : A -> option B) (P : B -> Prop) cs : Forall (fun c => forall b, f c = Some b -> P b) cs ->
  forall b, latest f cs = Some b -> P b.
Proof.
  induction 1 as [|c cs H _ IH]; intros b E; [discriminate|]. cbn in E. destruct (latest f cs) as [b'|]; [injection E as <-; auto|auto].
Qed.
Lemma latest_named {A} (f : A -> option item_str) cs : Forall (fun c => forall b, f c = Some b -> named b) cs -> opt_named (latest f cs).
Proof. intros F. destruct (latest f cs) as [b|] eqn:E; [|exact I]. exact (latest_forall f named cs F b E). Qed.
Lemma py_only cfg i body : py_named i -> concat (py_format_item i) = body -> body <> [] ->
  file_renders python_lang cfg tt (only i)
    (file_text (c_newline cfg) (map py_from_line (py_froms (only i)) ++ map py_import_line (py_mods (only i))) body).
Proof.
  intros N B NE. apply (py_file cfg [CItem (Lang 0 i)] body).
  - repeat constructor. exact N.
  - rewrite <- B. exact (only_renders python_lang cfg tt tt i).
  - intros _. apply only_clean. rewrite B. exact NE.
Qed.
Definition py_call_named (c : py_call) : Prop := match c with PAlias a | PModuleAlias a => named a | PQualified => True end.
Lemma or_name_nonempty n alias : named n -> opt_named alias -> or_name n alias <> [].
Proof. destruct alias; auto. Qed.
(** The last alias counts, for the name and for the module; the import is qualified
    if any method says so. *)
Theorem C73_python : forall cfg m n cs,
  let i := fold_left py_apply cs (py_new m n) in
  let alias := latest py_alias_of cs in let module_alias := latest py_module_alias_of cs in
  named m -> named n -> Forall py_call_named cs ->
  file_renders python_lang cfg tt (only i)
    (if existsb py_qualifies cs
     then file_text (c_newline cfg) [$"import " ++ py_renamed m module_alias] (or_name m module_alias ++ $"." ++ or_name n alias)
     else file_text (c_newline cfg) [$"from " ++ content m ++ $" import " ++ py_renamed n alias] (or_name n alias)).
Proof.
  intros cfg m n cs i alias malias NM NN F.
  assert (A : opt_named alias).
  { apply latest_named.
    eapply Forall_impl; [|exact F]. intros [b| |b] X b' Y; try discriminate. injection Y as <-. exact X. }
  assert (MA : opt_named malias).
  { apply latest_named.
    eapply Forall_impl; [|exact F]. intros [b| |b] X b' Y; try discriminate. injection Y as <-. exact X. }
  unfold i. rewrite py_calls. fold alias malias. destruct (existsb py_qualifies cs).
  - match goal with |- file_renders _ _ _ (only ?j) (file_text _ _ ?b) => pose proof (py_only cfg j b) as H end.
    match type of H with _ -> _ -> _ -> file_renders _ _ _ _ (file_text _ ?l _) =>
      assert (E : l = [$"import " ++ py_renamed m malias]) by (destruct malias; reflexivity); rewrite E in H end.
    apply H; cbn; auto.
    + rewrite app_nil_r. reflexivity.
    + pose proof (or_name_nonempty m malias NM MA). destruct (or_name m malias); [congruence|discriminate].
  - match goal with |- file_renders _ _ _ (only ?j) (file_text _ _ ?b) => pose proof (py_only cfg j b) as H end.
    match type of H with _ -> _ -> _ -> file_renders _ _ _ _ (file_text _ ?l _) =>
      assert (E : l = [$"from " ++ content m ++ $" import " ++ py_renamed n alias]) by (destruct alias; reflexivity); rewrite E in H end.
    apply H; cbn; auto.
    + rewrite app_nil_r. reflexivity.
    + apply or_name_nonempty; assumption.
Qed.
Print Assumptions C73_python.
(** An imported module goes by its last alias. *)
Theorem C73_python_module : forall cfg m aliases,
  let i := fold_left (fun i a => py_module_alias a i) aliases (py_module_new m) in
  named m -> Forall named aliases ->
  file_renders python_lang cfg tt (only i)
    (file_text (c_newline cfg) [$"import " ++ py_renamed m (latest Some aliases)] (or_name m (latest Some aliases))).
Proof.
  intros cfg m aliases i NM F. assert (I : i = PyModule m (latest Some aliases)).
  { unfold i. clear. induction aliases as [|a aliases IH] using rev_ind; [reflexivity|]. rewrite fold_left_app, IH, latest_app. reflexivity. }
  clearbody i. subst i.
  assert (A : opt_named (latest Some aliases)).
  { apply latest_named.
    eapply Forall_impl; [|exact F]. intros b X b' Y. injection Y as <-. exact X. }
  destruct (latest Some aliases) as [a|]; (match goal with |- file_renders _ _ _ (only ?j) (file_text _ _ ?b) => pose proof (py_only cfg j b) as H end);
  apply H; cbn; auto; rewrite app_nil_r; reflexivity.
Qed.
Print Assumptions C73_python_module.
(** Deviation: the documentation of [with_alias] says that it implies that the
    import is not qualified.  It does not; the alias is then looked up in the
    module, which has no such member. *)
Theorem C73_python_alias_refuted :
  let i := fold_left py_apply [PQualified; PAlias (Static $"nt")] (py_new (Static $"collections") (Static $"namedtuple")) in
  file_renders python_lang ex_cfg tt (only i) (stack [10%N] [$"import collections"; []; $"collections.nt"; []]) /\
  ~ file_renders python_lang ex_cfg tt (only i)
      (stack [10%N] [$"from collections import namedtuple as nt"; []; $"nt"; []]).
Proof. split; [vm_compute; reflexivity|]. intros H. vm_compute in H. discriminate. Qed.
Print Assumptions C73_python_alias_refuted.

(** ** Rust *)

Definition rust_call_named (c : rust_call) : Prop := match c with RAlias a | RModuleAlias a => named a | _ => True end.
Definition no_module_alias (cs : list rust_call) : Prop := latest rust_module_alias_of cs = None.
Lemma rust_calls m n cs : no_module_alias cs -> fold_left rust_apply cs (rust_new m n) =
  mk_rust (RModule (latest rust_mode_of cs) m) n (latest rust_alias_of cs).
Proof.
  unfold no_module_alias. induction cs as [|c cs IH] using rev_ind; [reflexivity|]. rewrite fold_left_app, !latest_app. intros H.
  destruct c; cbn [rust_module_alias_of] in H; try discriminate; rewrite IH by exact H; reflexivity.
Qed.
Lemma rust_calls_aliased m n cs a after : no_module_alias cs -> exists alias, fold_left rust_apply (cs ++ RModuleAlias a :: after) (rust_new m n) =
  mk_rust (RAliased m a) n alias /\ alias = latest rust_alias_of (cs ++ RModuleAlias a :: after).
Proof.
  intros H. induction after as [|c after IH] using rev_ind.
  - rewrite fold_left_app, rust_calls by exact H. cbn. eexists. split; [reflexivity|]. rewrite latest_app. reflexivity.
  - destruct IH as (al & E & ->). rewrite app_comm_cons, app_assoc, fold_left_app, E, (latest_app _ _ c).
    destruct c; cbn; eexists; (split; [reflexivity|reflexivity]).
Qed.
Lemma rust_only cfg mode i body : rust_named i -> concat (rust_format_item mode i) = body -> body <> [] ->
  file_renders rust_lang cfg mode (only i) (file_text (c_newline cfg) (map rust_use_line (rust_mods mode (only i))) body).
Proof.
  intros N B NE. apply (rust_file cfg mode [CItem (Lang 0 i)] body).
  - repeat constructor; apply N.
  - rewrite <- B. exact (only_renders rust_lang cfg mode tt i).
  - intros _. apply only_clean. rewrite B. exact NE.
Qed.
Lemma rust_alias_named cs : Forall rust_call_named cs -> opt_named (latest rust_alias_of cs).
Proof.
  intros F. apply latest_named.
  eapply Forall_impl; [|exact F]. intros [b|b| |] X b' Y; try discriminate. injection Y as <-. exact X.
Qed.
(** Without an alias of the module, the last call decides whether the item or its
    module is used, the configuration if there is none; the last alias counts. *)
Theorem C73_rust : forall cfg mode m n cs,
  let i := fold_left rust_apply cs (rust_new m n) in
  let alias := latest rust_alias_of cs in
  named m -> named n -> Forall rust_call_named cs -> no_module_alias cs ->
  match rust_effective mode (latest rust_mode_of cs) with
  | Direct => file_renders rust_lang cfg mode (only i)
      (file_text (c_newline cfg) [$"use " ++ content m ++ $"::" ++ content n ++ rust_as alias ++ $";"] (or_name n alias))
  | QualifiedMode => exists segment, last_segment $"::" (content m) segment /\
      file_renders rust_lang cfg mode (only i)
        (file_text (c_newline cfg) (if contains $"::" (content m) then [$"use " ++ content m ++ $";"] else [])
           (segment ++ $"::" ++ content n))
  end.
Proof.
  intros cfg mode m n cs i alias NM NN F NA. pose proof (rust_alias_named cs F) as A. fold alias in A.
  unfold i. rewrite rust_calls by exact NA. fold alias. clearbody alias. clear i F NA.
  assert (RN : forall md, rust_named (mk_rust (RModule md m) n alias)) by (intros; repeat split; assumption).
  destruct (rust_effective mode (latest rust_mode_of cs)) eqn:EF.
  - match goal with |- file_renders _ _ _ (only ?j) (file_text _ _ ?b) => pose proof (rust_only cfg mode j b (RN _)) as H end.
    match type of H with _ -> _ -> file_renders _ _ _ _ (file_text _ ?l _) =>
      assert (E : l = [$"use " ++ content m ++ $"::" ++ content n ++ rust_as alias ++ $";"]); [|rewrite E in H] end.
    { unfold rust_effective in EF. destruct (latest rust_mode_of cs) as [[|]|]; [|discriminate|rewrite EF]; (match goal with |- map _ ?l = _ => change l with [(m, [LName n alias])] end); cbn [map]; unfold rust_use_line; rewrite <- ?app_assoc; reflexivity. }
    apply H; [|apply or_name_nonempty; assumption].
    unfold rust_format_item. cbn [ru_module]. unfold rust_effective in EF. destruct (latest rust_mode_of cs) as [[|]|]; [|discriminate|rewrite EF]; cbn; rewrite app_nil_r; reflexivity.
  - exists (after_last_sep $"::" (content m)). split; [apply after_last_sep_spec; discriminate|].
    match goal with |- file_renders _ _ _ (only ?j) (file_text _ _ ?b) => pose proof (rust_only cfg mode j b (RN _)) as H end.
    match type of H with _ -> _ -> file_renders _ _ _ _ (file_text _ ?l _) =>
      assert (E : l = if contains $"::" (content m) then [$"use " ++ content m ++ $";"] else []); [|rewrite E in H] end.
    { unfold rust_effective in EF. destruct (latest rust_mode_of cs) as [[|]|]; [discriminate| |rewrite EF];
      (match goal with |- map _ ?l = _ => change l with (rust_mods_of [(m, mk_used true [] [])]) end); unfold rust_mods_of, rust_iter;
      cbn [map filter snd u_self u_aliases u_names andb app]; change rust_sep with $"::"; destruct (contains $"::" (content m)); reflexivity. }
    apply H.
    + unfold rust_format_item. cbn [ru_module]. unfold rust_effective in EF. destruct (latest rust_mode_of cs) as [[|]|]; [discriminate| |rewrite EF]; unfold rust_write_prefixed; cbn [concat ru_name]; rewrite app_nil_r; reflexivity.
    + intros X. apply app_eq_nil in X as [_ X]. discriminate.
Qed.
Print Assumptions C73_rust.
(** The alias of the module, once given, stays. *)
Theorem C73_rust_module_partial : forall cfg mode m n cs a after,
  let i := fold_left rust_apply (cs ++ RModuleAlias a :: after) (rust_new m n) in
  named m -> named n -> Forall rust_call_named (cs ++ RModuleAlias a :: after) -> no_module_alias cs ->
  file_renders rust_lang cfg mode (only i)
    (file_text (c_newline cfg) [$"use " ++ content m ++ $" as " ++ content a ++ $";"] (content a ++ $"::" ++ content n)).
Proof.
  intros cfg mode m n cs a after i NM NN F NA. destruct (rust_calls_aliased m n cs a after NA) as (al & E & EA). unfold i. rewrite E.
  pose proof (rust_alias_named _ F) as AN. rewrite <- EA in AN. 
  assert (NAa : named a) by (apply Forall_app in F as [_ F]; inversion F; assumption).
  apply (rust_only cfg mode (mk_rust (RAliased m a) n al)).
  - repeat split; assumption.
  - cbn. rewrite app_nil_r. reflexivity.
  - intros X. apply app_eq_nil in X as [_ X]. discriminate.
Qed.
Print Assumptions C73_rust_module_partial.
(** Deviation: so later calls have no effect: neither another alias of the module,
    nor an alias of the item, nor [direct]. *)
Theorem C73_rust_last_refuted :
  let i := fold_left rust_apply [RModuleAlias (Static $"x"); RModuleAlias (Static $"y"); RAlias (Static $"D"); RDirect]
             (rust_new (Static $"std::fmt") (Static $"Debug")) in
  file_renders rust_lang ex_cfg Direct (only i) (stack [10%N] [$"use std::fmt as x;"; []; $"x::Debug"; []]).
Proof. vm_compute. reflexivity. Qed.
Print Assumptions C73_rust_last_refuted.

(** ** The others *)

(** C: the two kinds of headers. *)
Theorem C73_c : forall cfg path item, named path -> named item ->
  exists lit, literal_of c_lang lit /\
  file_renders c_lang cfg tt (only (c_include path item))
    (file_text (c_newline cfg) [$"#include " ++ lit (content path)] (content item)) /\
  file_renders c_lang cfg tt (only (c_include_system path item))
    (file_text (c_newline cfg) [$"#include <" ++ content path ++ $">"] (content item)).
Proof.
  intros cfg path item NP NI. exists (quoted_text (ld_ops c_lang tt tt)). split; [literal_ok|].
  assert (G : forall i, named (c_path i) -> named (c_item i) -> file_renders c_lang cfg tt (only i) (file_text (c_newline cfg)
     [c_line (quoted_text (ld_ops c_lang tt tt)) (c_path i, c_system i)] (content (c_item i)))).
  { intros i N1 N2. apply (c_file cfg [CItem (Lang 0 i)] (content (c_item i))).
    - repeat constructor. exact N1.
    - apply C36_c_reference.
    - intros _. apply only_clean. cbn. rewrite app_nil_r. exact N2. }
  split; [exact (G (c_include path item) NP NI)|exact (G (c_include_system path item) NP NI)].
Qed.
Print Assumptions C73_c.
(** Dart: with or without an alias; nothing is imported from the core library. *)
Theorem C73_dart : forall cfg path name aliases,
  let i := fold_left (fun i a => dart_with_alias a i) aliases (dart_new path name) in
  named name -> Forall named aliases -> content path <> $"dart:core" ->
  exists lit, literal_of dart_lang lit /\
  file_renders dart_lang cfg tt (only i)
    (match latest Some aliases with
     | Some a => file_text (c_newline cfg) [$"import " ++ lit (content path) ++ $" as " ++ content a ++ $";"] (content a ++ $"." ++ content name)
     | None => file_text (c_newline cfg) [$"import " ++ lit (content path) ++ $";"] (content name)
     end).
Proof.
  intros cfg path name aliases i NN F NC. exists (quoted_text (ld_ops dart_lang tt tt)). split; [literal_ok|].
  assert (I : i = mk_dart path name (latest Some aliases)).
  { unfold i. clear. induction aliases as [|a aliases IH] using rev_ind; [reflexivity|]. rewrite fold_left_app, IH, latest_app. reflexivity. }
  assert (A : opt_named (latest Some aliases)).
  { apply latest_named.
    eapply Forall_impl; [|exact F]. intros b X b' Y. injection Y as <-. exact X. }
  clearbody i. subst i. set (i := mk_dart path name (latest Some aliases)).
  pose proof (dart_file cfg [CItem (Lang 0 i)] (match latest Some aliases with Some a => content a ++ $"." | None => [] end ++ content name)) as H.
  cbv zeta in H. change (build [CItem (Lang 0 i)]) with (only i) in H.
  assert (K : dart_keys (only i) = [(path, latest Some aliases)]).
  { unfold dart_keys. change (walk_imports (only i)) with [i]. unfold i, collect. cbn [fold_left]. unfold dart_key. cbn [da_path da_alias].
    destruct (str_eqb (content path) dart_core) eqn:D; [apply str_eqb_eq in D; contradiction|reflexivity]. }
  rewrite K in H. cbn [map dart_line] in H.
  assert (NE : match latest Some aliases with Some a => content a ++ $"." | None => [] end ++ content name <> []).
  { intros X. apply app_eq_nil in X as [_ X]. apply NN, X. }
  assert (R : concat (dart_format_item i) = match latest Some aliases with Some a => content a ++ $"." | None => [] end ++ content name).
  { unfold i, dart_format_item. cbn [da_alias da_name]. destruct (latest Some aliases); cbn [concat app]; rewrite app_nil_r; [rewrite <- app_assoc|]; reflexivity. }
  specialize (H ltac:(repeat constructor; exact A) (C38_dart_reference cfg i) (fun _ => only_clean dart_format_item i ltac:(rewrite R; exact NE))).
  destruct (latest Some aliases) as [a|]; [rewrite <- (app_assoc (content a)) in H|]; exact H.
Qed.
Print Assumptions C73_dart.
(** C#: [qualified] writes the namespace too. *)
Theorem C73_csharp : forall cfg namespace name, named namespace -> named name ->
  file_renders csharp_lang cfg None (only (cs_new namespace name))
    (file_text (c_newline cfg) [$"using " ++ content namespace ++ $";"] (content name)) /\
  file_renders csharp_lang cfg None (only (cs_set_qualified (cs_new namespace name)))
    (file_text (c_newline cfg) [$"using " ++ content namespace ++ $";"] (content namespace ++ $"." ++ content name)).
Proof.
  intros cfg ns n NS NN.
  assert (G : forall q, let i := mk_cs ns n q in let body := (if q then content ns ++ $"." else []) ++ content n in
    file_renders csharp_lang cfg None (only i) (file_text (c_newline cfg) [$"using " ++ content ns ++ $";"] body)).
  { intros q i body. 
    assert (R : concat (cs_format_item None (cs_format None (only i)) i) = body).
    { unfold body, cs_format_item, cs_format, cs_chosen, i. cbn. unfold cs_is_qualified. cbn. rewrite ?str_cmp_refl. 
      cbn. destruct q; cbn; rewrite ?str_cmp_refl; cbn; rewrite ?(proj2 (str_eqb_eq (content ns) (content ns)) eq_refl); cbn; rewrite ?app_nil_r, <- ?app_assoc; reflexivity. }
    apply (cs_file cfg None [CItem (Lang 0 i)] body); auto.
    - repeat constructor. exact NS.
    - rewrite <- R. exact (only_renders csharp_lang cfg None (cs_format None (only i)) i).
    - intros _. apply only_clean. intros X. change (concat (cs_format_item None (cs_format None (only i)) i) = []) in X. rewrite R in X. apply app_eq_nil in X as [_ X]. apply NN, X. }
  split; [exact (G false)|]. specialize (G true). cbv beta iota zeta in G. rewrite <- (app_assoc (content ns)) in G. exact G.
Qed.
Print Assumptions C73_csharp.
(** Go, Swift and Java. *)
Theorem C73_go : forall cfg module name, named module -> named name ->
  exists lit segment, literal_of go_lang lit /\ last_segment $"/" (content module) segment /\
  file_renders go_lang cfg None (only (go_new module name))
    (file_text (c_newline cfg) [$"import " ++ lit (content module)] (segment ++ $"." ++ content name)).
Proof.
  intros cfg m n NM NN. destruct (C39_go_reference cfg None (go_new m n)) as (e & L & R).
  exists (quoted_text (ld_ops go_lang None tt)), e. split; [literal_ok|]. split; [exact L|].
  apply (go_file cfg None [CItem (Lang 0 (go_new m n))] (e ++ $"." ++ content n)).
  - exact I.
  - repeat constructor. exact NM.
  - exact R.
  - intros _. apply only_clean. cbn. rewrite app_nil_r. intros X. apply app_eq_nil in X as [_ X]. discriminate.
Qed.
Print Assumptions C73_go.
Theorem C73_swift : forall cfg module name, named module -> named name ->
  file_renders swift_lang cfg tt (only (swift_new module name))
    (file_text (c_newline cfg) [$"import " ++ content module] (content name)).
Proof.
  intros cfg m n NM NN. apply (swift_file cfg [CItem (Lang 0 (swift_new m n))] (content n)).
  - repeat constructor. exact NM.
  - apply C45_swift_reference.
  - intros _. apply only_clean. cbn. rewrite app_nil_r. exact NN.
Qed.
Print Assumptions C73_swift.
Theorem C73_java : forall cfg package name, named package -> named name ->
  (content package <> $"java.lang" ->
   file_renders java_lang cfg None (only (java_new package name))
     (file_text (c_newline cfg) [$"import " ++ content package ++ $"." ++ content name ++ $";"] (content name))) /\
  (content package = $"java.lang" ->
   file_renders java_lang cfg None (only (java_new package name)) (file_text (c_newline cfg) [] (content name))).
Proof.
  intros cfg p n NP NN. set (i := java_new p n).
  assert (R : concat (java_format_item None (java_format None (only i)) i) = content n).
  { unfold java_format_item, java_format, java_chosen, java_elig, i. cbn.
    match goal with |- context [str_eqb ?a ?b] => destruct (str_eqb a b) end; cbn; rewrite ?str_cmp_refl; cbn; change (java_val (p, n)) with (content p); rewrite ?(proj2 (str_eqb_eq (content p) (content p)) eq_refl); cbn; apply app_nil_r. }
  pose proof (java_file cfg None [CItem (Lang 0 i)] (content n) I) as H. cbv zeta in H. change (build [CItem (Lang 0 i)]) with (only i) in H.
  specialize (H ltac:(repeat constructor; assumption)).
  assert (RR : renders java_lang cfg None (java_format None (only i)) (only i) (content n)).
  { rewrite <- R at 1. exact (only_renders java_lang cfg None (java_format None (only i)) i). }
  specialize (H RR). specialize (H ltac:(intros _; apply only_clean; change (concat (java_format_item None (java_format None (only i)) i) <> []); rewrite R; exact NN)).
  split; intros L.
  - assert (E : java_chosen None (only i) = [(p, n)]).
    { unfold java_chosen, java_elig, i. cbn.
      match goal with |- context [str_eqb ?a ?b] => destruct (str_eqb a b) eqn:D end; [apply str_eqb_eq in D; contradiction|reflexivity]. }
    rewrite E in H. exact H.
  - assert (E : java_chosen None (only i) = []).
    { unfold java_chosen, java_elig, i. cbn. change java_lang_package with $"java.lang". rewrite L. reflexivity. }
    rewrite E in H. exact H.
Qed.
Print Assumptions C73_java.

(** ** Cases *)

(** The last of three calls decides. *)
Example C73_js_case :
  let i := fold_left js_apply [JAlias (Static $"V"); JWildcard; JDefault] (js_new (js_module_from (Static $"vue")) (Static $"Vue")) in
  file_renders (js_lang (fun _ p => p)) ex_cfg None (only i)
    (stack [10%N] [$"import Vue from ""vue"";"; []; $"Vue"; []]).
Proof. vm_compute. reflexivity. Qed.
Example C73_python_case :
  let cs := [PAlias (Static $"a"); PAlias (Static $"nt")] in
  Forall py_call_named cs /\
  file_renders python_lang ex_cfg tt (only (fold_left py_apply cs (py_new (Static $"collections") (Static $"namedtuple"))))
    (stack [10%N] [$"from collections import namedtuple as nt"; []; $"nt"; []]) /\
  file_renders python_lang ex_cfg tt (only (fold_left py_apply [PModuleAlias (Static $"x"); PQualified] (py_new (Static $"collections") (Static $"namedtuple"))))
    (stack [10%N] [$"import collections as x"; []; $"x.namedtuple"; []]).
Proof. split; [repeat constructor; discriminate|]. split; vm_compute; reflexivity. Qed.
Example C73_rust_case :
  let cs := [RQualified; RAlias (Static $"D"); RDirect] in
  Forall rust_call_named cs /\ no_module_alias cs /\
  file_renders rust_lang ex_cfg QualifiedMode (only (fold_left rust_apply cs (rust_new (Static $"std::fmt") (Static $"Debug"))))
    (stack [10%N] [$"use std::fmt::Debug as D;"; []; $"D"; []]) /\
  file_renders rust_lang ex_cfg Direct (only (fold_left rust_apply (cs ++ [RQualified]) (rust_new (Static $"std::fmt") (Static $"Debug"))))
    (stack [10%N] [$"use std::fmt;"; []; $"fmt::Debug"; []]).
Proof. split; [repeat constructor; discriminate|]. split; [reflexivity|]. split; vm_compute; reflexivity. Qed.
Example C73_dart_case :
  file_renders dart_lang ex_cfg tt (only (fold_left (fun i a => dart_with_alias a i) [Static $"x"; Static $"coll"] (dart_new (Static $"dart:collection") (Static $"HashMap"))))
    (stack [10%N] [$"import ""dart:collection"" as coll;"; []; $"coll.HashMap"; []]).
Proof. vm_compute. reflexivity. Qed.
