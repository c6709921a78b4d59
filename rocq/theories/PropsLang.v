(** * Properties of generated files: C36-C48.

    Vocabulary: [SpecFile.v] (files, bodies, sorting), [SpecLang.v] (lines and
    names of each language), [SpecFmt.v]; model: the language files. *)
From Verif Require Import Str StrFacts Tokens SpecTokens TokensRun Values Fmt SpecFmt RenderFacts
  StringFacts Order OrderFacts SpecFile SpecLang HeaderFacts FileFacts ImportFacts PickFacts JavaFacts
  CsharpFacts BlockFacts LayoutFacts LangBase LangC LangSwift LangGo LangDart LangJava LangCsharp.

Lemma key_order_sorted {A} (c : A -> A -> comparison) (R : A -> A -> Prop) l :
  (forall a b, c a b = Lt -> R a b) -> increasing c l -> sorted R l.
Proof. intros H I. eapply increasing_sorted; eauto. Qed.
Ltac literal_ok := intros s; apply quoted_to_string; reflexivity.

(** For examples: default configuration with 4 spaces; a stream with one item
    per line. *)
Definition ex_cfg : config := mk_config (ISpace 4) [10%N].
Fixpoint ex_calls {LI} (xs : list LI) : list (call LI) :=
  match xs with
  | [] => []
  | [x] => [CItem (Lang 0 x)]
  | x :: xs' => CItem (Lang 0 x) :: CPush :: ex_calls xs'
  end.

(** ** C36: C *)

Theorem C36_c_includes : forall cfg cs body, let t := build cs in
  Forall (fun i => named (c_path i)) (uses t) ->
  body_of c_lang cfg tt tt t body ->
  exists lit keys, literal_of c_lang lit /\
    sorted (pair_before name_before bool_before) keys /\
    (forall path system, In (path, system) keys <->
       exists i, In i (uses t) /\ c_path i = path /\ c_system i = system) /\
    file_renders c_lang cfg tt t (file_text (c_newline cfg) (map (c_line lit) keys) body).
Proof.
  intros cfg cs body t N [R CS].
  exists (quoted_text (ld_ops c_lang tt tt)), (c_keys t). split; [literal_ok|]. split; [|split].
  - eapply key_order_sorted; [|apply (collect_increasing c_key_order); constructor].
    intros; eapply pair_before_cmp; eauto using name_before_cmp, bool_before_cmp, item_str_order.
  - intros path sys. unfold c_keys. rewrite (in_collect c_key_order). split.
    + intros [[]|[i [H E]]]. injection E as <- <-. exists i. split; auto. apply walk_set; auto.
    + intros [i [H [<- <-]]]. right. exists i. split; auto. apply walk_set; auto.
  - apply c_file; auto.
Qed.
Print Assumptions C36_c_includes.
Theorem C36_c_reference : forall cfg i,
  renders c_lang cfg tt tt (only i) (content (c_item i)).
Proof. intros. pose proof (only_renders c_lang cfg tt tt i) as R. cbn in R. rewrite app_nil_r in R. exact R. Qed.
Print Assumptions C36_c_reference.
Definition ex_c : list c_import :=
  [mk_c (Static $"stdio.h") (Static $"printf") true; mk_c (Static $"a.h") (Static $"f") false;
   mk_c (Static $"stdio.h") (Static $"puts") true].
Example C36_example : let t := build (ex_calls ex_c) in
  Forall (fun i => named (c_path i)) (uses t) /\
  body_of c_lang ex_cfg tt tt t ($"printf" ++ [10%N] ++ $"f" ++ [10%N] ++ $"puts") /\
  file_renders c_lang ex_cfg tt t
    ($"#include " ++ [34%N] ++ $"a.h" ++ [34; 10]%N ++ $"#include <stdio.h>" ++ [10; 10]%N ++
     $"printf" ++ [10%N] ++ $"f" ++ [10%N] ++ $"puts" ++ [10%N]).
Proof.
  split; [|split; [split|]].
  - repeat constructor; discriminate.
  - vm_compute. reflexivity.
  - intros _. eexists [], _, _. split; [reflexivity|]. split; [discriminate|]. split; [constructor|].
    intros [|? ?] b E; discriminate.
  - vm_compute. reflexivity.
Qed.

(** ** C45: Swift *)

Theorem C45_swift_imports : forall cfg cs body, let t := build cs in
  Forall (fun i => named (sw_module i)) (uses t) ->
  body_of swift_lang cfg tt tt t body ->
  exists keys, sorted name_before keys /\
    (forall m, In m keys <-> exists i, In i (uses t) /\ sw_module i = m) /\
    file_renders swift_lang cfg tt t (file_text (c_newline cfg) (map swift_line keys) body).
Proof.
  intros cfg cs body t N [R CS]. exists (swift_keys t). split; [|split].
  - eapply key_order_sorted; [|apply (collect_increasing item_str_order); constructor].
    intros; apply name_before_cmp; auto.
  - intros m. unfold swift_keys. rewrite (in_collect item_str_order). split.
    + intros [[]|[i [H E]]]. injection E as <-. exists i. split; auto. apply walk_set; auto.
    + intros [i [H <-]]. right. exists i. split; auto. apply walk_set; auto.
  - apply swift_file; auto.
Qed.
Print Assumptions C45_swift_imports.
Theorem C45_swift_reference : forall cfg i,
  renders swift_lang cfg tt tt (only i) (content (sw_name i)).
Proof. intros. pose proof (only_renders swift_lang cfg tt tt i) as R. cbn in R. rewrite app_nil_r in R. exact R. Qed.
Print Assumptions C45_swift_reference.
Example C45_example : let t := build (ex_calls
    [mk_swift (Static $"UIKit") (Static $"View"); mk_swift (Static $"Foo") (Static $"Debug");
     mk_swift (Static $"Foo") (Static $"Trace")]) in
  Forall (fun i => named (sw_module i)) (uses t) /\
  body_of swift_lang ex_cfg tt tt t ($"View" ++ [10%N] ++ $"Debug" ++ [10%N] ++ $"Trace") /\
  file_renders swift_lang ex_cfg tt t
    ($"import Foo" ++ [10%N] ++ $"import UIKit" ++ [10; 10]%N ++
     $"View" ++ [10%N] ++ $"Debug" ++ [10%N] ++ $"Trace" ++ [10%N]).
Proof.
  split; [|split; [split|]].
  - repeat constructor; discriminate.
  - vm_compute. reflexivity.
  - intros _. eexists [], _, _. split; [reflexivity|]. split; [discriminate|]. split; [constructor|].
    intros [|? ?] b E; discriminate.
  - vm_compute. reflexivity.
Qed.

(** ** C39: Go *)

Lemma go_body cfg package t body : body_of go_lang cfg package tt t body ->
  renders go_lang cfg package tt t body /\ (body <> [] -> clean_start go_format_item t).
Proof. auto. Qed.
Theorem C39_go_imports : forall cfg package cs body, let t := build cs in
  opt_named package -> Forall (fun i => named (go_module i)) (uses t) ->
  body_of go_lang cfg package tt t body ->
  exists lit keys, literal_of go_lang lit /\ sorted name_before keys /\
    (forall m, In m keys <-> exists i, In i (uses t) /\ go_module i = m) /\
    file_renders go_lang cfg package t
      (file_text (c_newline cfg)
         (package_then (option_map go_package_line package) (map (go_line lit) keys)) body).
Proof.
  intros cfg package cs body t NP N [R CS].
  exists (quoted_text (ld_ops go_lang None tt)), (go_keys t). split; [literal_ok|]. split; [|split].
  - eapply key_order_sorted; [|apply (collect_increasing item_str_order); constructor].
    intros; apply name_before_cmp; auto.
  - intros m. unfold go_keys. rewrite (in_collect item_str_order). split.
    + intros [[]|[i [H E]]]. injection E as <-. exists i. split; auto. apply walk_set; auto.
    + intros [i [H <-]]. right. exists i. split; auto. apply walk_set; auto.
  - apply go_file; auto.
Qed.
Print Assumptions C39_go_imports.
Theorem C39_go_reference : forall cfg package i, exists e,
  last_segment $"/" (content (go_module i)) e /\
  renders go_lang cfg package tt (only i) (e ++ $"." ++ content (go_name i)).
Proof.
  intros. eexists. split; [apply after_last_sep_spec; discriminate|].
  pose proof (only_renders go_lang cfg package tt i) as R. cbn in R. rewrite app_nil_r in R. exact R.
Qed.
Print Assumptions C39_go_reference.
Definition ex_go : list go_import :=
  [mk_go (Static $"foo/bar") (Static $"Debug"); mk_go (Static $"fmt") (Static $"Print");
   mk_go (Static $"foo/bar") (Static $"Trace")].
Example C39_example : let t := build (ex_calls ex_go) in
  let c := Some (Static $"main") in
  Forall (fun i => named (go_module i)) (uses t) /\
  body_of go_lang ex_cfg c tt t ($"bar.Debug" ++ [10%N] ++ $"fmt.Print" ++ [10%N] ++ $"bar.Trace") /\
  file_renders go_lang ex_cfg c t
    ($"package main" ++ [10; 10]%N ++
     $"import " ++ [34%N] ++ $"fmt" ++ [34; 10]%N ++ $"import " ++ [34%N] ++ $"foo/bar" ++ [34; 10; 10]%N ++
     $"bar.Debug" ++ [10%N] ++ $"fmt.Print" ++ [10%N] ++ $"bar.Trace" ++ [10%N]).
Proof.
  split; [|split; [split|]].
  - repeat constructor; discriminate.
  - vm_compute. reflexivity.
  - intros _. eexists [], _, _. split; [reflexivity|]. split; [discriminate|]. split; [constructor|].
    intros [|? ?] b E; discriminate.
  - vm_compute. reflexivity.
Qed.

(** ** C38: Dart *)

Theorem C38_dart_imports : forall cfg cs body, let t := build cs in
  Forall (fun i => opt_named (da_alias i)) (uses t) ->
  body_of dart_lang cfg tt tt t body ->
  exists lit keys, literal_of dart_lang lit /\
    sorted (pair_before name_before (opt_before name_before)) keys /\
    (forall path alias, In (path, alias) keys <->
       content path <> $"dart:core" /\
       exists i, In i (uses t) /\ da_path i = path /\ da_alias i = alias) /\
    file_renders dart_lang cfg tt t (file_text (c_newline cfg) (map (dart_line lit) keys) body).
Proof.
  intros cfg cs body t N [R CS].
  exists (quoted_text (ld_ops dart_lang tt tt)), (dart_keys t). split; [literal_ok|]. split; [|split].
  - eapply key_order_sorted; [|apply (collect_increasing dart_key_order); constructor].
    intros; eapply pair_before_cmp; eauto using name_before_cmp, item_str_order.
    intros; eapply opt_before_cmp; eauto using name_before_cmp.
  - intros path alias. unfold dart_keys. rewrite (in_collect dart_key_order). unfold dart_key. split.
    + intros [[]|[i [H E]]]. destruct (str_eqb (content (da_path i)) dart_core) eqn:D; [discriminate|].
      injection E as <- <-. split.
      * intros X. apply str_eqb_eq in X. unfold dart_core in D. congruence.
      * exists i. split; auto. apply walk_set; auto.
    + intros [X [i [H [<- <-]]]]. right. exists i. split; [apply walk_set; auto|].
      destruct (str_eqb (content (da_path i)) dart_core) eqn:D; auto.
      apply str_eqb_eq in D. contradiction.
  - apply dart_file; auto.
Qed.
Print Assumptions C38_dart_imports.
Theorem C38_dart_reference : forall cfg i,
  renders dart_lang cfg tt tt (only i)
    (match da_alias i with Some a => content a ++ $"." | None => [] end ++ content (da_name i)).
Proof.
  intros. pose proof (only_renders dart_lang cfg tt tt i) as R. cbn in R. unfold dart_format_item in R.
  destruct (da_alias i); cbn in R; rewrite app_nil_r in R; [rewrite <- app_assoc|]; exact R.
Qed.
Print Assumptions C38_dart_reference.
Definition ex_dart : list dart_import :=
  [mk_dart (Static $"package:http/http.dart") (Static $"A") None;
   mk_dart (Static $"dart:core") (Static $"int") None;
   mk_dart (Static $"package:http/http.dart") (Static $"C") (Some (Static $"h2"))].
Example C38_example : let t := build (ex_calls ex_dart) in
  Forall (fun i => opt_named (da_alias i)) (uses t) /\
  body_of dart_lang ex_cfg tt tt t ($"A" ++ [10%N] ++ $"int" ++ [10%N] ++ $"h2.C") /\
  file_renders dart_lang ex_cfg tt t
    ($"import " ++ [34%N] ++ $"package:http/http.dart" ++ [34%N] ++ $";" ++ [10%N] ++
     $"import " ++ [34%N] ++ $"package:http/http.dart" ++ [34%N] ++ $" as h2;" ++ [10; 10]%N ++
     $"A" ++ [10%N] ++ $"int" ++ [10%N] ++ $"h2.C" ++ [10%N]).
Proof.
  split; [|split; [split|]].
  - repeat constructor; discriminate.
  - vm_compute. reflexivity.
  - intros _. eexists [], _, _. split; [reflexivity|]. split; [discriminate|]. split; [constructor|].
    intros [|? ?] b E; discriminate.
  - vm_compute. reflexivity.
Qed.

(** ** C40: Java *)

Definition java_text_keys (ks : list (item_str * item_str)) : list (str * str) :=
  map (fun k => (content (fst k), content (snd k))) ks.

Lemma java_before_iff a b : java_key_cmp a b = Lt <-> pair_before name_before name_before a b.
Proof. apply pair_before_iff; auto using item_str_order, name_before_iff. Qed.

Lemma java_chosen_first package cs k : let t := build cs in
  In k (java_chosen package t) <->
  first_named (pair_before name_before name_before) (fun k => ~ java_own package (fst k))
    (fun k => content (snd k))
    (fun k => exists i, In i (uses t) /\ k = (ja_package i, ja_name i)) k.
Proof.
  intros t. etransitivity; [apply (java_chosen_spec package cs k)|]. unfold first_named.
  split; intros [H1 [H2 H3]]; (split; [auto|split; [auto|]]); intros k' K1 K2 K3;
    destruct (H3 k' K1 K2 K3) as [|H]; auto; right; apply java_before_iff; auto.
Qed.

Theorem C40_java_imports : forall cfg package cs, let t := build cs in
  opt_named package -> Forall (fun i => named (ja_package i) /\ named (ja_name i)) (uses t) ->
  exists imports f,
    sorted (pair_before name_before name_before) imports /\
    (forall k, In k imports <->
       first_named (pair_before name_before name_before) (fun k => ~ java_own package (fst k))
         (fun k => content (snd k))
         (fun k => exists i, In i (uses t) /\ k = (ja_package i, ja_name i)) k) /\
    NoDup (map (fun k => content (snd k)) imports) /\
    (forall i, In i (uses t) -> exists w,
       java_written package imports i w /\
       renders java_lang cfg package f (only i) (written_text w)) /\
    (forall body, body_of java_lang cfg package f t body ->
       file_renders java_lang cfg package t
         (file_text (c_newline cfg)
            (package_then (option_map java_package_line package) (map java_line imports)) body)).
Proof.
  intros cfg package cs t NP N.
  exists (java_chosen package t), (java_format package t). split; [|split; [|split; [|split]]].
  - eapply key_order_sorted; [|apply picks_increasing, java_keys_increasing].
    intros a b; apply java_before_iff.
  - intros k. apply java_chosen_first.
  - apply picks_names.
  - intros i Hi. apply java_reference; auto.
  - intros body [R CS]. apply java_file; auto.
Qed.
Print Assumptions C40_java_imports.

(** Every reference denotes the class it names, provided no used class of
    [java.lang] or of the file's package shares its simple name with a used class
    of another package, and the file's package declares no class with the name of
    a used class of [java.lang]. *)
Theorem C40_java_resolution_partial : forall cfg package cs (declared : str -> str -> Prop), let t := build cs in
  opt_named package -> Forall (fun i => named (ja_package i) /\ named (ja_name i)) (uses t) ->
  (forall i, In i (uses t) -> declared (content (ja_package i)) (content (ja_name i))) ->
  (forall i j, In i (uses t) -> In j (uses t) -> java_own package (ja_package i) ->
     ~ java_own package (ja_package j) -> content (ja_name i) <> content (ja_name j)) ->
  (forall i p, In i (uses t) -> content (ja_package i) = $"java.lang" ->
     option_map content package = Some p -> p <> $"java.lang" -> ~ declared p (content (ja_name i))) ->
  exists imports f,
    (forall i, In i (uses t) -> exists w,
       renders java_lang cfg package f (only i) (written_text w) /\
       java_denotes declared (option_map content package) (java_text_keys imports) w
         (content (ja_package i)) (content (ja_name i))) /\
    (forall body, body_of java_lang cfg package f t body ->
       file_renders java_lang cfg package t
         (file_text (c_newline cfg)
            (package_then (option_map java_package_line package) (map java_line imports)) body)).
Proof.
  intros cfg package cs declared t NP N D S1 S2.
  destruct (C40_java_imports cfg package cs NP N) as (imports & f & _ & H2 & H3 & H4 & H5).
  exists imports, f. split; [|auto]. intros i Hi. destruct (H4 i Hi) as (w & W & R).
  exists w. split; auto. split; [auto|].
  destruct W as [[-> [O|[k [K1 [K2 K3]]]]]|[-> [O [k [K1 [K2 K3]]]]]]; auto.
  - split; auto. right.
    assert (NI : forall q, ~ In (q, content (ja_name i)) (java_text_keys imports)).
    { intros q Hq. unfold java_text_keys in Hq. apply in_map_iff in Hq as [k [E Hk]].
      apply H2 in Hk as [[j [Hj ->]] [J2 _]]. cbn in E. injection E as E1 E2.
      apply (S1 i j); auto. }
    split; auto. destruct O as [O|O]; [|auto].
    destruct (option_map content package) as [p|] eqn:EP.
    + destruct (list_eq_dec N.eq_dec p $"java.lang") as [->|NE]; [left; congruence|].
      right. split; auto. intros q Eq. injection Eq as <-. eapply S2; eauto.
    + right. split; auto. discriminate.
  - split; auto. left. unfold java_text_keys. apply in_map_iff. exists k. rewrite K2, K3. auto.
Qed.
Print Assumptions C40_java_resolution_partial.

(** Without the proviso: [Integer] for [java.lang.Integer] denotes the imported
    [foo.Integer]. *)
Definition ex_java_shadow : list java_import :=
  [mk_java (Static $"java.lang") (Static $"Integer"); mk_java (Static $"foo") (Static $"Integer")].
Theorem C40_java_resolution_refuted : let t := build (ex_calls ex_java_shadow) in
  file_renders java_lang ex_cfg None t
    ($"import foo.Integer;" ++ [10; 10]%N ++ $"Integer" ++ [10%N] ++ $"Integer" ++ [10%N]) /\
  forall declared, ~ java_denotes declared None [($"foo", $"Integer")] (Simple $"Integer") $"java.lang" $"Integer".
Proof.
  split; [vm_compute; reflexivity|]. intros declared [_ [_ [[H|[]]|[H _]]]]; [discriminate|].
  apply (H $"foo"). left. reflexivity.
Qed.
Print Assumptions C40_java_resolution_refuted.

Definition ex_java : list java_import :=
  [mk_java (Static $"some.other") (Static $"List"); mk_java (Static $"java.util") (Static $"List");
   mk_java (Static $"java.lang") (Static $"Integer"); mk_java (Static $"own") (Static $"Thing")].
Definition ex_java_declared (p n : str) : Prop :=
  In (p, n) [($"some.other", $"List"); ($"java.util", $"List"); ($"java.lang", $"Integer"); ($"own", $"Thing")].
Example C40_example : let t := build (ex_calls ex_java) in let c := Some (Static $"own") in
  Forall (fun i => named (ja_package i) /\ named (ja_name i)) (uses t) /\
  (forall i, In i (uses t) -> ex_java_declared (content (ja_package i)) (content (ja_name i))) /\
  (forall i j, In i (uses t) -> In j (uses t) -> java_own c (ja_package i) ->
     ~ java_own c (ja_package j) -> content (ja_name i) <> content (ja_name j)) /\
  (forall i p, In i (uses t) -> content (ja_package i) = $"java.lang" ->
     option_map content c = Some p -> p <> $"java.lang" -> ~ ex_java_declared p (content (ja_name i))) /\
  file_renders java_lang ex_cfg c t
    ($"package own;" ++ [10; 10]%N ++ $"import java.util.List;" ++ [10; 10]%N ++
     $"some.other.List" ++ [10%N] ++ $"List" ++ [10%N] ++ $"Integer" ++ [10%N] ++ $"Thing" ++ [10%N]).
Proof.
  split; [repeat constructor; discriminate|]. split; [|split; [|split]].
  - intros i Hi. cbn in Hi. unfold ex_java_declared. cbn.
    destruct Hi as [<-|[<-|[<-|[<-|[]]]]]; cbn; auto.
  - intros i j Hi Hj O1 O2. cbn in Hi, Hj. unfold java_own in *.
    destruct Hi as [<-|[<-|[<-|[<-|[]]]]]; cbn in O1 |- *; try (destruct O1; discriminate);
      destruct Hj as [<-|[<-|[<-|[<-|[]]]]]; cbn in O2 |- *; try discriminate; exfalso; apply O2; auto.
  - intros i p Hi E P NE. injection P as <-. cbn in Hi. unfold ex_java_declared.
    destruct Hi as [<-|[<-|[<-|[<-|[]]]]]; try discriminate E. cbn. intuition discriminate.
  - vm_compute. reflexivity.
Qed.

(** ** C37: C# *)

Lemma cs_before_iff a b : cs_key_cmp a b = Lt <-> pair_before text_before text_before a b.
Proof. apply pair_before_iff; auto using str_order, text_before_iff. Qed.
Lemma cs_chosen_first namespace cs k : let t := build cs in
  In k (cs_chosen namespace t) <->
  first_named (pair_before text_before text_before)
    (fun k => option_map content namespace <> Some (fst k)) snd
    (fun k => exists i, In i (uses t) /\ k = (content (cs_namespace i), content (cs_name i))) k.
Proof.
  intros t. etransitivity; [apply (cs_chosen_spec namespace cs k)|]. unfold first_named.
  split; intros [H1 [H2 H3]]; (split; [auto|split; [auto|]]); intros k' K1 K2 K3;
    destruct (H3 k' K1 K2 K3) as [|H]; auto; right; apply cs_before_iff; auto.
Qed.

Lemma doc_renders {LI C F} (L : lang_def LI C F) cfg c f t doc :
  items t = doc_items doc -> doc_ok doc = true ->
  renders L cfg c f t
    (stack (c_newline cfg) (sym_lines (layout (c_indentation cfg) (doc_atoms (ld_ops L c f) cfg doc)))).
Proof.
  intros E OK. unfold renders, outcome, format. rewrite E, format_doc by auto.
  destruct (run_string_new cfg (doc_atoms (ld_ops L c f) cfg doc) []) as [st' [E1 E2]].
  unfold str in *. rewrite E1. cbn [fst snd]. rewrite E2. cbn [app]. rewrite text_lines_stack. reflexivity.
Qed.
Lemma layout_lines_no_newline ind l : Forall (fun a => no_newline (a_text a)) l ->
  Forall no_newline (sym_lines (layout ind l)).
Proof.
  intros H. assert (N : ~ In (Ch 10%N) (layout ind l)) by (apply layout_no_newline; auto).
  induction (layout ind l) as [|x o IH]; cbn; [repeat constructor; intros []|].
  destruct x as [c|].
  - assert (IH' := IH (fun X => N (or_intror X))).
    destruct (sym_lines o); [repeat constructor|inversion IH'; subst; constructor; auto];
      intros [E|E]; try (destruct E); try contradiction; subst; apply N; left; reflexivity.
  - constructor; [intros []|]. apply IH. intros X. apply N. right; auto.
Qed.

Lemma csharp_usings_values : forall cfg namespace cs, let t := build cs in
  Forall (fun i => named (cs_namespace i)) (uses t) ->
  let imports := cs_chosen namespace t in let usings := cs_usings namespace t in let f := cs_format namespace t in
    (forall k, In k imports <->
       first_named (pair_before text_before text_before)
         (fun k => option_map content namespace <> Some (fst k)) snd
         (fun k => exists i, In i (uses t) /\ k = (content (cs_namespace i), content (cs_name i))) k) /\
    sorted text_before usings /\
    (forall n, In n usings <-> exists name, In (n, name) imports) /\
    (forall n, In n usings -> option_map content namespace <> Some n) /\
    (forall i, In i (uses t) -> exists w,
       cs_written namespace imports i w /\
       renders csharp_lang cfg namespace f (only i) (written_text w)) /\
    (namespace = None -> forall body, body_of csharp_lang cfg namespace f t body ->
       file_renders csharp_lang cfg namespace t
         (file_text (c_newline cfg) (map cs_line usings) body)) /\
    (forall ns doc, namespace = Some ns -> named ns ->
       items t = doc_items doc -> doc_ok doc = true ->
       let l := doc_atoms (ld_ops csharp_lang namespace f) cfg doc in
       visible_ends l -> level_body l ->
       exists lines,
         renders csharp_lang cfg namespace f t (stack (c_newline cfg) lines) /\
         (Forall (fun a => no_newline (a_text a)) l -> Forall no_newline lines) /\
         file_renders csharp_lang cfg namespace t
           (file_text (c_newline cfg) (map cs_line usings)
              (stack (c_newline cfg)
                 (($"namespace " ++ content ns ++ $" {") ::
                  map (indent_line (indent_text (c_indentation cfg) 1)) lines ++ [$"}"])))).
Proof.
  intros cfg namespace cs t N imports usings f. subst imports usings f.
  split; [intros k; apply cs_chosen_first|].
  split; [eapply key_order_sorted; [|apply cs_usings_increasing]; intros a b; apply text_before_iff|].
  split.
  { intros n. rewrite in_cs_usings. split.
    - intros [[m k] [H <-]]. exists k. auto.
    - intros [k H]. exists (n, k). auto. }
  split.
  { intros n H. apply in_cs_usings in H as [k [H <-]].
    apply cs_chosen_first in H as [_ [H _]]. exact H. }
  split; [intros i Hi; apply cs_reference; auto|].
  split.
  - intros E body [R CS]. apply cs_file; auto.
  - intros ns doc -> NN EI OK l V LV.
    exists (sym_lines (layout (c_indentation cfg) l)). split; [apply doc_renders; auto|].
    split; [apply layout_lines_no_newline|]. apply cs_block_file; auto.
Qed.
Theorem C37_csharp_usings : forall cfg namespace cs, let t := build cs in
  Forall (fun i => named (cs_namespace i)) (uses t) ->
  exists imports usings f,
    (forall k, In k imports <->
       first_named (pair_before text_before text_before)
         (fun k => option_map content namespace <> Some (fst k)) snd
         (fun k => exists i, In i (uses t) /\ k = (content (cs_namespace i), content (cs_name i))) k) /\
    sorted text_before usings /\
    (forall n, In n usings <-> exists name, In (n, name) imports) /\
    (forall n, In n usings -> option_map content namespace <> Some n) /\
    (forall i, In i (uses t) -> exists w,
       cs_written namespace imports i w /\
       renders csharp_lang cfg namespace f (only i) (written_text w)) /\
    (namespace = None -> forall body, body_of csharp_lang cfg namespace f t body ->
       file_renders csharp_lang cfg namespace t
         (file_text (c_newline cfg) (map cs_line usings) body)) /\
    (forall ns doc, namespace = Some ns -> named ns ->
       items t = doc_items doc -> doc_ok doc = true ->
       let l := doc_atoms (ld_ops csharp_lang namespace f) cfg doc in
       visible_ends l -> level_body l ->
       exists lines,
         renders csharp_lang cfg namespace f t (stack (c_newline cfg) lines) /\
         (Forall (fun a => no_newline (a_text a)) l -> Forall no_newline lines) /\
         file_renders csharp_lang cfg namespace t
           (file_text (c_newline cfg) (map cs_line usings)
              (stack (c_newline cfg)
                 (($"namespace " ++ content ns ++ $" {") ::
                  map (indent_line (indent_text (c_indentation cfg) 1)) lines ++ [$"}"])))).
Proof.
  intros cfg namespace cs t N.
  exists (cs_chosen namespace t), (cs_usings namespace t), (cs_format namespace t). exact (csharp_usings_values cfg namespace cs N).
Qed.
Print Assumptions C37_csharp_usings.

(** A reference denotes the type it names, provided the file's namespace and the
    other imported namespaces declare no type of that name. *)
Theorem C37_csharp_resolution_partial : forall cfg namespace cs (declared : str -> str -> Prop),
  let t := build cs in
  Forall (fun i => named (cs_namespace i)) (uses t) ->
  exists usings f,
    (forall i, In i (uses t) ->
       let ns := content (cs_namespace i) in let n := content (cs_name i) in
       declared ns n ->
       (forall m, option_map content namespace = Some m -> m <> ns -> ~ declared m n) ->
       (forall m, In m usings -> m <> ns -> ~ declared m n) ->
       exists w, renders csharp_lang cfg namespace f (only i) (written_text w) /\
         cs_denotes declared (option_map content namespace) usings w ns n) /\
    (namespace = None -> forall body, body_of csharp_lang cfg namespace f t body ->
       file_renders csharp_lang cfg namespace t
         (file_text (c_newline cfg) (map cs_line usings) body)).
Proof.
  intros cfg namespace cs declared t N.
  destruct (C37_csharp_usings cfg namespace cs N) as (imports & usings & f & H1 & H2 & H3 & H4 & H5 & H6 & _).
  exists usings, f. split; [|auto]. intros i Hi ns n D F U. destruct (H5 i Hi) as (w & W & R).
  exists w. split; auto. split; auto.
  destruct W as [[-> _]|[-> [_ [O|I]]]]; auto. split; auto.
  destruct (option_map content namespace) as [m|] eqn:E.
  - destruct (list_eq_dec N.eq_dec m ns) as [->|NE]; [auto|]. right.
    split; [intros m' Em; injection Em as <-; auto|].
    split; [apply H3; exists n; exact I|]. intros m' Hm Dm.
    destruct (list_eq_dec N.eq_dec m' ns) as [|NE']; auto. destruct (U m' Hm NE' Dm).
  - right. split; [discriminate|]. split; [apply H3; exists n; exact I|]. intros m' Hm Dm.
    destruct (list_eq_dec N.eq_dec m' ns) as [|NE']; auto. destruct (U m' Hm NE' Dm).
Qed.
Print Assumptions C37_csharp_resolution_partial.

(** Without the proviso: [B] for [Foo.Bar.B] is ambiguous, because [Foo.Baz],
    imported for [C], declares a [B] too (and is used for it in this very file). *)
Definition ex_cs_ambiguous : list cs_import :=
  [mk_cs (Static $"Foo.Bar") (Static $"B") false; mk_cs (Static $"Foo.Baz") (Static $"B") false;
   mk_cs (Static $"Foo.Baz") (Static $"C") false].
Theorem C37_csharp_ambiguous_refuted : let t := build (ex_calls ex_cs_ambiguous) in
  file_renders csharp_lang ex_cfg None t
    ($"using Foo.Bar;" ++ [10%N] ++ $"using Foo.Baz;" ++ [10; 10]%N ++
     $"B" ++ [10%N] ++ $"Foo.Baz.B" ++ [10%N] ++ $"C" ++ [10%N]) /\
  forall declared : str -> str -> Prop,
    (forall i, In i (uses t) -> declared (content (cs_namespace i)) (content (cs_name i))) ->
    ~ cs_denotes declared None [$"Foo.Bar"; $"Foo.Baz"] (Simple $"B") $"Foo.Bar" $"B".
Proof.
  split; [vm_compute; reflexivity|].
  intros declared D [_ [_ [H|[_ [_ H]]]]]; [discriminate|].
  assert (X : $"Foo.Baz" = $"Foo.Bar").
  { apply H; [right; left; reflexivity|].
    apply (D (mk_cs (Static $"Foo.Baz") (Static $"B") false)). right. left. reflexivity. }
  discriminate.
Qed.
Print Assumptions C37_csharp_ambiguous_refuted.
(** A type of the file's own namespace hides an imported one. *)
Definition ex_cs_own : list cs_import :=
  [mk_cs (Static $"Own") (Static $"A") false; mk_cs (Static $"Other") (Static $"A") false].
Theorem C37_csharp_own_namespace_refuted : let t := build (ex_calls ex_cs_own) in
  file_renders csharp_lang ex_cfg (Some (Static $"Own")) t
    ($"using Other;" ++ [10; 10]%N ++ $"namespace Own {" ++ [10%N] ++ $"    A" ++ [10%N] ++
     $"    A" ++ [10%N] ++ $"}" ++ [10%N]) /\
  forall declared : str -> str -> Prop,
    (forall i, In i (uses t) -> declared (content (cs_namespace i)) (content (cs_name i))) ->
    ~ cs_denotes declared (Some $"Own") [$"Other"] (Simple $"A") $"Other" $"A".
Proof.
  split; [vm_compute; reflexivity|].
  intros declared D [_ [_ [H|[H _]]]]; [discriminate|].
  apply (H $"Own" eq_refl). apply (D (mk_cs (Static $"Own") (Static $"A") false)). left. reflexivity.
Qed.
Print Assumptions C37_csharp_own_namespace_refuted.

Definition ex_cs : list cs_import :=
  [mk_cs (Static $"System") (Static $"Console") false; mk_cs (Static $"Foo") (Static $"A") false;
   mk_cs (Static $"Own") (Static $"T") false; mk_cs (Static $"Bar") (Static $"A") false;
   mk_cs (Static $"Bar") (Static $"Q") true].
Example C37_example : let t := build (ex_calls ex_cs) in
  Forall (fun i => named (cs_namespace i)) (uses t) /\
  file_renders csharp_lang ex_cfg (Some (Static $"Own")) t
    ($"using Bar;" ++ [10%N] ++ $"using System;" ++ [10; 10]%N ++
     $"namespace Own {" ++ [10%N] ++ $"    Console" ++ [10%N] ++ $"    Foo.A" ++ [10%N] ++ $"    T" ++ [10%N] ++
     $"    A" ++ [10%N] ++ $"    Bar.Q" ++ [10%N] ++ $"}" ++ [10%N]) /\
  exists doc f, items t = doc_items doc /\ doc_ok doc = true /\
    visible_ends (doc_atoms (ld_ops csharp_lang (Some (Static $"Own")) f) ex_cfg doc) /\
    level_body (doc_atoms (ld_ops csharp_lang (Some (Static $"Own")) f) ex_cfg doc).
Proof.
  split; [repeat constructor; discriminate|]. split; [vm_compute; reflexivity|].
  exists (map NItem (items (build (ex_calls ex_cs)))), [].
  split; [reflexivity|]. split; [reflexivity|].
  set (l := doc_atoms _ _ _). vm_compute in l. subst l. split.
  - split; [eexists _, _; split; [reflexivity|reflexivity]|].
    eexists [_; _; _; _; _; _; _; _; _; _], _. split; [reflexivity|reflexivity].
  - split; [reflexivity|]. intros p q E.
    repeat (destruct p as [|? p]; [cbn; lia|first [discriminate E|injection E as <- E]]).
Qed.
