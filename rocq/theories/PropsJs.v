(** * Properties of generated files: JavaScript (C41).

    Vocabulary: [SpecFile.v] (files, bodies, sorting), [SpecJs.v] (lines and
    names of the language); model: [LangJs.v]. *)
From Verif Require Import Str StrFacts Tokens SpecTokens TokensRun Values Fmt SpecFmt RenderFacts
  StringFacts Order OrderFacts SpecFile SpecLang HeaderFacts FileFacts ImportFacts JavaFacts GroupFacts
  LangBase LangJs SpecJs JsFacts PropsNames.


Lemma js_header relative cfg module_path cs body : let t := build cs in
  Forall js_named (uses t) ->
  body_of (js_lang relative) cfg module_path tt t body ->
  let wildcards := js_wilds t in let modules := map module_view (js_mods t) in
    sorted (pair_before module_before name_before) wildcards /\
    (forall m n, In (m, n) wildcards <->
       exists i, In i (uses t) /\ js_import_kind i = KWildcard /\ js_import_module i = m /\ js_name i = n) /\
    sorted module_before (map fst modules) /\
    (forall m, In m (map fst modules) <->
       exists i, In i (uses t) /\ js_import_kind i <> KWildcard /\ js_import_module i = m) /\
    (forall m default elements, In (m, (default, elements)) modules ->
       sorted element_before elements /\
       (forall e, In e elements <->
          exists i, In i (uses t) /\ js_import_kind i = KNamed /\ js_import_module i = m /\ js_asks i = e) /\
       match default with
       | Some d => first_default (uses t) m d
       | None => forall i, In i (uses t) -> js_import_kind i = KDefault -> js_import_module i <> m
       end) /\
    file_renders (js_lang relative) cfg module_path t
      (file_text (c_newline cfg)
         (map (js_wildcard_line (quoted_text js_ops) (js_specifier relative module_path)) wildcards ++
          map (js_module_line (quoted_text js_ops) (js_specifier relative module_path)) modules) body).
Proof.
  intros t N [R CS] wildcards modules. unfold wildcards, modules. clear wildcards modules.
  split; [eapply increasing_sorted; [|apply (collect_increasing wildcard_order); constructor]|].
  { intros. eapply (pair_before_cmp cmp_js_module cmp_item_str); eauto using module_before_cmp, name_before_cmp, module_order. }
  split; [intros; apply in_js_wilds|].
  assert (K : map fst (map module_view (js_mods t)) = map fst (js_mods t)) by (rewrite map_map; reflexivity).
  rewrite K.
  split; [eapply increasing_sorted; [apply module_before_cmp|apply js_mods_sorted]|].
  split; [intros; apply js_mods_keys|].
  split; [|apply js_file; auto].
  intros m d els H. apply in_map_iff in H as [[m' r] [[= -> <- <-] H]].
  split; [eapply increasing_sorted; [apply element_before_cmp|eapply js_elements_sorted; eauto]|].
  split; [|apply js_default_in; auto].
  intros e. etransitivity; [|apply in_js_elements]. fold t. split; [eauto|].
  intros [r' [H' He]]. assert (r = r'); [|congruence].
  apply (get_in module_order) in H, H'; try apply js_mods_sorted. congruence.
Qed.
Theorem C41_js_imports : forall relative cfg module_path cs body, let t := build cs in
  Forall js_named (uses t) ->
  body_of (js_lang relative) cfg module_path tt t body ->
  exists wildcards modules,
    sorted (pair_before module_before name_before) wildcards /\
    (forall m n, In (m, n) wildcards <->
       exists i, In i (uses t) /\ js_import_kind i = KWildcard /\ js_import_module i = m /\ js_name i = n) /\
    sorted module_before (map fst modules) /\
    (forall m, In m (map fst modules) <->
       exists i, In i (uses t) /\ js_import_kind i <> KWildcard /\ js_import_module i = m) /\
    (forall m default elements, In (m, (default, elements)) modules ->
       sorted element_before elements /\
       (forall e, In e elements <->
          exists i, In i (uses t) /\ js_import_kind i = KNamed /\ js_import_module i = m /\ js_asks i = e) /\
       match default with
       | Some d => first_default (uses t) m d
       | None => forall i, In i (uses t) -> js_import_kind i = KDefault -> js_import_module i <> m
       end) /\
    file_renders (js_lang relative) cfg module_path t
      (file_text (c_newline cfg)
         (map (js_wildcard_line (quoted_text js_ops) (js_specifier relative module_path)) wildcards ++
          map (js_module_line (quoted_text js_ops) (js_specifier relative module_path)) modules) body).
Proof.
  intros relative cfg mp cs body t N B. exists (js_wilds t), (map module_view (js_mods t)). apply js_header; auto.
Qed.
Print Assumptions C41_js_imports.

(** ** Names *)
Lemma denotes_map (l : list js_import) x : NoDup l -> In x l ->
  (forall y, In y l -> fst (js_needs y) = fst (js_needs x) -> y = x) ->
  js_denotes (map js_needs l) (fst (js_needs x)) (snd (js_needs x)).
Proof.
  intros ND IN U. destruct (in_split _ _ IN) as (a & b & ->).
  exists (map js_needs a), (map js_needs b). split.
  - rewrite map_app. cbn. destruct (js_needs x). reflexivity.
  - intros o H. rewrite <- map_app in H. apply in_map_iff in H as [y [E H]].
    assert (y = x).
    { apply U; [|rewrite E; reflexivity]. apply in_app_or in H as [H|H]; apply in_or_app; [left|right; right]; auto. }
    subst. apply NoDup_remove_2 in ND. tauto.
Qed.
Definition entry_of (m : js_module) (e : js_element) : js_import :=
  match e with EPlain n => mk_js KNamed m n None | EAliased n a => mk_js KNamed m n (Some a) end.
Definition mod_entries (k : js_module * js_resolved) : list js_import :=
  match r_default (snd k) with Some d => [mk_js KDefault (fst k) d None] | None => [] end ++
  map (entry_of (fst k)) (r_set (snd k)).
Definition js_entries (t : tokens js_import) : list js_import :=
  map (fun k => mk_js KWildcard (fst k) (snd k) None) (js_wilds t) ++ flat_map mod_entries (js_mods t).
Lemma entries_binds t :
  js_header_binds (js_wilds t) (map module_view (js_mods t)) = map js_needs (js_entries t).
Proof.
  unfold js_header_binds, js_entries. rewrite map_app, map_map. f_equal.
  induction (js_mods t) as [|[m [d s]] l IH]; [reflexivity|].
  cbn [map flat_map]. rewrite map_app, <- IH. f_equal. unfold mod_entries. cbn [fst snd r_default r_set module_view js_module_binds].
  rewrite map_app, map_map. f_equal; [destruct d; reflexivity|]. apply map_ext. intros []; reflexivity.
Qed.
Lemma nodup_app {A} (a b : list A) : NoDup a -> NoDup b -> (forall x, In x a -> ~ In x b) -> NoDup (a ++ b).
Proof.
  induction a as [|x a IH]; cbn; intros Da Db H; auto. inversion Da; subst. constructor.
  - rewrite in_app_iff. intros [X|X]; [tauto|]. eapply H; eauto.
  - apply IH; auto.
Qed.
Lemma nodup_map {A B} (f : A -> B) l : (forall x y, f x = f y -> x = y) -> NoDup l -> NoDup (map f l).
Proof.
  intros I. induction 1 as [|x l NI ND IH]; cbn; constructor; auto.
  intros H. apply in_map_iff in H as [y [E H]]. apply I in E. congruence.
Qed.
Lemma increasing_nodup {A} (c : A -> A -> comparison) l : order c -> increasing c l -> NoDup l.
Proof.
  intros O I. eapply sorted_nodup; [|eapply increasing_sorted; [|exact I]; intros a b H; exact H].
  cbn. intros x H. rewrite (o_refl O) in H; [discriminate|auto].
Qed.
Lemma entries_js_nodup t : NoDup (js_entries t).
Proof.
  unfold js_entries. apply nodup_app.
  - apply nodup_map; [intros [] [] [=]; congruence|].
    eapply increasing_nodup; [apply wildcard_order|]. apply (collect_increasing wildcard_order). constructor.
  - pose proof (increasing_nodup _ _ module_order (js_mods_sorted t)) as K.
    assert (S : forall m r, In (m, r) (js_mods t) -> NoDup (r_set r)).
    { intros m r H. eapply increasing_nodup; [apply element_order|]. eapply js_elements_sorted; eauto. }
    revert K S. generalize (js_mods t). clear.
    induction l as [|[m r] l IH]; intros K S; [constructor|]. cbn [flat_map].
    inversion K as [|? ? NI K']; subst. apply nodup_app.
    + unfold mod_entries. cbn [fst snd]. apply nodup_app.
      * destruct (r_default r); repeat constructor; auto.
      * apply nodup_map; [intros [] [] [=]; congruence|]. apply (S m). left. reflexivity.
      * intros x H X. destruct (r_default r); [|destruct H]. destruct H as [<-|[]].
        apply in_map_iff in X as [[] [[=] _]].
    + apply IH; auto. intros; eapply S; right; eauto.
    + intros x H X. apply NI. apply in_flat_map in X as [[m' r'] [H1 X]].
      assert (M : forall k y, In y (mod_entries k) -> js_import_module y = fst k).
      { clear. intros k y H. unfold mod_entries in H. apply in_app_or in H as [H|H].
        - destruct (r_default (snd k)); [destruct H as [<-|[]]; reflexivity|destruct H].
        - apply in_map_iff in H as [[] [<- _]]; reflexivity. }
      apply M in H, X. cbn in H, X. rewrite <- H, X. apply in_map_iff. exists (m', r'). auto.
  - intros x H X. apply in_map_iff in H as [k [<- _]]. apply in_flat_map in X as [k' [_ X]].
    unfold mod_entries in X. apply in_app_or in X as [X|X].
    + destruct (r_default (snd k')); [destruct X as [[=]|[]]|destruct X].
    + apply in_map_iff in X as [[] [[=] _]].
Qed.
(** Every entry is a use. *)
Lemma entries_used cs x : let t := build cs in Forall js_made (uses t) -> In x (js_entries t) -> In x (uses t).
Proof.
  intros t M H. rewrite Forall_forall in M. unfold js_entries in H. apply in_app_or in H as [H|H].
  - apply in_map_iff in H as [[m n] [<- H]]. apply in_js_wilds in H as (i & Hi & K & <- & <-).
    destruct (M i Hi) as [E|E]; [congruence|]. destruct i; cbn in *; subst. auto.
  - apply in_flat_map in H as [[m r] [H1 H2]]. unfold mod_entries in H2. cbn [fst snd] in H2.
    apply in_app_or in H2 as [H2|H2].
    + pose proof (js_default_in cs m r H1) as D. cbv zeta in D. fold t in D.
      destruct (r_default r) as [d|]; [|destruct H2]. destruct H2 as [<-|[]].
      destruct D as (b & i & a & E & K & <- & <- & _).
      assert (Hi : In i (uses t)) by (rewrite E; apply in_elt).
      destruct (M i Hi) as [X|X]; [congruence|]. destruct i; cbn in *; subst. auto.
    + apply in_map_iff in H2 as [e [<- H2]].
      destruct (proj1 (in_js_elements cs m e)) as (i & Hi & K & <- & <-); [eauto|].
      unfold js_asks. destruct i as [k m' n [a|]]; cbn in *; subst; auto.
Qed.
Lemma used_entries cs x : let t := build cs in In x (uses t) -> js_made x ->
  (js_import_kind x = KDefault -> forall j, In j (uses t) -> js_import_kind j = KDefault ->
     js_import_module j = js_import_module x -> js_name j = js_name x) ->
  In x (js_entries t).
Proof.
  intros t H M D. unfold js_entries. apply in_or_app. destruct x as [k m n al]. cbn in *.
  destruct k; cbn in *.
  - right. destruct (proj2 (in_js_elements cs m (match al with None => EPlain n | Some a => EAliased n a end))) as (r & H1 & H2).
    { eexists. split; [exact H|]. auto. }
    apply in_flat_map. exists (m, r). split; auto. unfold mod_entries. apply in_or_app. right.
    apply in_map_iff. exists (match al with None => EPlain n | Some a => EAliased n a end). split; auto. destruct al; reflexivity.
  - right. destruct M as [M|M]; [discriminate|]. cbn in M. subst al.
    assert (K : In m (map fst (js_mods t))).
    { apply js_mods_keys. eexists. split; [exact H|]. split; [discriminate|reflexivity]. }
    apply in_map_iff in K as [[m' r] [E K]]. cbn in E. subst m'.
    apply in_flat_map. exists (m, r). split; auto. unfold mod_entries. apply in_or_app. left. cbn [fst snd].
    pose proof (js_default_in cs m r K) as X. cbv zeta in X. fold t in X. destruct (r_default r) as [d|].
    + left. destruct X as (b & i & a & E & KI & MI & <- & _). 
      assert (Hi : In i (uses t)) by (rewrite E; apply in_elt).
      rewrite (D eq_refl i Hi KI MI). reflexivity.
    + exfalso. eapply X; eauto.
  - left. destruct M as [M|M]; [discriminate|]. cbn in M. subst al. apply in_map_iff. exists (m, n). split; auto.
    apply in_js_wilds. eexists. split; [exact H|]. auto.
Qed.

(** Every reference denotes what it is meant to, if no other import binds the
    same name and, for a default import, no other default import of the same
    module is used. *)
Theorem C41_js_resolution_partial : forall relative cfg module_path cs body, let t := build cs in
  Forall js_named (uses t) -> Forall js_made (uses t) ->
  body_of (js_lang relative) cfg module_path tt t body ->
  exists wildcards modules,
    file_renders (js_lang relative) cfg module_path t
      (file_text (c_newline cfg)
         (map (js_wildcard_line (quoted_text js_ops) (js_specifier relative module_path)) wildcards ++
          map (js_module_line (quoted_text js_ops) (js_specifier relative module_path)) modules) body) /\
    forall i, In i (uses t) ->
      (forall j, In j (uses t) -> fst (js_needs j) = fst (js_needs i) -> j = i) ->
      (js_import_kind i = KDefault -> forall j, In j (uses t) -> js_import_kind j = KDefault ->
         js_import_module j = js_import_module i -> js_name j = js_name i) ->
      exists name, renders (js_lang relative) cfg module_path tt (only i) name /\
        js_denotes (js_header_binds wildcards modules) name (snd (js_needs i)).
Proof.
  intros relative cfg mp cs body t N M [R CS]. exists (js_wilds t), (map module_view (js_mods t)).
  split; [apply js_file; auto|]. intros i Hi U D.
  exists (fst (js_needs i)). split.
  - eapply eq_ind with (x := concat (js_format_item i)) (P := fun x => renders (js_lang relative) cfg mp tt (only i) x).
    + exact (only_renders (js_lang relative) cfg mp tt i).
    + unfold js_format_item, js_needs, js_asks. cbn [concat]. rewrite app_nil_r.
      destruct (js_import_kind i); [|reflexivity|reflexivity]. destruct (js_alias i); reflexivity.
  - rewrite entries_binds. apply denotes_map.
    + apply entries_js_nodup.
    + apply used_entries; auto. rewrite Forall_forall in M. auto.
    + intros y Hy E. apply U; auto. apply entries_used; auto.
Qed.
Print Assumptions C41_js_resolution_partial.

(** ** Examples *)
Definition ex_js : list js_import :=
  [js_new (MGlobal (Static $"collections")) (Static $"vec");
   js_with_alias (Static $"vec2") (js_new (MPath [CurDir; Normal $"lib.js"]) (Static $"vec"));
   js_into_default (js_new (MGlobal (Static $"collections")) (Static $"coll"));
   js_into_wildcard (js_new (MGlobal (Static $"fs")) (Static $"fs"));
   js_new (MGlobal (Static $"collections")) (Static $"map")].
Definition no_relative (a b : path) : path := b.
Example C41_example : let t := build (ex_calls ex_js) in
  Forall js_named (uses t) /\ Forall js_made (uses t) /\
  (forall i j, In i (uses t) -> In j (uses t) -> fst (js_needs j) = fst (js_needs i) -> j = i) /\
  (forall i j, In i (uses t) -> In j (uses t) -> js_import_kind i = KDefault -> js_import_kind j = KDefault ->
     js_import_module j = js_import_module i -> js_name j = js_name i) /\
  body_of (js_lang no_relative) ex_cfg None tt t
    ($"vec" ++ [10%N] ++ $"vec2" ++ [10%N] ++ $"coll" ++ [10%N] ++ $"fs" ++ [10%N] ++ $"map") /\
  file_renders (js_lang no_relative) ex_cfg None t
    ($"import * as fs from " ++ [34%N] ++ $"fs" ++ [34%N] ++ $";" ++ [10%N] ++
     $"import {vec as vec2} from " ++ [34%N] ++ $"./lib.js" ++ [34%N] ++ $";" ++ [10%N] ++
     $"import coll, {map, vec} from " ++ [34%N] ++ $"collections" ++ [34%N] ++ $";" ++ [10; 10]%N ++
     $"vec" ++ [10%N] ++ $"vec2" ++ [10%N] ++ $"coll" ++ [10%N] ++ $"fs" ++ [10%N] ++ $"map" ++ [10%N]).
Proof.
  split; [repeat constructor; discriminate|].
  split; [repeat constructor; first [left; reflexivity|right; reflexivity]|].
  split.
  { intros i j Hi Hj. cbn in Hi, Hj.
    repeat destruct Hi as [<-|Hi]; try tauto; repeat destruct Hj as [<-|Hj]; try tauto; intros E;
      vm_compute in E; try discriminate; reflexivity. }
  split.
  { intros i j Hi Hj. cbn in Hi, Hj.
    repeat destruct Hi as [<-|Hi]; try tauto; repeat destruct Hj as [<-|Hj]; try tauto; intros E1 E2;
      vm_compute in E1, E2; try discriminate; reflexivity. }
  split; [split; [vm_compute; reflexivity|plain_start]|]. vm_compute. reflexivity.
Qed.

(** Two default imports of one module: only the first is imported, the other
    name is not bound. *)
Definition ex_js_defaults : list js_import :=
  [js_into_default (js_new (MGlobal (Static $"m")) (Static $"a"));
   js_into_default (js_new (MGlobal (Static $"m")) (Static $"b"))].
Theorem C41_js_defaults_refuted : let t := build (ex_calls ex_js_defaults) in
  file_renders (js_lang no_relative) ex_cfg None t
    ($"import a from " ++ [34%N] ++ $"m" ++ [34%N] ++ $";" ++ [10; 10]%N ++ $"a" ++ [10%N] ++ $"b" ++ [10%N]) /\
  js_module_line (quoted_text js_ops) (js_specifier no_relative None)
    (MGlobal (Static $"m"), (Some (Static $"a"), [])) =
    $"import a from " ++ [34%N] ++ $"m" ++ [34%N] ++ $";" /\
  forall o, ~ js_denotes (js_header_binds [] [(MGlobal (Static $"m"), (Some (Static $"a"), []))]) $"b" o.
Proof.
  split; [vm_compute; reflexivity|]. split; [vm_compute; reflexivity|].
  intros o (b & a & E & _). destruct b as [|x [|y b]]; discriminate.
Qed.
Print Assumptions C41_js_defaults_refuted.
(** The same name from two modules: bound twice, which is an error. *)
Definition ex_js_conflict : list js_import :=
  [js_new (MGlobal (Static $"m")) (Static $"f"); js_new (MGlobal (Static $"n")) (Static $"f")].
Theorem C41_js_conflict_refuted : let t := build (ex_calls ex_js_conflict) in
  file_renders (js_lang no_relative) ex_cfg None t
    ($"import {f} from " ++ [34%N] ++ $"m" ++ [34%N] ++ $";" ++ [10%N] ++
     $"import {f} from " ++ [34%N] ++ $"n" ++ [34%N] ++ $";" ++ [10; 10]%N ++ $"f" ++ [10%N] ++ $"f" ++ [10%N]) /\
  forall o, ~ js_denotes (js_header_binds []
    [(MGlobal (Static $"m"), (None, [EPlain (Static $"f")])); (MGlobal (Static $"n"), (None, [EPlain (Static $"f")]))])
    $"f" o.
Proof.
  split; [vm_compute; reflexivity|]. vm_compute. intros o (b & a & E & U). destruct b as [|x [|y b]].
  - injection E as <- <-. eapply U. left. reflexivity.
  - injection E as <- <- <-. eapply U. left. reflexivity.
  - injection E as _ _ E. destruct b; discriminate.
Qed.
Print Assumptions C41_js_conflict_refuted.
