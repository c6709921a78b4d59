(** * Properties of JavaScript module paths (C67).

    Vocabulary: [SpecPath.v] (where the text of a path leads), [SpecFile.v],
    [SpecJs.v] (lines); model: [LangJs.v], [RelPath.v]. *)
From Verif Require Import Str StrFacts Tokens SpecTokens TokensRun Values Fmt SpecFmt RenderFacts
  Order OrderFacts SpecFile SpecLang HeaderFacts FileFacts LangBase LangJs SpecJs JsFacts PropsLang PropsJs
  RelPath SpecPath PathFacts.

(** Paths whose names are proper. *)
Definition proper_path (p : path) : Prop := forall s, In (Normal s) p -> path_name s.
Lemma proper_parts p : proper_path p -> Forall part_named p.
Proof. intros H. apply Forall_forall. intros [| |s] I; cbn; auto. Qed.

(** Every path import is written as a specifier that leads from the module path
    to the imported path. *)
Theorem C67_js_paths : forall cfg mp cs body, let t := build cs in
  proper_path mp -> Forall js_named (uses t) ->
  body_of (js_lang relative_path) cfg (Some mp) tt t body ->
  exists wildcards modules (specifier : js_module -> str),
    (forall m, (exists n, In (m, n) wildcards) \/ In m (map fst modules) <->
       exists i, In i (uses t) /\ js_import_module i = m) /\
    (forall s, specifier (MGlobal s) = content s) /\
    (forall p, proper_path p -> fst (place_of (path_text mp)) <= fst (place_of (path_text p)) ->
       follow (place_of (path_text mp)) (specifier (MPath p)) = place_of (path_text p)) /\
    file_renders (js_lang relative_path) cfg (Some mp) t
      (file_text (c_newline cfg)
         (map (js_wildcard_line (quoted_text js_ops) specifier) wildcards ++
          map (js_module_line (quoted_text js_ops) specifier) modules) body).
Proof.
  intros cfg mp cs body t M N B.
  destruct (C41_js_imports relative_path cfg (Some mp) cs body N B) as (ws & ms & _ & KW & _ & KM & _ & R).
  exists ws, ms, (js_specifier relative_path (Some mp)). split; [|split; [reflexivity|split; [|exact R]]].
  - intros m. split.
    + intros [[n H]|H].
      * apply KW in H as (i & Hi & _ & E & _). eauto.
      * apply KM in H as (i & Hi & _ & E). eauto.
    + intros (i & Hi & <-). destruct (js_import_kind i) eqn:K.
      * right. apply KM. exists i. rewrite K. repeat split; auto; discriminate.
      * right. apply KM. exists i. rewrite K. repeat split; auto; discriminate.
      * left. exists (js_name i). apply KW. eauto 6.
  - intros p P. unfold place_of.
    rewrite !follow_gos by (apply proper_parts; auto). intros L.
    change (follow (gos (0, []) mp) (path_text (relative_path mp p)) = gos (0, []) p).
    rewrite follow_gos by (apply relative_named; apply proper_parts; auto).
    apply relative_leads. exact L.
Qed.
Print Assumptions C67_js_paths.

(** A module below the module path itself aside, these are specifiers that
    JavaScript resolves from the importing module. *)
Theorem C67_js_relative_partial : forall mp p,
  proper_path mp -> proper_path p ->
  fst (place_of (path_text mp)) <= fst (place_of (path_text p)) ->
  ~ inside (place_of (path_text mp)) (place_of (path_text p)) ->
  relative_specifier (js_specifier relative_path (Some mp) (MPath p)).
Proof.
  intros mp p M P. unfold place_of. rewrite !follow_gos by (apply proper_parts; auto). intros L I.
  destruct (relative_shape mp p L) as (common & back & rest & E1 & E2 & E3 & D & names & EC & EN).
  cbn [js_specifier]. fold (path_text (relative_path mp p)).
  assert (F : Forall part_named (relative_path mp p)) by (apply relative_named; apply proper_parts; auto).
  assert (H : exists q, relative_path mp p = ParentDir :: q).
  { rewrite E3. destruct back as [|n back]; [|cbn; eauto]. destruct rest as [|x rest].
    - exfalso. apply I. cbn [map] in E1. rewrite app_nil_r in E1, E2. rewrite <- E1 in E2.
      apply (f_equal (gos (0, []))) in E2. rewrite !gos_canon in E2. rewrite E2.
      split; [reflexivity|]. exists []. rewrite app_nil_r. reflexivity.
    - destruct x as [| |s]; [| cbn; eauto |].
      + exfalso. unfold canon in E2. assert (X : In CurDir (repeat ParentDir (fst (gos (0, []) p)) ++ map Normal (snd (gos (0, []) p)))).
        { rewrite E2. apply in_app_iff. right. left. reflexivity. }
        apply in_app_iff in X as [X|X]; [apply repeat_spec in X; discriminate|].
        apply in_map_iff in X as (? & ? & _). discriminate.
      + exfalso. apply I. clear E3 F D I. revert E2 EC EN. rewrite !app_nil_r in *.
        generalize (gos (0, []) mp) (gos (0, []) p) L. clear. intros [a an] [b bn] L E2 -> EN. cbn [fst snd canon] in *.
        subst an. unfold canon in E2. cbn [fst snd] in E2. rewrite <- app_assoc in E2.
        assert (AB : a = b).
        { apply Nat.le_antisymm; auto. apply Nat.nlt_ge. intros LT.
          destruct (repeat_split ParentDir b (repeat ParentDir a) (map Normal names ++ Normal s :: rest) (map Normal bn) E2
                      ltac:(rewrite repeat_length; lia)) as [_ X].
          rewrite repeat_length in X. replace (b - a) with (S (b - a - 1)) in X by lia.
          destruct names; discriminate. }
        subst b. split; [reflexivity|]. apply app_inv_head in E2. cbn [fst snd].
        apply map_eq_app in E2 as (x & y & -> & E & _). exists y. f_equal.
        clear - E. revert names E. induction x as [|c x IH]; intros [|d names] E; cbn in E; try discriminate; auto.
        injection E as <- E. f_equal. auto. }
  destruct H as [q E]. rewrite E in *. exists $"..", (map component_text q). split; [|auto].
  exact (segments_join ParentDir q F).
Qed.
Print Assumptions C67_js_relative_partial.

(** The specifier is relative exactly for paths outside the module path. *)
Theorem C67_js_relative_exact : forall mp p,
  proper_path mp -> proper_path p ->
  fst (place_of (path_text mp)) <= fst (place_of (path_text p)) ->
  (relative_specifier (js_specifier relative_path (Some mp) (MPath p)) <->
   ~ inside (place_of (path_text mp)) (place_of (path_text p))).
Proof.
  intros mp p M P L. split; [|apply C67_js_relative_partial; auto]. revert L.
  unfold place_of. rewrite !follow_gos by (apply proper_parts; auto). intros L R [EF [r ER]].
  destruct (relative_shape mp p L) as (common & back & rest & E1 & E2 & E3 & D & _).
  assert (E : canon (gos (0, []) p) = canon (gos (0, []) mp) ++ map Normal r)
    by (unfold canon; rewrite <- EF, ER, map_app, app_assoc; reflexivity).
  rewrite E, E1, <- app_assoc in E2. apply app_inv_head in E2. subst rest.
  destruct back as [|n back]; [|destruct (D eq_refl)]. cbn [map length repeat app] in E3.
  cbn [js_specifier] in R. fold (path_text (relative_path mp p)) in R.
  assert (F : Forall part_named (relative_path mp p)) by (apply relative_named; apply proper_parts; auto).
  rewrite E3 in R, F. destruct R as (seg & segs & S & H). destruct r as [|x r].
  - cbn in S. injection S as <- _. destruct H; discriminate.
  - cbn [map] in S, F. unfold path_text in S. rewrite (segments_join (Normal x) (map Normal r) F) in S. injection S as <- _.
    apply Forall_inv in F. destruct F as (_ & F1 & F2 & _). destruct H; contradiction.
Qed.
Print Assumptions C67_js_relative_exact.

(** Below the module path the specifier names a package. *)
Theorem C67_js_below_refuted :
  file_renders (js_lang relative_path) ex_cfg (Some [Normal $"foo"])
    (build (ex_calls [js_new (MPath [Normal $"foo"; Normal $"bar.js"]) (Static $"Bar")]))
    ($"import {Bar} from " ++ [34%N] ++ $"bar.js" ++ [34%N] ++ $";" ++ [10; 10]%N ++ $"Bar" ++ [10%N]) /\
  ~ relative_specifier $"bar.js".
Proof.
  split; [vm_compute; reflexivity|]. intros (seg & segs & E & H). vm_compute in E.
  injection E as <- <-. destruct H; discriminate.
Qed.
Print Assumptions C67_js_below_refuted.

(** JavaScript resolves a specifier from the directory of the importing file.
    If the module path is that file, as documented ([foo/baz.js]), the specifier
    never leads to the imported module. *)
Theorem C67_js_directory_refuted : forall mp p,
  proper_path mp -> proper_path p ->
  fst (place_of (path_text mp)) = 0 -> fst (place_of (path_text p)) = 0 ->
  ~ inside (place_of (path_text mp)) (place_of (path_text p)) ->
  follow (up (place_of (path_text mp))) (js_specifier relative_path (Some mp) (MPath p)) <> place_of (path_text p).
Proof.
  intros mp p M P. unfold place_of. rewrite !follow_gos by (apply proper_parts; auto). intros L1 L2 I.
  destruct (relative_shape mp p ltac:(rewrite L1; lia)) as (common & back & rest & E1 & E2 & E3 & D & names & EC & EN).
  cbn [js_specifier]. fold (path_text (relative_path mp p)).
  rewrite follow_gos by (apply relative_named; apply proper_parts; auto). rewrite E3.
  destruct (gos (0, []) mp) as [a an]. destruct (gos (0, []) p) as [b bn]. cbn [fst snd] in *. subst a b an common.
  unfold canon in E2. cbn [fst snd repeat app] in E2. apply map_eq_app in E2 as (x & y & -> & E & <-).
  assert (X : x = names).
  { clear - E. revert names E. induction x as [|c x IH]; intros [|d names] E; cbn in E; try discriminate; auto.
    injection E as <- E. f_equal. auto. }
  subst x. clear E.
  destruct back as [|k back] using rev_ind.
  { exfalso. apply I. split; [reflexivity|]. exists y. rewrite app_nil_r. reflexivity. }
  clear IHback. rewrite gos_app. unfold up. cbn [fst snd].
  destruct (names ++ back ++ [k]) eqn:F; [destruct names; [destruct back|]; discriminate|].
  rewrite <- F, app_assoc, removelast_last, app_length, Nat.add_comm.
  replace (repeat ParentDir (length [k] + length back)) with (repeat ParentDir (length back) ++ [ParentDir])
    by (cbn; rewrite <- repeat_cons; reflexivity).
  rewrite gos_app, gos_back. change (gos (0, names) [ParentDir]) with (up (0, names)).
  rewrite gos_down. unfold up. cbn [fst snd]. destruct names as [|n names]; intros Q; [discriminate|].
  assert (H : length (removelast (n :: names) ++ y) = length ((n :: names) ++ y))
    by (apply (f_equal (fun l : place => length (snd l))) in Q; exact Q).
  rewrite !app_length in H. clear - H. assert (length (removelast (n :: names)) < length (n :: names)); [|lia].
  clear. rewrite removelast_firstn_len, firstn_length. cbn. lia.
Qed.
Print Assumptions C67_js_directory_refuted.

(** From a module path that starts further above than the imported path no specifier
    leads there, for the names on the way down again are not known: it is empty. *)
Lemma relative_above mp p : fst (gos (0, []) p) < fst (gos (0, []) mp) -> relative_path mp p = [].
Proof.
  intros L. unfold relative_path. rewrite !traverse_canon. destruct (gos (0, []) mp) as [a an], (gos (0, []) p) as [b bn]. cbn [fst] in L.
  unfold canon. cbn [fst snd]. revert a L. induction b as [|b IH]; intros [|a] L; try lia.
  - cbn [repeat app]. destruct bn; reflexivity.
  - cbn [repeat app strip component_eqb]. apply (IH a). lia.
Qed.
Theorem C67_js_above_refuted : forall mp p,
  proper_path mp -> proper_path p ->
  fst (place_of (path_text p)) < fst (place_of (path_text mp)) ->
  js_specifier relative_path (Some mp) (MPath p) = [].
Proof.
  intros mp p M P. unfold place_of. rewrite !follow_gos by (apply proper_parts; auto). intros L.
  cbn [js_specifier]. rewrite relative_above by exact L. reflexivity.
Qed.
Print Assumptions C67_js_above_refuted.
Theorem C67_js_paths_exact : forall mp p,
  proper_path mp -> proper_path p ->
  (follow (place_of (path_text mp)) (js_specifier relative_path (Some mp) (MPath p)) = place_of (path_text p) <->
   fst (place_of (path_text mp)) <= fst (place_of (path_text p))).
Proof.
  intros mp p M P. split.
  - intros F. destruct (Nat.le_gt_cases (fst (place_of (path_text mp))) (fst (place_of (path_text p)))) as [L|L]; [exact L|].
    rewrite C67_js_above_refuted in F by assumption. change (place_of (path_text mp) = place_of (path_text p)) in F. rewrite F in L. lia.
  - unfold place_of. rewrite !follow_gos by (apply proper_parts; auto). intros L.
    change (follow (gos (0, []) mp) (path_text (relative_path mp p)) = gos (0, []) p).
    rewrite follow_gos by (apply relative_named; apply proper_parts; auto). apply relative_leads. exact L.
Qed.
Print Assumptions C67_js_paths_exact.
Example C67_above_example : let mp := [ParentDir; Normal $"a"] in let p := [Normal $"b"] in
  fst (place_of (path_text p)) < fst (place_of (path_text mp)) /\ js_specifier relative_path (Some mp) (MPath p) = [].
Proof. vm_compute. split; [repeat constructor|reflexivity]. Qed.

(** The documented example (src/lang/js.rs:198-238). *)
Definition ex_path_uses : list js_import :=
  let bar := MPath [Normal $"foo"; Normal $"bar.js"] in
  [js_new bar (Static $"Foo1"); js_new bar (Static $"Foo2");
   js_into_default (js_new (MGlobal (Static $"react")) (Static $"React"))].
Definition ex_path : path := [Normal $"foo"; Normal $"baz.js"].
Example C67_example : let t := build (ex_calls ex_path_uses) in
  let bar := [Normal $"foo"; Normal $"bar.js"] in
  proper_path ex_path /\ proper_path bar /\ Forall js_named (uses t) /\
  body_of (js_lang relative_path) ex_cfg (Some ex_path) tt t
    ($"Foo1" ++ [10%N] ++ $"Foo2" ++ [10%N] ++ $"React") /\
  fst (place_of (path_text ex_path)) = 0 /\ fst (place_of (path_text bar)) = 0 /\
  ~ inside (place_of (path_text ex_path)) (place_of (path_text bar)) /\
  file_renders (js_lang relative_path) ex_cfg (Some ex_path) t
    ($"import {Foo1, Foo2} from " ++ [34%N] ++ $"../bar.js" ++ [34%N] ++ $";" ++ [10%N] ++
     $"import React from " ++ [34%N] ++ $"react" ++ [34%N] ++ $";" ++ [10; 10]%N ++
     $"Foo1" ++ [10%N] ++ $"Foo2" ++ [10%N] ++ $"React" ++ [10%N]).
Proof.
  assert (G : forall s, path_name s <-> (match s with [] => false | _ => true end && negb (str_eqb s $".") && negb (str_eqb s $"..") && forallb (fun c => negb (N.eqb c 47)) s)%bool = true).
  { intros s. unfold path_name. rewrite !Bool.andb_true_iff, !Bool.negb_true_iff, forallb_forall.
    split.
    - intros (A & B & C & F). repeat split.
      + destruct s; auto.
      + destruct (str_eqb s $".") eqn:E; auto. apply str_eqb_eq in E. contradiction.
      + destruct (str_eqb s $"..") eqn:E; auto. apply str_eqb_eq in E. contradiction.
      + intros c H. destruct (N.eqb_spec c 47); auto. subst. contradiction.
    - intros (((A & B) & C) & F). repeat split.
      + destruct s; discriminate.
      + intros ->. discriminate.
      + intros ->. discriminate.
      + intros H. specialize (F _ H). discriminate. }
  split; [|split; [|split; [|split; [split|]]]].
  - intros s [H|[H|[]]]; injection H as <-; apply G; reflexivity.
  - intros s [H|[H|[]]]; injection H as <-; apply G; reflexivity.
  - repeat constructor; discriminate.
  - vm_compute. reflexivity.
  - intros _. eexists [], _, _. split; [reflexivity|]. split; [discriminate|]. split; [constructor|].
    intros [|? ?] b E; discriminate.
  - split; [reflexivity|]. split; [reflexivity|]. split; [|vm_compute; reflexivity].
    intros [_ [r E]]. vm_compute in E. discriminate.
Qed.
