(** * Properties of generated files: references in Go, Dart and Swift (C64-C66).

    Vocabulary: [SpecFile.v] (files, bodies), [SpecLang.v] (lines),
    [SpecResolve.v] (what a name denotes); model: [LangGo.v], [LangDart.v],
    [LangSwift.v]. *)
From Verif Require Import Str StrFacts Tokens SpecTokens TokensRun Values Fmt SpecFmt RenderFacts
  StringFacts Order OrderFacts SpecFile SpecLang SpecResolve HeaderFacts FileFacts ImportFacts
  LayoutFacts LangBase LangSwift LangGo LangDart PropsLang PropsNames.

(** ** C64: Go *)

Lemma app_inj_tail_len {A} (x y a b : list A) : length a = length b -> x ++ a = y ++ b -> a = b.
Proof.
  intros L E. assert (length x = length y) by (apply (f_equal (@length A)) in E; rewrite !app_length in E; lia).
  revert y E H. induction x as [|c x IH]; intros [|d y] E H; cbn in *; try discriminate; auto.
  injection E. intros. eapply IH; eauto.
Qed.
Lemma last_segment_unique sep p a b : sep <> [] -> last_segment sep p a -> last_segment sep p b -> a = b.
Proof.
  intros N [[pa [Ea Ma]]|[Ea Ma]] [[pb [Eb Mb]]|[Eb Mb]].
  - pose proof (Ma _ _ Eb). pose proof (Mb _ _ Ea).
    assert (E : pa ++ sep ++ a = pb ++ sep ++ b) by congruence.
    rewrite !app_assoc in E. apply app_inj_tail_len in E; [exact E|lia].
  - exfalso. eapply Mb; eauto.
  - exfalso. eapply Ma; eauto.
  - congruence.
Qed.

Theorem C64_go_resolution_partial : forall cfg package cs body (package_of : str -> str), let t := build cs in
  opt_named package -> Forall (fun i => named (go_module i)) (uses t) ->
  body_of go_lang cfg package tt t body ->
  (forall i, In i (uses t) ->
     last_segment $"/" (content (go_module i)) (package_of (content (go_module i)))) ->
  (forall i j, In i (uses t) -> In j (uses t) ->
     package_of (content (go_module i)) = package_of (content (go_module j)) -> go_module i = go_module j) ->
  exists lit keys, literal_of go_lang lit /\
    file_renders go_lang cfg package t
      (file_text (c_newline cfg)
         (package_then (option_map go_package_line package) (map (go_line lit) keys)) body) /\
    forall i, In i (uses t) -> exists w,
      renders go_lang cfg package tt (only i) w /\
      go_denotes package_of (map content keys) w (content (go_module i)) (content (go_name i)).
Proof.
  intros cfg package cs body package_of t NP N B L U.
  destruct (C39_go_imports cfg package cs body NP N B) as (lit & keys & HL & S & K & R).
  exists lit, keys. split; [exact HL|]. split; [exact R|]. intros i Hi.
  destruct (C39_go_reference cfg package i) as (e & LE & RE). exists (e ++ $"." ++ content (go_name i)).
  split; [exact RE|].
  rewrite (last_segment_unique $"/" _ _ _ ltac:(discriminate) LE (L i Hi)). split; [reflexivity|].
  assert (IK : In (go_module i) keys) by (apply K; eauto).
  destruct (in_split _ _ IK) as (a & b & E). exists (map content a), (map content b).
  split; [rewrite E, map_app; reflexivity|].
  intros p H Q. rewrite <- map_app in H. apply in_map_iff in H as [m [<- H]].
  assert (In m keys) as Hm by (rewrite E; apply in_app_iff in H as [H|H]; apply in_app_iff; cbn; auto).
  apply K in Hm as [j [Hj <-]]. specialize (U j i Hj Hi Q). rewrite U in H.
  clear - H E S.
  rewrite E in S. clear E keys. unfold sorted in S. induction a as [|x a IH]; cbn in *.
  - inversion_clear S. rewrite Forall_forall in H1. specialize (H1 _ H). eapply name_before_irrefl; eauto.
  - inversion_clear S. destruct H as [->|H]; [|eauto].
    rewrite Forall_forall in H1. eapply name_before_irrefl, H1, in_app_iff. right. left. reflexivity.
Qed.

Print Assumptions C64_go_resolution_partial.

Definition go_by_last (p : str) : str := after_last_sep $"/" p.
Example C64_example : let t := build (ex_calls ex_go) in
  let c := Some (Static $"main") in
  opt_named c /\ Forall (fun i => named (go_module i)) (uses t) /\
  body_of go_lang ex_cfg c tt t ($"bar.Debug" ++ [10%N] ++ $"fmt.Print" ++ [10%N] ++ $"bar.Trace") /\
  (forall i, In i (uses t) ->
     last_segment $"/" (content (go_module i)) (go_by_last (content (go_module i)))) /\
  (forall i j, In i (uses t) -> In j (uses t) ->
     go_by_last (content (go_module i)) = go_by_last (content (go_module j)) -> go_module i = go_module j).
Proof.
  split; [discriminate|]. split; [repeat constructor; discriminate|].
  split; [exact (proj1 (proj2 C39_example))|].
  split; [intros; apply after_last_sep_spec; discriminate|].
  intros i j [<-|[<-|[<-|[]]]] [<-|[<-|[<-|[]]]]; vm_compute; congruence.
Qed.

(** Two packages of one name: both are imported under it. *)
Theorem C64_go_clash_refuted : let t := build (ex_calls
    [mk_go (Static $"a/bar") (Static $"X"); mk_go (Static $"b/bar") (Static $"Y")]) in
  file_renders go_lang ex_cfg None t
    ($"import " ++ [34%N] ++ $"a/bar" ++ [34; 10]%N ++ $"import " ++ [34%N] ++ $"b/bar" ++ [34; 10; 10]%N ++
     $"bar.X" ++ [10%N] ++ $"bar.Y" ++ [10%N]) /\
  forall package_of, package_of $"a/bar" = $"bar" -> package_of $"b/bar" = $"bar" ->
    ~ go_denotes package_of [$"a/bar"; $"b/bar"] $"bar.X" $"a/bar" $"X" /\
    ~ go_denotes package_of [$"a/bar"; $"b/bar"] $"bar.Y" $"b/bar" $"Y".
Proof.
  split; [vm_compute; reflexivity|]. intros po A B. split.
  - intros [_ (x & y & E & H)]. destruct x as [|a x].
    + injection E as <-. apply (H $"b/bar"); [left; reflexivity|congruence].
    + injection E as _ E. destruct x as [|b x]; [discriminate|]. injection E as _ E. destruct x; discriminate.
  - intros [_ (x & y & E & H)]. destruct x as [|a x]; [discriminate|]. injection E as <- E.
    apply (H $"a/bar"); [left; reflexivity|congruence].
Qed.
Print Assumptions C64_go_clash_refuted.

(** A package that is not called as the last element of its path: the
    reference uses a name that no import declares. *)
Theorem C64_go_package_name_refuted : let t := build (ex_calls [mk_go (Static $"gopkg.in/yaml.v2") (Static $"Node")]) in
  file_renders go_lang ex_cfg None t
    ($"import " ++ [34%N] ++ $"gopkg.in/yaml.v2" ++ [34; 10; 10]%N ++ $"yaml.v2.Node" ++ [10%N]) /\
  forall package_of, package_of $"gopkg.in/yaml.v2" = $"yaml" ->
    ~ go_denotes package_of [$"gopkg.in/yaml.v2"] $"yaml.v2.Node" $"gopkg.in/yaml.v2" $"Node".
Proof. split; [vm_compute; reflexivity|]. intros po A [E _]. rewrite A in E. discriminate. Qed.
Print Assumptions C64_go_package_name_refuted.

(** ** C65: Dart *)

Definition dart_texts (k : item_str * option item_str) : str * option str :=
  (content (fst k), option_map content (snd k)).

Theorem C65_dart_resolution_partial : forall cfg cs body (declared : str -> str -> Prop), let t := build cs in
  Forall (fun i => opt_named (da_alias i)) (uses t) ->
  body_of dart_lang cfg tt tt t body ->
  (forall i, In i (uses t) -> declared (content (da_path i)) (content (da_name i))) ->
  (forall i, In i (uses t) -> content (da_path i) = $"dart:core" -> da_alias i = None) ->
  (forall i j, In i (uses t) -> In j (uses t) ->
     option_map content (da_alias i) = option_map content (da_alias j) ->
     declared (content (da_path j)) (content (da_name i)) ->
     content (da_path j) = content (da_path i) \/
     dart_system (content (da_path j)) /\ ~ dart_system (content (da_path i))) ->
  (forall i, In i (uses t) -> da_alias i = None -> declared $"dart:core" (content (da_name i)) ->
     content (da_path i) = $"dart:core" \/ ~ dart_system (content (da_path i))) ->
  exists lit keys, literal_of dart_lang lit /\
    file_renders dart_lang cfg tt t (file_text (c_newline cfg) (map (dart_line lit) keys) body) /\
    forall i, In i (uses t) ->
      renders dart_lang cfg tt tt (only i)
        (dart_written (option_map content (da_alias i)) (content (da_name i))) /\
      dart_denotes declared (map dart_texts keys) (option_map content (da_alias i))
        (content (da_name i)) (content (da_path i)).
Proof.
  intros cfg cs body declared t N B D C U S.
  destruct (C38_dart_imports cfg cs body N B) as (lit & keys & HL & _ & K & R).
  exists lit, keys. split; [exact HL|]. split; [exact R|]. intros i Hi. split.
  { pose proof (C38_dart_reference cfg i) as RE. destruct (da_alias i); exact RE. }
  assert (NC : forall p, ~ In ($"dart:core", p) (map dart_texts keys)).
  { intros p H. apply in_map_iff in H as [[k a] [E H]]. injection E as E _. apply K in H as [H _]. auto. }
  split; [|split; [auto|]].
  - destruct (list_eq_dec N.eq_dec (content (da_path i)) $"dart:core") as [E|E].
    + right. rewrite (C i Hi E). auto.
    + left. change (In (dart_texts (da_path i, da_alias i)) (map dart_texts keys)).
      apply in_map, K. split; eauto.
  - intros p [H|[HN [-> _]]] HD.
    + apply in_map_iff in H as [[k a] [E H]]. injection E as <- E.
      apply K in H as [_ [j [Hj [<- <-]]]]. apply U; auto.
    + destruct (da_alias i) eqn:E; [discriminate|]. destruct (S i Hi E HD) as [X|X]; [auto|].
      right. split; [exists $"core"; reflexivity|exact X].
Qed.
Print Assumptions C65_dart_resolution_partial.

Definition ex_dart_declared (p n : str) : Prop :=
  In (p, n) [($"package:http/http.dart", $"A"); ($"package:http/http.dart", $"C"); ($"dart:core", $"int")].
Example C65_example : let t := build (ex_calls ex_dart) in
  Forall (fun i => opt_named (da_alias i)) (uses t) /\
  body_of dart_lang ex_cfg tt tt t ($"A" ++ [10%N] ++ $"int" ++ [10%N] ++ $"h2.C") /\
  (forall i, In i (uses t) -> ex_dart_declared (content (da_path i)) (content (da_name i))) /\
  (forall i, In i (uses t) -> content (da_path i) = $"dart:core" -> da_alias i = None) /\
  (forall i j, In i (uses t) -> In j (uses t) ->
     option_map content (da_alias i) = option_map content (da_alias j) ->
     ex_dart_declared (content (da_path j)) (content (da_name i)) ->
     content (da_path j) = content (da_path i) \/
     dart_system (content (da_path j)) /\ ~ dart_system (content (da_path i))) /\
  (forall i, In i (uses t) -> da_alias i = None -> ex_dart_declared $"dart:core" (content (da_name i)) ->
     content (da_path i) = $"dart:core" \/ ~ dart_system (content (da_path i))).
Proof.
  split; [repeat constructor; discriminate|]. split; [exact (proj1 (proj2 C38_example))|].
  split; [|split; [|split]].
  - intros i [<-|[<-|[<-|[]]]]; vm_compute; auto.
  - intros i [<-|[<-|[<-|[]]]]; vm_compute; congruence.
  - intros i j [<-|[<-|[<-|[]]]] [<-|[<-|[<-|[]]]] A [H|[H|[H|[]]]]; vm_compute in A, H;
      try discriminate; left; reflexivity.
  - intros i [<-|[<-|[<-|[]]]] A [H|[H|[H|[]]]]; vm_compute in A, H; try discriminate; left; reflexivity.
Qed.

(** [dart:core] with an alias: the prefix is written but never declared. *)
Theorem C65_dart_core_alias_refuted : let t := build (ex_calls
    [mk_dart (Static $"dart:core") (Static $"int") (Some (Static $"core"))]) in
  file_renders dart_lang ex_cfg tt t ($"core.int" ++ [10%N]) /\
  forall declared path, ~ dart_denotes declared [] (Some $"core") $"int" path.
Proof. split; [vm_compute; reflexivity|]. intros declared path [[[]|[H _]] _]. discriminate. Qed.
Print Assumptions C65_dart_core_alias_refuted.

(** Two libraries that declare one name. *)
Theorem C65_dart_ambiguous_refuted : let t := build (ex_calls
    [mk_dart (Static $"a.dart") (Static $"X") None; mk_dart (Static $"b.dart") (Static $"X") None]) in
  file_renders dart_lang ex_cfg tt t
    ($"import " ++ [34%N] ++ $"a.dart" ++ [34%N] ++ $";" ++ [10%N] ++
     $"import " ++ [34%N] ++ $"b.dart" ++ [34%N] ++ $";" ++ [10; 10]%N ++ $"X" ++ [10%N] ++ $"X" ++ [10%N]) /\
  forall (declared : str -> str -> Prop) path, declared $"a.dart" $"X" -> declared $"b.dart" $"X" ->
    ~ dart_denotes declared [($"a.dart", None); ($"b.dart", None)] None $"X" path.
Proof.
  split; [vm_compute; reflexivity|]. intros declared path A B [V [_ H]].
  assert (NS : forall p, p = $"a.dart" \/ p = $"b.dart" -> ~ dart_system p).
  { intros p [->| ->] [r E]; discriminate. }
  destruct (H $"a.dart") as [<-|[X _]]; [left; left; reflexivity|exact A| |exact (NS $"a.dart" (or_introl eq_refl) X)].
  destruct (H $"b.dart") as [E|[X _]]; [left; right; left; reflexivity|exact B|discriminate|].
  exact (NS $"b.dart" (or_intror eq_refl) X).
Qed.
Print Assumptions C65_dart_ambiguous_refuted.

(** ** C66: Swift *)

Theorem C66_swift_resolution_partial : forall cfg cs body (declared : str -> str -> Prop), let t := build cs in
  Forall (fun i => named (sw_module i)) (uses t) ->
  body_of swift_lang cfg tt tt t body ->
  (forall i, In i (uses t) -> declared (content (sw_module i)) (content (sw_name i))) ->
  (forall i j, In i (uses t) -> In j (uses t) ->
     declared (content (sw_module j)) (content (sw_name i)) -> content (sw_module j) = content (sw_module i)) ->
  exists keys,
    file_renders swift_lang cfg tt t (file_text (c_newline cfg) (map swift_line keys) body) /\
    forall i, In i (uses t) ->
      renders swift_lang cfg tt tt (only i) (content (sw_name i)) /\
      swift_denotes declared (map content keys) (content (sw_name i)) (content (sw_module i)).
Proof.
  intros cfg cs body declared t N B D U.
  destruct (C45_swift_imports cfg cs body N B) as (keys & _ & K & R).
  exists keys. split; [exact R|]. intros i Hi. split; [apply C45_swift_reference|].
  split; [apply in_map, K; eauto|]. split; [auto|].
  intros m H HD. apply in_map_iff in H as [k [<- H]]. apply K in H as [j [Hj <-]]. auto.
Qed.
Print Assumptions C66_swift_resolution_partial.

Definition ex_swift : list swift_import :=
  [mk_swift (Static $"UIKit") (Static $"View"); mk_swift (Static $"Foo") (Static $"Debug");
   mk_swift (Static $"Foo") (Static $"Trace")].
Definition ex_swift_declared (m n : str) : Prop :=
  In (m, n) [($"UIKit", $"View"); ($"Foo", $"Debug"); ($"Foo", $"Trace")].
Example C66_example : let t := build (ex_calls ex_swift) in
  Forall (fun i => named (sw_module i)) (uses t) /\
  body_of swift_lang ex_cfg tt tt t ($"View" ++ [10%N] ++ $"Debug" ++ [10%N] ++ $"Trace") /\
  (forall i, In i (uses t) -> ex_swift_declared (content (sw_module i)) (content (sw_name i))) /\
  (forall i j, In i (uses t) -> In j (uses t) ->
     ex_swift_declared (content (sw_module j)) (content (sw_name i)) -> content (sw_module j) = content (sw_module i)).
Proof.
  split; [repeat constructor; discriminate|]. split; [exact (proj1 (proj2 C45_example))|]. split.
  - intros i [<-|[<-|[<-|[]]]]; vm_compute; auto.
  - intros i j [<-|[<-|[<-|[]]]] [<-|[<-|[<-|[]]]] [H|[H|[H|[]]]]; vm_compute in H; try discriminate; reflexivity.
Qed.

(** Two modules that declare one name: it is written without its module. *)
Theorem C66_swift_ambiguous_refuted : let t := build (ex_calls
    [mk_swift (Static $"A") (Static $"X"); mk_swift (Static $"B") (Static $"X")]) in
  file_renders swift_lang ex_cfg tt t
    ($"import A" ++ [10%N] ++ $"import B" ++ [10; 10]%N ++ $"X" ++ [10%N] ++ $"X" ++ [10%N]) /\
  forall (declared : str -> str -> Prop) m, declared $"A" $"X" -> declared $"B" $"X" ->
    ~ swift_denotes declared [$"A"; $"B"] $"X" m.
Proof.
  split; [vm_compute; reflexivity|]. intros declared m A B [_ [_ H]].
  pose proof (H $"A" (or_introl eq_refl) A) as E1. pose proof (H $"B" (or_intror (or_introl eq_refl)) B) as E2.
  rewrite <- E1 in E2. discriminate.
Qed.
Print Assumptions C66_swift_ambiguous_refuted.
