(** * Exactly which references resolve (C37, C40, C41, C44, C64-C66).

    For each use, whether the reference that is written for it denotes what the
    use is meant to denote, as a condition on the other uses in the file.

    Vocabulary: [SpecFile.v], [SpecLang.v], [SpecResolve.v], [SpecJs.v],
    [SpecRust.v]; model: the language files. *)
From Verif Require Import Str StrFacts Tokens SpecTokens TokensRun Values Fmt SpecFmt RenderFacts
  StringFacts Order OrderFacts SpecFile SpecLang SpecResolve HeaderFacts FileFacts ImportFacts PickFacts
  JavaFacts CsharpFacts GroupFacts BlockFacts LayoutFacts LangBase LangSwift LangGo LangDart LangJava LangCsharp
  LangJs SpecJs JsFacts LangPython SpecPython PythonFacts LangRust SpecRust RustFacts PropsLang PropsNames PropsJs PropsResolve.

(** ** C66: Swift *)

Theorem C66_swift_resolution_exact : forall cfg cs body (declared : str -> str -> Prop), let t := build cs in
  Forall (fun i => named (sw_module i)) (uses t) ->
  body_of swift_lang cfg tt tt t body ->
  exists keys,
    sorted name_before keys /\
    (forall m, In m keys <-> exists i, In i (uses t) /\ sw_module i = m) /\
    file_renders swift_lang cfg tt t (file_text (c_newline cfg) (map swift_line keys) body) /\
    forall i, In i (uses t) ->
      renders swift_lang cfg tt tt (only i) (content (sw_name i)) /\
      (swift_denotes declared (map content keys) (content (sw_name i)) (content (sw_module i)) <->
       declared (content (sw_module i)) (content (sw_name i)) /\
       forall j, In j (uses t) -> declared (content (sw_module j)) (content (sw_name i)) ->
         content (sw_module j) = content (sw_module i)).
Proof.
  intros cfg cs body declared t N B.
  destruct (C45_swift_imports cfg cs body N B) as (keys & S & K & R).
  exists keys. split; [exact S|]. split; [exact K|]. split; [exact R|]. intros i Hi. split; [apply C45_swift_reference|]. split.
  - intros (_ & D & U). split; [exact D|]. intros j Hj. apply U. apply in_map, K. eauto.
  - intros (D & U). split; [apply in_map, K; eauto|]. split; [exact D|].
    intros m H HD. apply in_map_iff in H as [k [<- H]]. apply K in H as [j [Hj <-]]. auto.
Qed.
Print Assumptions C66_swift_resolution_exact.

(** Of three uses two clash, and the third resolves. *)
Example C66_exact_example :
  let uX := mk_swift (Static $"A") (Static $"X") in let uB := mk_swift (Static $"B") (Static $"X") in
  let uY := mk_swift (Static $"A") (Static $"Y") in let t := build (ex_calls [uX; uB; uY]) in
  let declared m n := In (m, n) [($"A", $"X"); ($"B", $"X"); ($"A", $"Y")] in
  Forall (fun i => named (sw_module i)) (uses t) /\
  body_of swift_lang ex_cfg tt tt t ($"X" ++ [10%N] ++ $"X" ++ [10%N] ++ $"Y") /\
  (declared $"A" $"Y" /\ forall j, In j (uses t) -> declared (content (sw_module j)) $"Y" -> content (sw_module j) = $"A") /\
  ~ (forall j, In j (uses t) -> declared (content (sw_module j)) $"X" -> content (sw_module j) = $"A").
Proof.
  cbv zeta. split; [repeat constructor; discriminate|]. split; [split; [vm_compute; reflexivity|plain_start]|].
  split; [split; [right; right; left; reflexivity|]|].
  - intros j [<-|[<-|[<-|[]]]] [H|[H|[H|[]]]]; vm_compute in H; try discriminate; reflexivity.
  - intros H. specialize (H _ (or_intror (or_introl eq_refl)) (or_intror (or_introl eq_refl))). discriminate H.
Qed.

(** ** C65: Dart *)

Theorem C65_dart_resolution_exact : forall cfg cs body (declared : str -> str -> Prop), let t := build cs in
  Forall (fun i => opt_named (da_alias i)) (uses t) ->
  body_of dart_lang cfg tt tt t body ->
  exists lit keys, literal_of dart_lang lit /\
    sorted (pair_before name_before (opt_before name_before)) keys /\
    (forall path alias, In (path, alias) keys <->
       content path <> $"dart:core" /\
       exists i, In i (uses t) /\ da_path i = path /\ da_alias i = alias) /\
    file_renders dart_lang cfg tt t (file_text (c_newline cfg) (map (dart_line lit) keys) body) /\
    forall i, In i (uses t) ->
      let path := content (da_path i) in let name := content (da_name i) in
      renders dart_lang cfg tt tt (only i) (dart_written (option_map content (da_alias i)) name) /\
      (dart_denotes declared (map dart_texts keys) (option_map content (da_alias i)) name path <->
       declared path name /\
       (* the core library is not given a prefix *)
       (path = $"dart:core" -> da_alias i = None) /\
       (* nothing else that is imported under the same prefix declares the name *)
       (forall j, In j (uses t) -> content (da_path j) <> $"dart:core" ->
          option_map content (da_alias j) = option_map content (da_alias i) ->
          declared (content (da_path j)) name ->
          content (da_path j) = path \/ dart_system (content (da_path j)) /\ ~ dart_system path) /\
       (* nor does the core library, if there is no prefix *)
       (da_alias i = None -> declared $"dart:core" name -> path = $"dart:core" \/ ~ dart_system path)).
Proof.
  intros cfg cs body declared t N B.
  destruct (C38_dart_imports cfg cs body N B) as (lit & keys & HL & SO & K & R).
  exists lit, keys. split; [exact HL|]. split; [exact SO|]. split; [exact K|]. split; [exact R|]. intros i Hi path name. split.
  { pose proof (C38_dart_reference cfg i) as RE. unfold name. destruct (da_alias i); exact RE. }
  assert (NC : forall p, ~ In ($"dart:core", p) (map dart_texts keys)).
  { intros p H. apply in_map_iff in H as [[k a] [E H]]. injection E as E _. apply K in H as [H _]. auto. }
  assert (SC : dart_system $"dart:core") by (exists $"core"; reflexivity).
  split.
  - intros (V & D & U). split; [exact D|]. split; [|split].
    + intros E. destruct V as [V|[V _]].
      * exfalso. rewrite E in V. exact (NC _ V).
      * destruct (da_alias i); [discriminate V|reflexivity].
    + intros j Hj NE A HD. apply U; [|exact HD]. left. rewrite <- A.
      change (In (dart_texts (da_path j, da_alias j)) (map dart_texts keys)). apply in_map, K. split; eauto.
    + intros A HD. destruct (U $"dart:core") as [E|[_ E]]; [|exact HD| |].
      * right. rewrite A. split; [reflexivity|]. split; [reflexivity|exact NC].
      * left. exact (eq_sym E).
      * right. exact E.
  - intros (D & C & U & S). split; [|split; [exact D|]].
    + destruct (list_eq_dec N.eq_dec path $"dart:core") as [E|E].
      * right. rewrite (C E). auto.
      * left. change (In (dart_texts (da_path i, da_alias i)) (map dart_texts keys)).
        apply in_map, K. split; eauto.
    + intros p [H|[HN [-> _]]] HD.
      * apply in_map_iff in H as [[k a] [E H]]. injection E as <- E.
        apply K in H as [NE [j [Hj [<- <-]]]]. apply U; auto.
      * destruct (da_alias i) eqn:E; [discriminate|]. destruct (S eq_refl HD) as [X|X]; [auto|]. right. auto.
Qed.
Print Assumptions C65_dart_resolution_exact.

(** [X] of two libraries: it clashes without a prefix, and resolves with one. *)
Example C65_exact_example :
  let uA := mk_dart (Static $"a.dart") (Static $"X") None in let uB := mk_dart (Static $"b.dart") (Static $"X") None in
  let uP := mk_dart (Static $"b.dart") (Static $"X") (Some (Static $"p")) in
  let t := build (ex_calls [uA; uB; uP]) in
  let declared m n := In (m, n) [($"a.dart", $"X"); ($"b.dart", $"X"); ($"dart:core", $"int")] in
  Forall (fun i => opt_named (da_alias i)) (uses t) /\
  body_of dart_lang ex_cfg tt tt t ($"X" ++ [10%N] ++ $"X" ++ [10%N] ++ $"p.X") /\
  (forall j, In j (uses t) -> content (da_path j) <> $"dart:core" ->
     option_map content (da_alias j) = Some $"p" -> declared (content (da_path j)) $"X" ->
     content (da_path j) = $"b.dart" \/ dart_system (content (da_path j)) /\ ~ dart_system $"b.dart") /\
  ~ (forall j, In j (uses t) -> content (da_path j) <> $"dart:core" ->
     option_map content (da_alias j) = None -> declared (content (da_path j)) $"X" ->
     content (da_path j) = $"a.dart" \/ dart_system (content (da_path j)) /\ ~ dart_system $"a.dart").
Proof.
  cbv zeta. split; [repeat constructor; discriminate|]. split; [split; [vm_compute; reflexivity|plain_start]|]. split.
  - intros j [<-|[<-|[<-|[]]]] _ H; vm_compute in H; try discriminate; left; reflexivity.
  - intros H. destruct (H _ (or_intror (or_introl eq_refl)) ltac:(discriminate) eq_refl
      (or_intror (or_introl eq_refl))) as [E|[[r E] _]]; discriminate E.
Qed.

(** ** C64: Go *)

Lemma one_place {A} (f : A -> str) (g : str -> str) (keys : list A) a p b x y :
  map f keys = a ++ p :: b -> (forall q, In q (a ++ b) -> g q <> g p) ->
  In x keys -> In y keys -> g (f x) = g p -> g (f y) = g p -> x = y.
Proof.
  intros E U. apply map_eq_app in E as (ka & kb & -> & <- & E).
  apply map_eq_cons in E as (k & kb' & -> & <- & <-).
  assert (H : forall z, In z (ka ++ k :: kb') -> g (f z) = g (f k) -> z = k).
  { intros z Hz Ez. apply in_app_or in Hz as [Hz|[Hz|Hz]]; auto; exfalso; apply (U (f z)); auto;
      apply in_app_iff; [left|right]; apply in_map; auto. }
  intros Hx Hy Ex Ey. rewrite (H x Hx Ex), (H y Hy Ey). reflexivity.
Qed.

Theorem C64_go_resolution_exact : forall cfg package cs body (package_of : str -> str), let t := build cs in
  opt_named package -> Forall (fun i => named (go_module i)) (uses t) ->
  body_of go_lang cfg package tt t body ->
  exists lit keys, literal_of go_lang lit /\
    sorted name_before keys /\
    (forall m, In m keys <-> exists i, In i (uses t) /\ go_module i = m) /\
    file_renders go_lang cfg package t
      (file_text (c_newline cfg)
         (package_then (option_map go_package_line package) (map (go_line lit) keys)) body) /\
    forall i, In i (uses t) -> exists w,
      renders go_lang cfg package tt (only i) w /\
      (go_denotes package_of (map content keys) w (content (go_module i)) (content (go_name i)) <->
       (* the package is called as the last element of its path *)
       last_segment $"/" (content (go_module i)) (package_of (content (go_module i))) /\
       (* and no other package that is used is called so *)
       forall j, In j (uses t) ->
         package_of (content (go_module j)) = package_of (content (go_module i)) -> go_module j = go_module i).
Proof.
  intros cfg package cs body package_of t NP N B.
  destruct (C39_go_imports cfg package cs body NP N B) as (lit & keys & HL & S & K & R).
  exists lit, keys. split; [exact HL|]. split; [exact S|]. split; [exact K|]. split; [exact R|]. intros i Hi.
  destruct (C39_go_reference cfg package i) as (e & LE & RE). exists (e ++ $"." ++ content (go_name i)).
  split; [exact RE|].
  assert (IK : In (go_module i) keys) by (apply K; eauto).
  split.
  - intros (E & a & b & EK & U). split.
    + apply app_inv_tail in E. rewrite <- E. exact LE.
    + intros j Hj EJ. eapply (one_place content package_of keys); eauto. apply K. eauto.
  - intros (L & U).
    rewrite (last_segment_unique $"/" _ _ _ ltac:(discriminate) LE L). split; [reflexivity|].
    destruct (in_split _ _ IK) as (a & b & E). exists (map content a), (map content b).
    split; [rewrite E, map_app; reflexivity|].
    intros p H Q. rewrite <- map_app in H. apply in_map_iff in H as [m [<- H]].
    assert (In m keys) as Hm by (rewrite E; apply in_app_iff in H as [H|H]; apply in_app_iff; cbn; auto).
    apply K in Hm as [j [Hj <-]]. specialize (U j Hj Q). rewrite U in H.
    assert (ND : NoDup keys) by (eapply sorted_nodup; [apply name_before_irrefl|exact S]).
    rewrite E in ND. apply NoDup_remove_2 in ND. tauto.
Qed.
Print Assumptions C64_go_resolution_exact.

(** Two packages called [bar] clash, [fmt] resolves. *)
Example C64_exact_example :
  let t := build (ex_calls [mk_go (Static $"a/bar") (Static $"X"); mk_go (Static $"b/bar") (Static $"Y");
                            mk_go (Static $"fmt") (Static $"Print")]) in
  Forall (fun i => named (go_module i)) (uses t) /\
  body_of go_lang ex_cfg None tt t ($"bar.X" ++ [10%N] ++ $"bar.Y" ++ [10%N] ++ $"fmt.Print") /\
  (forall j, In j (uses t) -> go_by_last (content (go_module j)) = go_by_last $"fmt" -> go_module j = Static $"fmt") /\
  ~ (forall j, In j (uses t) -> go_by_last (content (go_module j)) = go_by_last $"a/bar" -> go_module j = Static $"a/bar").
Proof.
  cbv zeta. split; [repeat constructor; discriminate|]. split; [split; [vm_compute; reflexivity|plain_start]|]. split.
  - intros j [<-|[<-|[<-|[]]]] H; vm_compute in H; try discriminate; reflexivity.
  - intros H. specialize (H _ (or_intror (or_introl eq_refl)) eq_refl). discriminate H.
Qed.

(** ** C40: Java *)

Theorem C40_java_resolution_exact : forall cfg package cs (declared : str -> str -> Prop), let t := build cs in
  opt_named package -> Forall (fun i => named (ja_package i) /\ named (ja_name i)) (uses t) ->
  exists imports f,
    sorted (pair_before name_before name_before) imports /\
    (forall k, In k imports <->
       first_named (pair_before name_before name_before) (fun k => ~ java_own package (fst k))
         (fun k => content (snd k))
         (fun k => exists i, In i (uses t) /\ k = (ja_package i, ja_name i)) k) /\
    (forall i, In i (uses t) -> let p := content (ja_package i) in let n := content (ja_name i) in
       exists w, renders java_lang cfg package f (only i) (written_text w) /\
       (java_denotes declared (option_map content package) (java_text_keys imports) w p n <->
        declared p n /\
        (java_own package (ja_package i) ->
           (* no class of the name is imported *)
           (forall j, In j (uses t) -> ~ java_own package (ja_package j) -> content (ja_name j) <> n) /\
           (* and the file's package does not hide the class of [java.lang] *)
           (forall q, option_map content package = Some q -> q <> p -> ~ declared q n)))) /\
    (forall body, body_of java_lang cfg package f t body ->
       file_renders java_lang cfg package t
         (file_text (c_newline cfg)
            (package_then (option_map java_package_line package) (map java_line imports)) body)).
Proof.
  intros cfg package cs declared t NP N.
  destruct (C40_java_imports cfg package cs NP N) as (imports & f & H1 & H2 & H3 & H4 & H5).
  exists imports, f. split; [exact H1|]. split; [exact H2|]. split; [|auto]. intros i Hi p n. destruct (H4 i Hi) as (w & W & R).
  exists w. split; [exact R|].
  (* what is imported *)
  assert (IM : forall m, ~ (exists q, In (q, m) (java_text_keys imports)) <->
    forall j, In j (uses t) -> ~ java_own package (ja_package j) -> content (ja_name j) <> m).
  { intros m. split.
    - intros H j Hj NO E. destruct (H4 j Hj) as (w' & W' & _).
      destruct W' as [[_ [O|[k [K1 [K2 K3]]]]]|[_ [_ [k [K1 [_ K3]]]]]]; [auto| |]; apply H;
        exists (content (fst k)); apply in_map_iff; exists k; rewrite K3, E; auto.
    - intros H [q Hq]. apply in_map_iff in Hq as [k [E Hk]]. injection E as _ E2.
      apply H2 in Hk as [[j [Hj ->]] [NO _]]. exact (H j Hj NO E2). }
  assert (OWN : java_own package (ja_package i) -> forall q, ~ In (p, q) (java_text_keys imports)).
  { intros O q Hq. apply in_map_iff in Hq as [k [E Hk]]. injection E as E1 _.
    apply H2 in Hk as [[j [Hj ->]] [NO _]]. apply NO. cbn in *. unfold java_own in *. rewrite E1. exact O. }
  destruct W as [[-> C]|[-> [NO _]]].
  - destruct C as [O|[k [K1 [K2 K3]]]].
    + (* written by its simple name, needs no import *)
      split.
      * intros (D & _ & [I|(NI & P)]); [exfalso; exact (OWN O _ I)|]. split; [exact D|]. intros _. split.
        { apply IM. intros [q Hq]. exact (NI q Hq). }
        intros q Eq NE. destruct P as [P|[P _]]; [congruence|auto].
      * intros (D & C). destruct (C O) as [C1 C2]. split; [exact D|]. split; [reflexivity|]. right. split.
        { intros q Hq. apply (proj2 (IM n) C1). eauto. }
        destruct (option_map content package) as [q|] eqn:EP.
        -- destruct (list_eq_dec N.eq_dec q p) as [->|NE]; [left; reflexivity|]. right. split.
           { intros q' [= <-]. auto. }
           destruct O as [O|O]; [exact O|]. exfalso. apply NE. rewrite EP in O. injection O. auto.
        -- right. split; [discriminate|]. destruct O as [O|O]; [exact O|]. rewrite EP in O. discriminate O.
    + (* imported *)
      assert (IN : In (p, n) (java_text_keys imports)).
      { apply in_map_iff. exists k. unfold p, n. rewrite K2, K3. auto. }
      split.
      * intros (D & _). split; [exact D|]. intros O. exfalso. exact (OWN O _ IN).
      * intros (D & _). split; [exact D|]. split; [reflexivity|]. left. exact IN.
  - (* qualified *)
    split.
    + intros (D & _). split; [exact D|]. intros O. contradiction.
    + intros (D & _). split; [exact D|]. split; reflexivity.
Qed.
Print Assumptions C40_java_resolution_exact.

(** [java.lang.Integer] clashes with the import of [foo.Integer], and
    [java.lang.String] resolves. *)
Example C40_exact_example :
  let t := build (ex_calls [mk_java (Static $"java.lang") (Static $"Integer"); mk_java (Static $"foo") (Static $"Integer");
                            mk_java (Static $"java.lang") (Static $"String")]) in
  Forall (fun i => named (ja_package i) /\ named (ja_name i)) (uses t) /\
  java_own None (Static $"java.lang") /\
  (forall j, In j (uses t) -> ~ java_own None (ja_package j) -> content (ja_name j) <> $"String") /\
  ~ (forall j, In j (uses t) -> ~ java_own None (ja_package j) -> content (ja_name j) <> $"Integer").
Proof.
  cbv zeta. split; [repeat constructor; discriminate|]. split; [left; reflexivity|]. split.
  - intros j [<-|[<-|[<-|[]]]] H E; try (vm_compute in E; discriminate E). apply H. left. reflexivity.
  - intros H. apply (H _ (or_intror (or_introl eq_refl))); [|reflexivity]. intros [E|E]; discriminate E.
Qed.

(** ** C37: C# *)

Lemma csharp_resolution_values : forall cfg namespace cs (declared : str -> str -> Prop),
  let t := build cs in
  Forall (fun i => named (cs_namespace i)) (uses t) ->
  let imports := cs_chosen namespace t in let usings := cs_usings namespace t in let f := cs_format namespace t in
    (forall k, In k imports <->
       first_named (pair_before text_before text_before)
         (fun k => option_map content namespace <> Some (fst k)) snd
         (fun k => exists i, In i (uses t) /\ k = (content (cs_namespace i), content (cs_name i))) k) /\
    sorted text_before usings /\
    (forall n, In n usings <-> exists name, In (n, name) imports) /\
    (forall i, In i (uses t) ->
       let ns := content (cs_namespace i) in let n := content (cs_name i) in
       exists w, renders csharp_lang cfg namespace f (only i) (written_text w) /\
       (cs_denotes declared (option_map content namespace) usings w ns n <->
        declared ns n /\
        (* a type of another namespace that is written by its simple name ... *)
        (cs_qualified i = false -> option_map content namespace <> Some ns -> In (ns, n) imports ->
           (* is not hidden by one of the file's namespace *)
           (forall m, option_map content namespace = Some m -> ~ declared m n) /\
           (* and no other namespace that is imported declares the name *)
           (forall m, In m usings -> declared m n -> m = ns)))) /\
    (namespace = None -> forall body, body_of csharp_lang cfg namespace f t body ->
       file_renders csharp_lang cfg namespace t
         (file_text (c_newline cfg) (map cs_line usings) body)).
Proof.
  intros cfg namespace cs declared t N imports usings f.
  destruct (csharp_usings_values cfg namespace cs N) as (H1 & H2 & H3 & H4 & H5 & H6 & _).
  split; [exact H1|]. split; [exact H2|]. split; [exact H3|]. split; [|exact H6].
  intros i Hi ns n. destruct (H5 i Hi) as (w & W & R).
  exists w. split; [exact R|].
  destruct W as [[-> C]|[-> [Q C]]].
  - split.
    + intros (D & _). split; [exact D|]. intros Q _ IN. exfalso.
      destruct C as [C|[_ [m [IM NE]]]]; [congruence|]. fold n in IM. apply NE.
      (* one namespace for a name *)
      apply H1 in IN as (F1 & E1 & M1). apply H1 in IM as (F2 & E2 & M2).
      destruct (M1 _ F2 E2 eq_refl) as [E|B1]; [injection E; auto|].
      destruct (M2 _ F1 E1 eq_refl) as [E|B2]; [injection E; auto|].
      apply cs_before_iff in B1, B2. assert (O : order cs_key_cmp) by apply cs_key_order.
      pose proof (o_trans O _ _ _ Logic.I Logic.I Logic.I B1 B2) as T.
      rewrite (o_refl O _ Logic.I) in T. discriminate T.
    + intros (D & _). split; [exact D|]. split; reflexivity.
  - split.
    + intros (D & _ & O). split; [exact D|]. intros _ NE IN. destruct O as [O|(O1 & _ & O2)]; [contradiction|].
      split; auto.
    + intros (D & O). split; [exact D|]. split; [reflexivity|].
      destruct C as [C|C]; [left; exact C|].
      assert (NE : option_map content namespace <> Some ns).
      { apply H4. apply H3. exists n. exact C. }
      destruct (O Q NE C) as [O1 O2]. right. split; [exact O1|]. split; [|exact O2].
      apply H3. exists n. exact C.
Qed.
Theorem C37_csharp_resolution_exact : forall cfg namespace cs (declared : str -> str -> Prop),
  let t := build cs in
  Forall (fun i => named (cs_namespace i)) (uses t) ->
  exists imports usings f,
    (forall k, In k imports <->
       first_named (pair_before text_before text_before)
         (fun k => option_map content namespace <> Some (fst k)) snd
         (fun k => exists i, In i (uses t) /\ k = (content (cs_namespace i), content (cs_name i))) k) /\
    sorted text_before usings /\
    (forall n, In n usings <-> exists name, In (n, name) imports) /\
    (forall i, In i (uses t) ->
       let ns := content (cs_namespace i) in let n := content (cs_name i) in
       exists w, renders csharp_lang cfg namespace f (only i) (written_text w) /\
       (cs_denotes declared (option_map content namespace) usings w ns n <->
        declared ns n /\
        (* a type of another namespace that is written by its simple name ... *)
        (cs_qualified i = false -> option_map content namespace <> Some ns -> In (ns, n) imports ->
           (* is not hidden by one of the file's namespace *)
           (forall m, option_map content namespace = Some m -> ~ declared m n) /\
           (* and no other namespace that is imported declares the name *)
           (forall m, In m usings -> declared m n -> m = ns)))) /\
    (namespace = None -> forall body, body_of csharp_lang cfg namespace f t body ->
       file_renders csharp_lang cfg namespace t
         (file_text (c_newline cfg) (map cs_line usings) body)).
Proof.
  intros cfg namespace cs declared t N.
  exists (cs_chosen namespace t), (cs_usings namespace t), (cs_format namespace t). exact (csharp_resolution_values cfg namespace cs declared N).
Qed.
Print Assumptions C37_csharp_resolution_exact.

(** [Foo.Bar.B] is imported; it clashes with the [B] of [Foo.Baz], which is
    imported for [C].  The chosen imports are [B] of [Foo.Bar] and [C] of
    [Foo.Baz]. *)
Example C37_exact_example : let t := build (ex_calls ex_cs_ambiguous) in
  let declared m n := In (m, n) [($"Foo.Bar", $"B"); ($"Foo.Baz", $"B"); ($"Foo.Baz", $"C")] in
  let chosen k := first_named (pair_before text_before text_before)
    (fun k => option_map content (None : option item_str) <> Some (fst k)) snd
    (fun k => exists i, In i (uses t) /\ k = (content (cs_namespace i), content (cs_name i))) k in
  Forall (fun i => named (cs_namespace i)) (uses t) /\
  chosen ($"Foo.Bar", $"B") /\ ~ chosen ($"Foo.Baz", $"B") /\ chosen ($"Foo.Baz", $"C") /\
  (forall m, In m [$"Foo.Bar"; $"Foo.Baz"] -> declared m $"C" -> m = $"Foo.Baz") /\
  ~ (forall m, In m [$"Foo.Bar"; $"Foo.Baz"] -> declared m $"B" -> m = $"Foo.Bar").
Proof.
  cbv zeta. split; [repeat constructor; discriminate|].
  assert (U : forall k, (exists i, In i (uses (build (ex_calls ex_cs_ambiguous))) /\
      k = (content (cs_namespace i), content (cs_name i))) <->
    In k [($"Foo.Bar", $"B"); ($"Foo.Baz", $"B"); ($"Foo.Baz", $"C")]).
  { intros k. split.
    - intros [i [[<-|[<-|[<-|[]]]] ->]]; vm_compute; auto.
    - intros [<-|[<-|[<-|[]]]]; eexists; split;
        [left; reflexivity|reflexivity|right; left; reflexivity|reflexivity|right; right; left; reflexivity|reflexivity]. }
  assert (BEF : text_before $"Foo.Bar" $"Foo.Baz") by (apply text_before_iff; reflexivity).
  split; [|split; [|split; [|split]]].
  - split; [apply U; left; reflexivity|]. split; [discriminate|]. intros k' K _ E. apply U in K.
    destruct K as [<-|[<-|[<-|[]]]]; [left; reflexivity| |discriminate E]. right. left. exact BEF.
  - intros (_ & _ & M). destruct (M ($"Foo.Bar", $"B")) as [E|E]; [apply U; left; reflexivity|discriminate|reflexivity|discriminate E|].
    apply cs_before_iff in E. vm_compute in E. discriminate E.
  - split; [apply U; right; right; left; reflexivity|]. split; [discriminate|]. intros k' K _ E. apply U in K.
    destruct K as [<-|[<-|[<-|[]]]]; [discriminate E|discriminate E|left; reflexivity].
  - intros m [<-|[<-|[]]] [H|[H|[H|[]]]]; try discriminate H; reflexivity.
  - intros H. specialize (H _ (or_intror (or_introl eq_refl)) (or_intror (or_introl eq_refl))). discriminate H.
Qed.

(** ** C41: JavaScript *)

(** The uses that get a binding of their own: of the default imports of a module
    only the first. *)
Definition js_kept (us : list js_import) (i : js_import) : Prop :=
  In i us /\ (js_import_kind i = KDefault -> first_default us (js_import_module i) (js_name i)).

Lemma first_default_unique us m d d' : first_default us m d -> first_default us m d' -> d = d'.
Proof.
  intros (b & i & a & E & K & M & <- & F) (b' & i' & a' & E' & K' & M' & <- & F').
  assert (H : i = i'); [|congruence]. rewrite E in E'. clear E us. revert b' F' E'.
  induction b as [|x b IH]; intros [|y b'] F' E'; cbn in E'.
  - congruence.
  - injection E' as <- _. exfalso. apply (F' i); [left|..]; auto.
  - injection E' as -> _. exfalso. apply (F i'); [left|..]; auto.
  - injection E' as <- E'. apply (IH (fun j Hj => F j (or_intror Hj)) b'); auto.
    intros j Hj. apply F'. right. exact Hj.
Qed.
Lemma entries_kept cs x : let t := build cs in Forall js_made (uses t) ->
  (In x (js_entries t) <-> js_kept (uses t) x).
Proof.
  intros t M. split.
  - intros H. split; [apply entries_used; auto|]. intros K. unfold js_entries in H. apply in_app_or in H as [H|H].
    + apply in_map_iff in H as [k [<- _]]. discriminate K.
    + apply in_flat_map in H as [[m r] [H1 H2]]. unfold mod_entries in H2. cbn [fst snd] in H2.
      apply in_app_or in H2 as [H2|H2].
      * pose proof (js_default_in cs m r H1) as D. cbv zeta in D. fold t in D.
        destruct (r_default r) as [d|]; [|destruct H2]. destruct H2 as [<-|[]]. exact D.
      * apply in_map_iff in H2 as [[] [<- _]]; discriminate K.
  - intros [H D]. destruct x as [k m n al]. pose proof (proj1 (Forall_forall _ _) M _ H) as MX.
    destruct k; try (apply used_entries; [exact H|exact MX|intros X; discriminate X]).
    specialize (D eq_refl). cbn in D. destruct MX as [MX|MX]; [discriminate|]. cbn in MX. subst al.
    assert (K : In m (map fst (js_mods t))).
    { apply js_mods_keys. eexists. split; [exact H|]. split; [discriminate|reflexivity]. }
    apply in_map_iff in K as [[m' r] [E K]]. cbn in E. subst m'. unfold js_entries. apply in_or_app. right.
    apply in_flat_map. exists (m, r). split; auto. unfold mod_entries. apply in_or_app. left. cbn [fst snd].
    pose proof (js_default_in cs m r K) as X. cbv zeta in X. fold t in X. destruct (r_default r) as [d|].
    + left. rewrite (first_default_unique _ _ _ _ X D). reflexivity.
    + exfalso. eapply X; eauto.
Qed.
Lemma denotes_map_iff (l : list js_import) name o : NoDup l ->
  (js_denotes (map js_needs l) name o <->
   exists x, In x l /\ js_needs x = (name, o) /\ forall y, In y l -> fst (js_needs y) = name -> y = x).
Proof.
  intros ND. split.
  - intros (a & b & E & U). apply map_eq_app in E as (ka & kb & -> & <- & E).
    apply map_eq_cons in E as (x & kb' & -> & E & <-). exists x. split; [apply in_elt|]. split; [exact E|].
    intros y Hy EY. apply in_app_or in Hy as [Hy|[Hy|Hy]]; auto; exfalso; apply (U (snd (js_needs y)));
      apply in_app_iff; rewrite <- EY, <- surjective_pairing; [left|right]; apply in_map; exact Hy.
  - intros (x & IN & E & U). pose proof (denotes_map l x ND IN) as D. rewrite E in D. exact (D U).
Qed.

Theorem C41_js_resolution_exact : forall relative cfg module_path cs body, let t := build cs in
  Forall js_named (uses t) -> Forall js_made (uses t) ->
  body_of (js_lang relative) cfg module_path tt t body ->
  exists wildcards modules,
    sorted (pair_before module_before name_before) wildcards /\
    (forall m n, In (m, n) wildcards <->
       exists i, In i (uses t) /\ js_import_kind i = KWildcard /\ js_import_module i = m /\ js_name i = n) /\
    sorted module_before (map fst modules) /\
    (forall m, In m (map fst modules) <->
       exists i, In i (uses t) /\ js_import_kind i <> KWildcard /\ js_import_module i = m) /\
    (forall m default elements, In (m, (default, elements)) modules ->
       sorted element_before elements /\
       (forall e, In e elements <->
          exists i, In i (uses t) /\ js_import_kind i = KNamed /\ js_import_module i = m /\ js_asks i = e) /\
       match default with
       | Some d => first_default (uses t) m d
       | None => forall i, In i (uses t) -> js_import_kind i = KDefault -> js_import_module i <> m
       end) /\
    file_renders (js_lang relative) cfg module_path t
      (file_text (c_newline cfg)
         (map (js_wildcard_line (quoted_text js_ops) (js_specifier relative module_path)) wildcards ++
          map (js_module_line (quoted_text js_ops) (js_specifier relative module_path)) modules) body) /\
    forall i, In i (uses t) ->
      renders (js_lang relative) cfg module_path tt (only i) (fst (js_needs i)) /\
      (js_denotes (js_header_binds wildcards modules) (fst (js_needs i)) (snd (js_needs i)) <->
       (* exactly one import binds the name, and to what is meant *)
       exists j, js_kept (uses t) j /\ js_needs j = js_needs i /\
         forall k, js_kept (uses t) k -> fst (js_needs k) = fst (js_needs i) -> k = j).
Proof.
  intros relative cfg mp cs body t N M [R CS]. exists (js_wilds t), (map module_view (js_mods t)).
  destruct (js_header relative cfg mp cs body N (conj R CS)) as (J1 & J2 & J3 & J4 & J5 & J6).
  split; [exact J1|]. split; [exact J2|]. split; [exact J3|]. split; [exact J4|]. split; [exact J5|]. split; [exact J6|].
  intros i Hi. split.
  - eapply eq_ind with (x := concat (js_format_item i)) (P := fun x => renders (js_lang relative) cfg mp tt (only i) x).
    + exact (only_renders (js_lang relative) cfg mp tt i).
    + unfold js_format_item, js_needs, js_asks. cbn [concat]. rewrite app_nil_r.
      destruct (js_import_kind i); [|reflexivity|reflexivity]. destruct (js_alias i); reflexivity.
  - rewrite entries_binds. rewrite (denotes_map_iff _ _ _ (entries_js_nodup t)).
    split; intros (x & H1 & H2 & H3); exists x.
    + split; [apply entries_kept; auto|]. split; [rewrite H2; symmetry; apply surjective_pairing|].
      intros k Hk. apply H3, entries_kept; auto.
    + split; [apply entries_kept; auto|]. split; [rewrite H2; apply surjective_pairing|].
      intros k Hk. apply H3, entries_kept; auto.
Qed.
Print Assumptions C41_js_resolution_exact.

(** [f] of two modules clashes, [g] resolves, and the second default import of
    [m] is not kept. *)
Example C41_exact_example :
  let f1 := js_new (MGlobal (Static $"m")) (Static $"f") in let f2 := js_new (MGlobal (Static $"n")) (Static $"f") in
  let g := js_new (MGlobal (Static $"n")) (Static $"g") in
  let a := js_into_default (js_new (MGlobal (Static $"m")) (Static $"a")) in
  let b := js_into_default (js_new (MGlobal (Static $"m")) (Static $"b")) in
  let t := build (ex_calls [f1; f2; g; a; b]) in
  Forall js_named (uses t) /\ Forall js_made (uses t) /\
  body_of (js_lang no_relative) ex_cfg None tt t
    ($"f" ++ [10%N] ++ $"f" ++ [10%N] ++ $"g" ++ [10%N] ++ $"a" ++ [10%N] ++ $"b") /\
  (js_kept (uses t) g /\ forall k, js_kept (uses t) k -> fst (js_needs k) = fst (js_needs g) -> k = g) /\
  (js_kept (uses t) f1 /\ js_kept (uses t) f2 /\ fst (js_needs f1) = fst (js_needs f2) /\ f1 <> f2) /\
  js_kept (uses t) a /\ ~ js_kept (uses t) b.
Proof.
  cbv zeta. split; [repeat constructor; discriminate|].
  split; [repeat constructor; first [left; reflexivity|right; reflexivity]|].
  split; [split; [vm_compute; reflexivity|plain_start]|].
  set (us := uses _). 
  assert (FA : first_default us (MGlobal (Static $"m")) (Static $"a")).
  { eexists [_; _; _], _, [_]. split; [reflexivity|]. split; [reflexivity|]. split; [reflexivity|].
    split; [reflexivity|]. intros j [<-|[<-|[<-|[]]]] K _; discriminate K. }
  split; [|split; [|split]].
  - split; [split; [right; right; left; reflexivity|discriminate]|].
    intros k [[<-|[<-|[<-|[<-|[<-|[]]]]]] _] E; vm_compute in E; try discriminate; reflexivity.
  - split; [split; [left; reflexivity|discriminate]|]. split; [split; [right; left; reflexivity|discriminate]|].
    split; [reflexivity|discriminate].
  - split; [right; right; right; left; reflexivity|]. intros _. exact FA.
  - intros [_ H]. specialize (H eq_refl). pose proof (first_default_unique _ _ _ _ FA H) as E. discriminate E.
Qed.

(** ** C44: Rust *)

Lemma rust_binds_fun e n p q : rust_binds e n p -> rust_binds e n q -> p = q.
Proof. destruct e as [m [[a|]|x a]]; cbn; intros [_ ->] [_ ->]; reflexivity. Qed.
Lemma rust_binds_dec e n : {p | rust_binds e n p} + {forall p, ~ rust_binds e n p}.
Proof.
  destruct e as [m [[a|]|x a]]; cbn.
  - destruct (list_eq_dec N.eq_dec n (content a)) as [E|E]; [left; eauto|right; intros p [H _]; auto].
  - destruct (list_eq_dec N.eq_dec n (after_last_sep $"::" (content m))) as [E|E].
    + left. exists (content m). rewrite E. split; [apply after_last_sep_spec; discriminate|reflexivity].
    + right. intros p [H _]. apply E. eapply (last_segment_unique $"::"); [discriminate|exact H|].
      apply after_last_sep_spec. discriminate.
  - destruct (list_eq_dec N.eq_dec n (content (match a with Some a => a | None => x end))) as [E|E];
      [left; eauto|right; intros p [H _]; auto].
Qed.

Lemma rust_resolution cfg mode cs : let t := build cs in
  forall i, In i (uses t) -> rust_simple_names i ->
  exists expr, renders rust_lang cfg mode tt (only i) expr /\
    (rust_denotes (rust_entries (rust_mods mode t)) expr (rust_object i) <->
     (forall j m l p j' m' l' p', In j (uses t) -> In j' (uses t) ->
        rust_asks mode j m l -> rust_binds (m, l) (rust_root expr) p ->
        rust_asks mode j' m' l' -> rust_binds (m', l') (rust_root expr) p' -> (m, l) = (m', l')) /\
     (forall j m l p, In j (uses t) -> rust_asks mode j m l -> rust_binds (m, l) (rust_root expr) p ->
        rust_object i = p ++ rust_rest expr)).
Proof.
  intros t i Hi [S1 [S2 S3]]. pose proof (only_renders rust_lang cfg mode tt i) as RI.
  eexists. split; [exact RI|]. clear RI.
  match goal with |- context [rust_root ?e] => set (expr := e) in * end.
  assert (IE : forall m l, In (m, l) (rust_entries (rust_mods mode t)) <-> exists j, In j (uses t) /\ rust_asks mode j m l).
  { intros m l. rewrite in_entries. apply in_rust_mods. }
  assert (ND : NoDup (rust_entries (rust_mods mode t))).
  { apply entries_nodup.
    - eapply sorted_nodup; [apply name_before_irrefl|]. eapply increasing_sorted; [apply name_before_cmp|apply rust_mods_sorted].
    - intros m ls H. eapply sorted_nodup; [apply leaf_before_irrefl|]. apply (rust_leaves_ok mode t m ls H). }
  set (entries := rust_entries (rust_mods mode t)) in *. clearbody entries.
  split.
  - intros [(b & e & a & p & E & B & U & O)|(U & O)].
    + assert (ONE : forall m l q, In (m, l) entries -> rust_binds (m, l) (rust_root expr) q -> (m, l) = e).
      { intros m l q H B'. rewrite E in H. apply in_app_or in H as [H|[H|H]]; auto; exfalso;
          apply (U (m, l) q); auto; apply in_app_iff; auto. }
      split.
      * intros j m l q j' m' l' q' Hj Hj' A B1 A' B2.
        rewrite (ONE m l q), (ONE m' l' q'); auto; apply IE; eauto.
      * intros j m l q Hj A B1. assert (EE : (m, l) = e) by (apply (ONE m l q); auto; apply IE; eauto).
        rewrite EE in B1. rewrite (rust_binds_fun _ _ _ _ B1 B). exact O.
    + split.
      * intros j m l q j' m' l' q' Hj Hj' A B1. exfalso. eapply (U (m, l)); eauto. apply IE. eauto.
      * intros j m l q Hj A B1. exfalso. eapply (U (m, l)); eauto. apply IE. eauto.
  - intros (U & O).
    assert (D : (exists e p, In e entries /\ rust_binds e (rust_root expr) p) \/
                forall e p, In e entries -> ~ rust_binds e (rust_root expr) p).
    { clear. induction entries as [|e l [(e' & p & H & B)|IH]].
      - right. intros e p [].
      - left. exists e', p. split; [right|]; auto.
      - destruct (rust_binds_dec e (rust_root expr)) as [[p B]|NB].
        + left. exists e, p. split; [left; reflexivity|exact B].
        + right. intros e' p [<-|H]; auto. }
    destruct D as [([m l] & p & H & B)|NB].
    + left. pose proof (proj1 (IE m l) H) as (j & Hj & A). destruct (in_split _ _ H) as (b & a & E).
      exists b, (m, l), a, p. split; [exact E|]. split; [exact B|]. split; [|eauto].
      intros [m' l'] p' H' B'. rewrite E in ND. apply NoDup_remove_2 in ND. apply ND.
      assert (IN : In (m', l') entries).
      { rewrite E. apply in_app_or in H' as [H'|H']; apply in_or_app; [left|right; right]; auto. }
      apply IE in IN as (j' & Hj' & A'). rewrite (U j m l p j' m' l' p'); auto.
    + right. split; [exact NB|].
      (* nothing binds the first segment: the use asks for nothing *)
      assert (NA : forall m l p, rust_asks mode i m l -> ~ rust_binds (m, l) (rust_root expr) p).
      { intros m l p A. apply NB. apply IE. eauto. }
      clear U O IE ND NB. unfold rust_asks, rust_object in *. cbn in expr. unfold rust_format_item in expr.
      destruct (ru_module i) as [md m|m a] eqn:EM.
      * assert (EX : match rust_effective mode md with
                     | Direct => expr = content (match ru_alias i with Some a => a | None => ru_name i end)
                     | QualifiedMode => expr = after_last_sep rust_sep (content m) ++ $"::" ++ content (ru_name i)
                     end).
        { subst expr. destruct md as [[|]|]; cbn; try destruct mode; cbn; rewrite app_nil_r; destruct (ru_alias i); reflexivity. }
        clearbody expr. destruct (rust_effective mode md).
        -- exfalso. eapply (NA m (LName (ru_name i) (ru_alias i))); [auto|].
           assert (RR : rust_root expr = expr) by (rewrite EX; apply no_colon_root; destruct (ru_alias i); auto).
           cbn. rewrite RR. split; [exact EX|reflexivity].
        -- assert (LS : last_segment $"::" (content m) (after_last_sep rust_sep (content m)))
             by (apply after_last_sep_spec; discriminate).
           pose proof (S3 _ LS) as NC.
           assert (RR : rust_root expr = after_last_sep rust_sep (content m)).
           { rewrite EX. apply (colon_root _ (58%N :: content (ru_name i))). auto. }
           destruct (contains rust_sep (content m)) eqn:CT.
           ++ exfalso. eapply (NA m (LSelf None)).
              ** split; [reflexivity|]. split; [reflexivity|]. apply contains_spec in CT as [p [r CT]]. exists p, r. auto.
              ** cbn. rewrite RR. split; [exact LS|reflexivity].
           ++ destruct LS as [[p [LS _]]|[LS _]].
              { exfalso. assert (contains rust_sep (content m) = true); [|congruence]. apply contains_spec. eauto. }
              rewrite EX, <- LS. reflexivity.
      * assert (EX : expr = content a ++ $"::" ++ content (ru_name i)).
        { subst expr. cbn. rewrite app_nil_r. reflexivity. }
        clearbody expr. exfalso. eapply (NA m (LSelf (Some a))); [auto|].
        assert (RR : rust_root expr = content a).
        { rewrite EX. apply (colon_root _ (58%N :: content (ru_name i))). auto. }
        cbn. rewrite RR. split; reflexivity.
Qed.

Theorem C44_rust_resolution_exact : forall cfg mode cs body, let t := build cs in
  Forall rust_named (uses t) ->
  body_of rust_lang cfg mode tt t body ->
  exists mods,
    file_renders rust_lang cfg mode t
      (file_text (c_newline cfg) (map rust_use_line mods) body) /\
    forall i, In i (uses t) -> rust_simple_names i ->
      exists expr, renders rust_lang cfg mode tt (only i) expr /\
        (rust_denotes (rust_entries mods) expr (rust_object i) <->
         (* all that uses ask for under the first segment is one and the same item *)
         (forall j m l p j' m' l' p', In j (uses t) -> In j' (uses t) ->
            rust_asks mode j m l -> rust_binds (m, l) (rust_root expr) p ->
            rust_asks mode j' m' l' -> rust_binds (m', l') (rust_root expr) p' -> (m, l) = (m', l')) /\
         (* and leads to what is meant *)
         (forall j m l p, In j (uses t) -> rust_asks mode j m l -> rust_binds (m, l) (rust_root expr) p ->
            rust_object i = p ++ rust_rest expr)).
Proof.
  intros cfg mode cs body t N [R CS]. exists (rust_mods mode t). split; [apply rust_file; auto|]. apply rust_resolution.
Qed.
Print Assumptions C44_rust_resolution_exact.

(** [Result] of two modules clashes, [Debug] resolves. *)
Example C44_exact_example :
  let r1 := rust_new (Static $"std::fmt") (Static $"Result") in let r2 := rust_new (Static $"std::io") (Static $"Result") in
  let d := rust_new (Static $"std::fmt") (Static $"Debug") in let t := build (ex_calls [r1; r2; d]) in
  Forall rust_named (uses t) /\
  body_of rust_lang ex_cfg Direct tt t ($"Result" ++ [10%N] ++ $"Result" ++ [10%N] ++ $"Debug") /\
  rust_asks Direct d (Static $"std::fmt") (LName (Static $"Debug") None) /\
  rust_binds (Static $"std::fmt", LName (Static $"Debug") None) $"Debug" $"std::fmt::Debug" /\
  (forall j m l p, In j (uses t) -> rust_asks Direct j m l -> rust_binds (m, l) $"Debug" p ->
     (m, l) = (Static $"std::fmt", LName (Static $"Debug") None)) /\
  rust_asks Direct r1 (Static $"std::fmt") (LName (Static $"Result") None) /\
  rust_binds (Static $"std::fmt", LName (Static $"Result") None) $"Result" $"std::fmt::Result" /\
  rust_asks Direct r2 (Static $"std::io") (LName (Static $"Result") None) /\
  rust_binds (Static $"std::io", LName (Static $"Result") None) $"Result" $"std::io::Result".
Proof.
  cbv zeta. split; [repeat constructor; discriminate|]. split; [split; [vm_compute; reflexivity|plain_start]|].
  split; [split; reflexivity|]. split; [split; reflexivity|].
  split; [|repeat split; reflexivity].
  intros j m l p [<-|[<-|[<-|[]]]] [-> ->] [E _]; vm_compute in E; try discriminate; reflexivity.
Qed.

(** ** C43: Python *)

(** Where a use's name is imported: in a [from] statement, or in an [import]
    statement; the places in the order of the file. *)
Definition py_spot : Type :=
  (item_str * (item_str * option item_str)) + (item_str * option item_str).
Definition py_spot_of (i : py_import) : py_spot :=
  match i with
  | PyImport (Unqualified m) n a => inl (m, (n, a))
  | PyImport (Qualified m a) _ _ | PyModule m a => inr (m, a)
  end.
Definition py_spot_before (a b : py_spot) : Prop :=
  match a, b with
  | inl x, inl y => pair_before name_before (pair_before name_before (opt_before name_before)) x y
  | inl _, inr _ => True
  | inr _, inl _ => False
  | inr x, inr y => pair_before name_before (opt_before name_before) x y
  end.

Definition asym {A} (R : A -> A -> Prop) : Prop := forall a b, R a b -> ~ R b a.
Lemma name_asym : asym name_before.
Proof.
  intros a b H1 H2. apply name_before_iff in H1, H2.
  pose proof (o_trans item_str_order _ _ _ Logic.I Logic.I Logic.I H1 H2) as T.
  rewrite (o_refl item_str_order _ Logic.I) in T. discriminate T.
Qed.
Lemma opt_asym {A} (R : A -> A -> Prop) : asym R -> asym (opt_before R).
Proof. intros S [a|] [b|]; cbn; auto. Qed.
Lemma pair_asym {A B} (R : A -> A -> Prop) (S : B -> B -> Prop) : asym R -> asym S -> asym (pair_before R S).
Proof.
  intros HR HS [a b] [c d]. unfold pair_before. cbn.
  intros [H1|[-> H1]] [H2|[E H2]]; [eapply HR; eauto|subst; eapply HR; eauto|eapply HR; eauto|eapply HS; eauto].
Qed.
Lemma spot_asym : asym py_spot_before.
Proof.
  intros [a|a] [b|b]; cbn; auto; apply pair_asym; auto using name_asym, opt_asym, pair_asym.
Qed.

Definition py_spots (froms : list (item_str * list (item_str * option item_str)))
    (imports : list (item_str * option item_str)) : list py_spot :=
  flat_map (fun m => map (fun k => inl (fst m, k)) (snd m)) froms ++ map inr imports.
Definition py_spot_binds (s : py_spot) : str * str :=
  match s with inl (m, k) => py_from_binds (content m) k | inr k => py_import_binds k end.
Lemma spots_binds froms imports : py_header_binds froms imports = map py_spot_binds (py_spots froms imports).
Proof.
  unfold py_header_binds, py_spots. rewrite map_app, map_map. f_equal.
  induction froms as [|[m ns] l IH]; cbn; [reflexivity|]. rewrite map_app, IH, map_map. reflexivity.
Qed.
Lemma needs_spot i : py_needs i = py_spot_binds (py_spot_of i).
Proof. destruct i as [[m|m ma] n a|m a]; reflexivity. Qed.
Lemma sorted_app_of {A} (R : A -> A -> Prop) l r :
  StronglySorted R l -> StronglySorted R r -> (forall x y, In x l -> In y r -> R x y) -> StronglySorted R (l ++ r).
Proof.
  intros SL SR H. induction SL as [|a l SL IH F]; cbn; [exact SR|]. constructor.
  - apply IH. intros. apply H; [right|]; auto.
  - apply Forall_app. split; [exact F|]. apply Forall_forall. intros y Hy. apply H; [left|]; auto.
Qed.
Lemma sorted_map_of {A B} (R : A -> A -> Prop) (S : B -> B -> Prop) f l :
  (forall x y, R x y -> S (f x) (f y)) -> StronglySorted R l -> StronglySorted S (map f l).
Proof.
  intros H SL. induction SL as [|a l SL IH F]; cbn; constructor; auto.
  apply Forall_forall. intros y Hy. apply in_map_iff in Hy as [x [<- Hx]]. apply H. exact (proj1 (Forall_forall _ _) F x Hx).
Qed.
Lemma spots_sorted froms imports :
  sorted name_before (map fst froms) ->
  (forall m names, In (m, names) froms -> sorted (pair_before name_before (opt_before name_before)) names) ->
  sorted (pair_before name_before (opt_before name_before)) imports ->
  StronglySorted py_spot_before (py_spots froms imports).
Proof.
  intros S1 S2 S3. apply sorted_app_of.
  - induction froms as [|[m ns] l IH]; cbn; [constructor|]. cbn in S1. inversion_clear S1 as [|? ? S1' F]. apply sorted_app_of.
    + eapply sorted_map_of; [|exact (S2 m ns (or_introl eq_refl))]. intros x y H. right. auto.
    + apply IH; auto. intros. eapply S2. right. eauto.
    + intros x y Hx Hy. apply in_map_iff in Hx as [k [<- Hk]]. apply in_flat_map in Hy as [[m' ns'] [H1 H2]].
      apply in_map_iff in H2 as [k' [<- Hk']]. left. cbn.
      apply (proj1 (Forall_forall _ _) F). apply in_map_iff. exists (m', ns'). auto.
  - eapply sorted_map_of; [|exact S3]. auto.
  - intros x y Hx Hy. apply in_flat_map in Hx as [m [_ Hx]]. apply in_map_iff in Hx as [k [<- _]].
    apply in_map_iff in Hy as [k' [<- _]]. exact Logic.I.
Qed.
Lemma sorted_split {A} (R : A -> A -> Prop) a x b : StronglySorted R (a ++ x :: b) ->
  (forall y, In y a -> R y x) /\ (forall y, In y b -> R x y).
Proof.
  induction a as [|c a IH]; cbn; intros H.
  - inversion_clear H as [|? ? _ F]. split; [intros y []|]. exact (proj1 (Forall_forall _ _) F).
  - inversion_clear H as [|? ? S F]. destruct (IH S) as [I1 I2]. split; [|exact I2].
    intros y [<-|Hy]; [|auto]. apply (proj1 (Forall_forall _ _) F), in_elt.
Qed.

Theorem C43_python_resolution_exact : forall cfg cs body, let t := build cs in
  Forall py_named (uses t) ->
  body_of python_lang cfg tt tt t body ->
  exists froms imports,
    sorted name_before (map fst froms) /\
    (forall m names, In (m, names) froms ->
       names <> [] /\ sorted (pair_before name_before (opt_before name_before)) names) /\
    (forall m n a, (exists names, In (m, names) froms /\ In (n, a) names) <->
       In (PyImport (Unqualified m) n a) (uses t)) /\
    sorted (pair_before name_before (opt_before name_before)) imports /\
    (forall m a, In (m, a) imports <->
       (exists n al, In (PyImport (Qualified m a) n al) (uses t)) \/ In (PyModule m a) (uses t)) /\
    file_renders python_lang cfg tt t
      (file_text (c_newline cfg) (map py_from_line froms ++ map py_import_line imports) body) /\
    forall i, In i (uses t) ->
      exists expr, renders python_lang cfg tt tt (only i) expr /\
        (py_denotes (py_header_binds froms imports) expr (py_object i) <->
         (* the last use, in the order of the file, that binds the first name leads to what is meant *)
         exists j, In j (uses t) /\ fst (py_needs j) = py_root expr /\
           (forall k, In k (uses t) -> fst (py_needs k) = py_root expr ->
              py_spot_of k = py_spot_of j \/ py_spot_before (py_spot_of k) (py_spot_of j)) /\
           py_object i = snd (py_needs j) ++ py_rest expr).
Proof.
  intros cfg cs body t N B.
  destruct (C43_python_imports cfg cs body N B) as (froms & imports & S1 & S2 & F & S3 & M & R).
  exists froms, imports. split; [exact S1|]. split; [exact S2|]. split; [exact F|]. split; [exact S3|]. split; [exact M|]. split; [exact R|]. intros i Hi.
  eexists. split; [exact (only_renders python_lang cfg tt tt i)|].
  match goal with |- context [py_root ?e] => set (expr := e) in * end. clearbody expr.
  assert (IN : forall s, In s (py_spots froms imports) <-> exists j, In j (uses t) /\ py_spot_of j = s).
  { intros s. unfold py_spots. rewrite in_app_iff, in_flat_map, in_map_iff. split.
    - intros [[[m names] [H1 H2]]|[[m a] [<- H]]].
      + apply in_map_iff in H2 as [[n a] [<- H2]]. exists (PyImport (Unqualified m) n a). split; auto. apply F. eauto.
      + apply M in H as [[n [al H]]|H]; eexists; (split; [exact H|]); reflexivity.
    - intros [[[m|m ma] n al|m al] [H <-]]; cbn.
      + left. apply F in H as [names [H1 H2]]. exists (m, names). split; [exact H1|]. apply in_map_iff. exists (n, al). auto.
      + right. exists (m, ma). split; auto. apply M. left. eauto.
      + right. exists (m, al). split; auto. apply M. auto. }
  assert (SS : StronglySorted py_spot_before (py_spots froms imports)).
  { apply spots_sorted; auto. intros m names H. apply (S2 m names H). }
  rewrite spots_binds. set (spots := py_spots froms imports) in *. clearbody spots. split.
  - intros (b & o & a & E & NA & P). apply map_eq_app in E as (sb & sa & -> & <- & E).
    apply map_eq_cons in E as (s & sa' & -> & E & <-). destruct (sorted_split _ _ _ _ SS) as [L _].
    destruct (proj1 (IN s) (in_elt _ _ _)) as (j & Hj & EJ). exists j. rewrite needs_spot, EJ, E. cbn [fst snd].
    split; [exact Hj|]. split; [reflexivity|]. split; [|exact P].
    intros k Hk EK. rewrite needs_spot in EK.
    assert (IK : In (py_spot_of k) (sb ++ s :: sa')) by (apply IN; eauto).
    apply in_app_or in IK as [IK|[IK|IK]]; [right; auto|left; auto|].
    exfalso. apply (NA (snd (py_spot_binds (py_spot_of k)))). rewrite <- EK, <- surjective_pairing. apply in_map. exact IK.
  - intros (j & Hj & EJ & L & P). assert (IJ : In (py_spot_of j) spots) by (apply IN; eauto).
    destruct (in_split _ _ IJ) as (sb & sa & E). rewrite E in *. destruct (sorted_split _ _ _ _ SS) as [_ G].
    exists (map py_spot_binds sb), (snd (py_needs j)), (map py_spot_binds sa).
    split; [rewrite map_app; cbn [map]; rewrite <- needs_spot, <- EJ, <- surjective_pairing; reflexivity|]. split; [|exact P].
    intros o H. apply in_map_iff in H as [s [Es Hs]].
    destruct (proj1 (IN s)) as (k & Hk & EK); [apply in_or_app; right; right; exact Hs|].
    specialize (G s Hs). destruct (L k Hk) as [EQ|LT].
    + rewrite needs_spot, EK, Es. reflexivity.
    + rewrite <- EQ, EK in G. exact (spot_asym _ _ G G).
    + rewrite EK in LT. exact (spot_asym _ _ G LT).
Qed.
Print Assumptions C43_python_resolution_exact.
(** [f] of [a] and of [b]: the second is what [f] denotes. *)
Example C43_exact_example :
  let fa := py_new (Static $"a") (Static $"f") in let fb := py_new (Static $"b") (Static $"f") in
  let t := build (ex_calls [fb; fa]) in
  Forall py_named (uses t) /\ body_of python_lang ex_cfg tt tt t ($"f" ++ [10%N] ++ $"f") /\
  fst (py_needs fa) = $"f" /\ fst (py_needs fb) = $"f" /\
  py_spot_before (py_spot_of fa) (py_spot_of fb) /\
  py_object fb = snd (py_needs fb) ++ [] /\ py_object fa <> snd (py_needs fb) ++ [].
Proof.
  cbv zeta. split; [repeat constructor; discriminate|]. split; [split; [vm_compute; reflexivity|plain_start]|].
  split; [reflexivity|]. split; [reflexivity|]. split; [|split; [reflexivity|discriminate]].
  left. apply name_before_iff. reflexivity.
Qed.
