(** * Properties of generated files: Python (C43) and Rust (C44).

    Vocabulary: [SpecFile.v] (files, bodies, sorting), [SpecPython.v],
    [SpecRust.v] (lines and names of each language); model: [LangPython.v],
    [LangRust.v]. *)
From Verif Require Import Str StrFacts Tokens SpecTokens TokensRun Values Fmt SpecFmt RenderFacts
  StringFacts Order OrderFacts SpecFile SpecLang HeaderFacts FileFacts ImportFacts JavaFacts GroupFacts
  LangBase LangPython SpecPython PythonFacts LangRust SpecRust RustFacts.

Lemma last_binding k (binds : list (str * str)) : (exists o, In (k, o) binds) ->
  exists before o' after, binds = before ++ (k, o') :: after /\ forall p, ~ In (k, p) after.
Proof.
  induction binds as [|[k1 o1] binds IH]; intros [o H]; [destruct H|].
  assert (D : (exists p, In (k, p) binds) \/ forall p, ~ In (k, p) binds).
  { clear. induction binds as [|[k1 o1] binds [IH|IH]]; [right; auto|left|].
    - destruct IH as [p H]. exists p. right. auto.
    - destruct (list_eq_dec N.eq_dec k k1) as [->|NE].
      + left. exists o1. left. auto.
      + right. intros p [[= E _]|H]; [congruence|]. eapply IH; eauto. }
  destruct D as [D|D].
  - destruct (IH D) as (b & o' & a & -> & N). exists ((k1, o1) :: b), o', a. auto.
  - destruct H as [[= -> ->]|H]; [|destruct (D o H)]. exists [], o, binds. auto.
Qed.

(** ** C43: Python *)

Theorem C43_python_imports : forall cfg cs body, let t := build cs in
  Forall py_named (uses t) ->
  body_of python_lang cfg tt tt t body ->
  exists froms imports,
    sorted name_before (map fst froms) /\
    (forall m names, In (m, names) froms ->
       names <> [] /\ sorted (pair_before name_before (opt_before name_before)) names) /\
    (forall m n a, (exists names, In (m, names) froms /\ In (n, a) names) <->
       In (PyImport (Unqualified m) n a) (uses t)) /\
    sorted (pair_before name_before (opt_before name_before)) imports /\
    (forall m a, In (m, a) imports <->
       (exists n al, In (PyImport (Qualified m a) n al) (uses t)) \/ In (PyModule m a) (uses t)) /\
    file_renders python_lang cfg tt t
      (file_text (c_newline cfg) (map py_from_line froms ++ map py_import_line imports) body).
Proof.
  intros cfg cs body t N [R CS]. exists (py_froms t), (py_mods t).
  assert (KO : forall a b, py_key_cmp a b = Lt -> pair_before name_before (opt_before name_before) a b).
  { intros; eapply pair_before_cmp; eauto using name_before_cmp, item_str_order, opt_before_cmp. }
  split; [eapply increasing_sorted; [apply name_before_cmp|apply py_froms_sorted]|].
  split.
  { intros m names H. destruct (py_names_ok t m names H) as [NE I]. split; auto.
    eapply increasing_sorted; eauto. }
  split; [intros; apply in_py_froms|].
  split; [eapply increasing_sorted; [apply KO|apply (collect_increasing py_key_order); constructor]|].
  split; [intros; apply in_py_mods|]. apply py_file; auto.
Qed.
Print Assumptions C43_python_imports.

Lemma no_dot_root s : no_dot s -> py_root s = s /\ py_rest s = [].
Proof.
  unfold no_dot. induction s as [|c s IH]; cbn; intros N; auto.
  destruct (N.eqb_spec c 46) as [->|NE]; [tauto|]. destruct IH as [-> ->]; auto.
Qed.
Lemma root_app s r : (no_dot s -> False) \/ (exists r', r = 46%N :: r') ->
  py_root (s ++ r) = py_root s /\ py_rest (s ++ r) = py_rest s ++ r.
Proof.
  induction s as [|c s IH]; cbn; intros H.
  - destruct H as [H|[r' ->]]; [exfalso; apply H; intros []|]. auto.
  - destruct (N.eqb_spec c 46) as [->|NE]; auto.
    destruct IH as [-> ->]; auto. destruct H as [H|H]; auto. left. intros X. apply H.
    intros [E|E]; congruence || auto.
Qed.
Lemma root_rest s : py_root s ++ py_rest s = s.
Proof. induction s as [|c s IH]; cbn; auto. destruct (N.eqb c 46); cbn; congruence. Qed.

(** Every reference denotes the object it is meant to, if no two uses bind the
    same name to different objects and no qualified member carries an alias of
    its own. *)
Theorem C43_python_resolution_partial : forall cfg cs body, let t := build cs in
  Forall py_named (uses t) ->
  body_of python_lang cfg tt tt t body ->
  exists froms imports,
    file_renders python_lang cfg tt t
      (file_text (c_newline cfg) (map py_from_line froms ++ map py_import_line imports) body) /\
    forall i, In i (uses t) -> py_simple_names i ->
      (forall m ma n a, i = PyImport (Qualified m ma) n a -> a = None) ->
      (forall j, In j (uses t) -> fst (py_needs j) = fst (py_needs i) -> py_needs j = py_needs i) ->
      exists expr, renders python_lang cfg tt tt (only i) expr /\
        py_denotes (py_header_binds froms imports) expr (py_object i).
Proof.
  intros cfg cs body t N [R CS]. exists (py_froms t), (py_mods t). split; [apply py_file; auto|].
  intros i Hi SN Q U. pose proof (only_renders python_lang cfg tt tt i) as RI.
  eexists. split; [exact RI|]. clear RI.
  set (binds := py_header_binds (py_froms t) (py_mods t)).
  assert (BU : forall b, In b binds <-> exists j, In j (uses t) /\ py_needs j = b).
  { intros b. unfold binds, py_header_binds. rewrite in_app_iff, in_flat_map, in_map_iff. split.
    - intros [[[m names] [H1 H2]]|[[m a] [<- H]]].
      + apply in_map_iff in H2 as [[n a] [<- H2]]. exists (PyImport (Unqualified m) n a). split; auto.
        apply in_py_froms. exists names. auto.
      + apply in_py_mods in H as [[n [al H]]|H]; eexists; (split; [exact H|]); reflexivity.
    - intros [[[m|m ma] n al|m al] [H <-]]; cbn [py_needs].
      + left. apply in_py_froms in H as [names [H1 H2]]. exists (m, names). split; auto.
        apply in_map_iff. exists (n, al). auto.
      + right. exists (m, ma). split; auto. apply in_py_mods. left. eauto.
      + right. exists (m, al). split; auto. apply in_py_mods. auto. }
  destruct (py_needs i) as [k o] eqn:EN. cbn [fst] in U.
  destruct (last_binding k binds) as (b & o' & a & EB & NA).
  { exists o. apply BU. exists i. auto. }
  assert (o' = o).
  { assert (In (k, o') binds) by (rewrite EB; apply in_elt). apply BU in H as [j [H1 H2]].
    specialize (U j H1). rewrite H2 in U. specialize (U eq_refl). congruence. }
  subst o'.
  assert (G : forall e, py_root e = k -> py_object i = o ++ py_rest e -> py_denotes binds e (py_object i)).
  { intros e <- E. exists b, o, a. auto. }
  apply G; clear G.
  - destruct i as [[m|m ma] n al|m al]; cbn in EN, SN |- *.
    + destruct SN as [S1 S2]. unfold py_from_binds in EN. cbn in EN. rewrite app_nil_r.
      destruct al as [al|]; injection EN as <- _; apply no_dot_root; auto.
    + rewrite app_nil_r. unfold py_import_binds in EN. cbn in EN. destruct ma as [ma|]; injection EN as <- _.
      * destruct (root_app (content ma) (46%N :: content n)) as [E _]; [eauto|].
        specialize (Q m (Some ma) n al eq_refl). subst al. cbn. rewrite E. apply no_dot_root; auto.
      * specialize (Q m None n al eq_refl). subst al. apply root_app. eauto.
    + rewrite app_nil_r. unfold py_import_binds in EN. cbn in EN. destruct al as [al|]; injection EN as <- _; auto.
      apply no_dot_root; auto.
  - destruct i as [[m|m ma] n al|m al]; cbn in EN, SN |- *.
    + destruct SN as [S1 S2]. unfold py_from_binds in EN. cbn in EN. rewrite app_nil_r.
      destruct al as [al|]; injection EN as _ <-; destruct (no_dot_root _ S2) || destruct (no_dot_root _ S1);
        match goal with H : py_rest _ = [] |- _ => rewrite H end; rewrite app_nil_r; auto.
    + rewrite app_nil_r. specialize (Q m ma n al eq_refl). subst al.
      unfold py_import_binds in EN. cbn in EN. destruct ma as [ma|]; injection EN as _ <-.
      * destruct (root_app (content ma) (46%N :: content n)) as [_ E]; [eauto|]. cbn. rewrite E.
        destruct (no_dot_root _ SN) as [_ ->]. reflexivity.
      * destruct (root_app (content m) (46%N :: content n)) as [_ E]; [eauto|]. cbn. rewrite E.
        rewrite app_assoc, root_rest. reflexivity.
    + rewrite app_nil_r. unfold py_import_binds in EN. cbn in EN. destruct al as [al|]; injection EN as _ <-.
      * destruct (no_dot_root _ SN) as [_ ->]. rewrite app_nil_r; auto.
      * symmetry. apply root_rest.
Qed.
Print Assumptions C43_python_resolution_partial.

(** For examples: 4 spaces; a stream with one item per line. *)
Definition ex_cfg : config := mk_config (ISpace 4) [10%N].
Fixpoint ex_calls {LI} (xs : list LI) : list (call LI) :=
  match xs with
  | [] => []
  | [x] => [CItem (Lang 0 x)]
  | x :: xs' => CItem (Lang 0 x) :: CPush :: ex_calls xs'
  end.
Ltac plain_start :=
  intros _; eexists [], _, _; split; [reflexivity|]; split; [discriminate|]; split; [constructor|];
  intros [|? ?] ? ?; discriminate.

Definition ex_py : list py_import :=
  [py_new (Static $"collections") (Static $"namedtuple");
   py_with_alias (Static $"dd") (py_new (Static $"collections") (Static $"defaultdict"));
   py_qualified (py_new (Static $"os.path") (Static $"join"));
   py_with_module_alias (Static $"np") (py_new (Static $"numpy") (Static $"array"));
   PyModule (Static $"sys") None].
Example C43_example : let t := build (ex_calls ex_py) in
  Forall py_named (uses t) /\
  Forall py_simple_names (uses t) /\
  (forall m ma n a, In (PyImport (Qualified m ma) n a) (uses t) -> a = None) /\
  (forall i j, In i (uses t) -> In j (uses t) -> fst (py_needs j) = fst (py_needs i) -> py_needs j = py_needs i) /\
  body_of python_lang ex_cfg tt tt t
    ($"namedtuple" ++ [10%N] ++ $"dd" ++ [10%N] ++ $"os.path.join" ++ [10%N] ++ $"np.array" ++ [10%N] ++ $"sys") /\
  file_renders python_lang ex_cfg tt t
    ($"from collections import defaultdict as dd, namedtuple" ++ [10%N] ++
     $"import numpy as np" ++ [10%N] ++ $"import os.path" ++ [10%N] ++ $"import sys" ++ [10; 10]%N ++
     $"namedtuple" ++ [10%N] ++ $"dd" ++ [10%N] ++ $"os.path.join" ++ [10%N] ++ $"np.array" ++ [10%N] ++
     $"sys" ++ [10%N]).
Proof.
  split; [repeat constructor; discriminate|].
  split; [repeat constructor; intros H; cbn in H; repeat destruct H as [H|H]; discriminate || auto|].
  split; [intros m ma n a H; cbn in H; repeat destruct H as [H|H]; try discriminate; try tauto; injection H; auto|].
  split.
  { intros i j Hi Hj. cbn in Hi, Hj.
    repeat destruct Hi as [<-|Hi]; try tauto; repeat destruct Hj as [<-|Hj]; try tauto; intros E;
      vm_compute in E; try discriminate; reflexivity. }
  split; [split; [vm_compute; reflexivity|plain_start]|]. vm_compute. reflexivity.
Qed.

(** A qualified member with an alias is written [module.alias], which is not the
    member it names. *)
Definition ex_py_alias : py_import :=
  py_qualified (py_with_alias (Static $"dd") (py_new (Static $"collections") (Static $"defaultdict"))).
Theorem C43_python_qualified_alias_refuted : let t := build (ex_calls [ex_py_alias]) in
  file_renders python_lang ex_cfg tt t
    ($"import collections" ++ [10; 10]%N ++ $"collections.dd" ++ [10%N]) /\
  py_object ex_py_alias = $"collections.defaultdict" /\
  py_header_binds [] [(Static $"collections", None)] = [($"collections", $"collections")] /\
  ~ py_denotes [($"collections", $"collections")] $"collections.dd" (py_object ex_py_alias).
Proof.
  split; [vm_compute; reflexivity|]. split; [reflexivity|]. split; [reflexivity|].
  intros (b & o & a & E & _ & P). destruct b as [|x [|y b]]; try discriminate.
  injection E as <- _. vm_compute in P. discriminate.
Qed.
Print Assumptions C43_python_qualified_alias_refuted.
(** Two uses of the same name from different modules: the last import wins. *)
Definition ex_py_conflict : list py_import :=
  [py_new (Static $"a") (Static $"f"); py_new (Static $"b") (Static $"f")].
Theorem C43_python_conflict_refuted : let t := build (ex_calls ex_py_conflict) in
  file_renders python_lang ex_cfg tt t
    ($"from a import f" ++ [10%N] ++ $"from b import f" ++ [10; 10]%N ++ $"f" ++ [10%N] ++ $"f" ++ [10%N]) /\
  ~ py_denotes (py_header_binds [(Static $"a", [(Static $"f", None)]); (Static $"b", [(Static $"f", None)])] [])
      $"f" $"a.f".
Proof.
  split; [vm_compute; reflexivity|]. vm_compute.
  intros (b & o & a & E & NA & P). destruct b as [|x [|y b]].
  - injection E as <- <-. eapply NA. left. reflexivity.
  - injection E as _ <- _. discriminate.
  - injection E as _ _ E. destruct b; discriminate.
Qed.
Print Assumptions C43_python_conflict_refuted.

(** ** C44: Rust *)

Theorem C44_rust_uses : forall cfg mode cs body, let t := build cs in
  Forall rust_named (uses t) ->
  body_of rust_lang cfg mode tt t body ->
  exists mods,
    sorted name_before (map fst mods) /\
    (forall m leaves, In (m, leaves) mods ->
       leaves <> [] /\ sorted (rust_leaf_before name_before) leaves) /\
    (forall m l, (exists leaves, In (m, leaves) mods /\ In l leaves) <->
       exists i, In i (uses t) /\ rust_asks mode i m l) /\
    file_renders rust_lang cfg mode t
      (file_text (c_newline cfg) (map rust_use_line mods) body).
Proof.
  intros cfg mode cs body t N [R CS]. exists (rust_mods mode t).
  split; [eapply increasing_sorted; [apply name_before_cmp|apply rust_mods_sorted]|].
  split; [intros m leaves H; apply (rust_leaves_ok mode t m leaves H)|].
  split; [intros; apply in_rust_mods|]. apply rust_file; auto.
Qed.
Print Assumptions C44_rust_uses.

Lemma sorted_nodup {A} (R : A -> A -> Prop) l : (forall x, ~ R x x) -> StronglySorted R l -> NoDup l.
Proof.
  intros I. induction 1 as [|x l S IH F]; constructor; auto. intros H. rewrite Forall_forall in F.
  apply (I x). auto.
Qed.
Lemma name_before_irrefl x : ~ name_before x x.
Proof.
  intros H. apply name_before_iff in H. rewrite (o_refl item_str_order) in H; [discriminate|auto].
Qed.
Lemma leaf_before_irrefl l : ~ rust_leaf_before name_before l l.
Proof.
  destruct l as [[a|]|n [a|]]; cbn; try tauto; try apply name_before_irrefl;
    intros [H|[_ H]]; try tauto; apply (name_before_irrefl _ H).
Qed.
Lemma entries_nodup (mods : list (item_str * list rust_leaf)) : NoDup (map fst mods) ->
  (forall m ls, In (m, ls) mods -> NoDup ls) -> NoDup (rust_entries mods).
Proof.
  unfold rust_entries. induction mods as [|[m ls] mods IH]; cbn; intros D L; [constructor|].
  inversion D as [|? ? NI D']; subst.
  assert (NA : forall a b : list (item_str * rust_leaf), NoDup a -> NoDup b -> (forall x, In x a -> ~ In x b) -> NoDup (a ++ b)).
  { clear. induction a as [|x a IH]; cbn; intros b Da Db H; auto. inversion Da; subst. constructor.
    - rewrite in_app_iff. intros [X|X]; [tauto|]. eapply H; eauto.
    - apply IH; auto. }
  apply NA.
  - assert (Ds : NoDup ls) by (apply (L m ls); auto). clear - Ds. induction Ds; cbn; constructor; auto.
    intros X. apply in_map_iff in X as [y [[= ->] X]]. tauto.
  - apply IH; auto. intros; eapply L; eauto.
  - intros x Hx Hy. apply in_map_iff in Hx as [l [<- _]]. apply in_flat_map in Hy as [[m' ls'] [H1 H2]].
    cbn in H2. apply in_map_iff in H2 as [l' [[= -> ->] _]]. apply NI. apply in_map_iff. exists (m, ls'). auto.
Qed.
Lemma in_entries mods m l : In (m, l) (rust_entries mods) <-> exists leaves, In (m, leaves) mods /\ In l leaves.
Proof.
  unfold rust_entries. rewrite in_flat_map. split.
  - intros [[m' ls] [H1 H2]]. cbn in H2. apply in_map_iff in H2 as [l' [[= -> ->] H2]]. eauto.
  - intros [ls [H1 H2]]. exists (m, ls). split; auto. cbn. apply in_map_iff. eauto.
Qed.
Lemma no_colon_root s : no_colon s -> rust_root s = s /\ rust_rest s = [].
Proof.
  unfold no_colon. induction s as [|c s IH]; cbn; intros N; auto.
  destruct (N.eqb_spec c 58) as [->|NE]; [tauto|]. destruct IH as [-> ->]; auto.
Qed.
Lemma colon_root s r : no_colon s -> rust_root (s ++ 58%N :: r) = s /\ rust_rest (s ++ 58%N :: r) = 58%N :: r.
Proof.
  unfold no_colon. induction s as [|c s IH]; cbn; intros N; auto.
  destruct (N.eqb_spec c 58) as [->|NE]; [tauto|]. destruct IH as [-> ->]; auto.
Qed.

(** Every reference denotes the path it is meant to, if nothing but its own item
    binds its first segment. *)
Theorem C44_rust_resolution_partial : forall cfg mode cs body, let t := build cs in
  Forall rust_named (uses t) ->
  body_of rust_lang cfg mode tt t body ->
  exists mods,
    file_renders rust_lang cfg mode t
      (file_text (c_newline cfg) (map rust_use_line mods) body) /\
    forall i, In i (uses t) -> rust_simple_names i ->
      exists expr, renders rust_lang cfg mode tt (only i) expr /\
        ((forall j m l p, In j (uses t) -> rust_asks mode j m l -> rust_binds (m, l) (rust_root expr) p ->
            rust_asks mode i m l) ->
         rust_denotes (rust_entries mods) expr (rust_object i)).
Proof.
  intros cfg mode cs body t N [R CS]. exists (rust_mods mode t). split; [apply rust_file; auto|].
  intros i Hi [S1 [S2 S3]]. pose proof (only_renders rust_lang cfg mode tt i) as RI.
  eexists. split; [exact RI|]. clear RI. intros U.
  match type of U with context [rust_root ?e] => set (expr := e) in * end.
  assert (IE : forall m l, In (m, l) (rust_entries (rust_mods mode t)) <-> exists j, In j (uses t) /\ rust_asks mode j m l).
  { intros m l. rewrite in_entries. apply in_rust_mods. }
  assert (ND : NoDup (rust_entries (rust_mods mode t))).
  { apply entries_nodup.
    - eapply sorted_nodup; [apply name_before_irrefl|]. eapply increasing_sorted; [apply name_before_cmp|apply rust_mods_sorted].
    - intros m ls H. eapply sorted_nodup; [apply leaf_before_irrefl|]. apply (rust_leaves_ok mode t m ls H). }
  (* one binding *)
  assert (ONE : forall m l p, rust_asks mode i m l -> (forall m' l', rust_asks mode i m' l' -> m' = m /\ l' = l) ->
     rust_binds (m, l) (rust_root expr) p -> rust_object i = p ++ rust_rest expr ->
     rust_denotes (rust_entries (rust_mods mode t)) expr (rust_object i)).
  { intros m l p A UQ B E. assert (IN : In (m, l) (rust_entries (rust_mods mode t))) by (apply IE; eauto).
    destruct (in_split _ _ IN) as (b & a & EQ). left. exists b, (m, l), a, p. split; auto. split; auto. split; auto.
    intros [m' l'] p' H B'. rewrite EQ in ND. apply NoDup_remove_2 in ND.
    assert (IN' : In (m', l') (rust_entries (rust_mods mode t))).
    { rewrite EQ. apply in_app_or in H as [H|H]; apply in_or_app; [left|right; right]; auto. }
    apply IE in IN' as [j [Hj A']]. destruct (UQ m' l') as [-> ->]; [eapply U; eauto|]. tauto. }
  clear ND.
  unfold rust_asks, rust_object in *. cbn in expr. unfold rust_format_item in expr.
  destruct (ru_module i) as [md m|m a] eqn:EM.
  - assert (EX : match rust_effective mode md with
                 | Direct => expr = content (match ru_alias i with Some a => a | None => ru_name i end)
                 | QualifiedMode => expr = after_last_sep rust_sep (content m) ++ $"::" ++ content (ru_name i)
                 end).
    { subst expr. destruct md as [[|]|]; cbn; try destruct mode; cbn; rewrite app_nil_r; destruct (ru_alias i); reflexivity. }
    clearbody expr. destruct (rust_effective mode md).
    + assert (RR : rust_root expr = expr /\ rust_rest expr = []).
      { rewrite EX. apply no_colon_root. destruct (ru_alias i); auto. }
      destruct RR as [RR1 RR2].
      apply (ONE m (LName (ru_name i) (ru_alias i)) (content m ++ $"::" ++ content (ru_name i))); auto.
      * intros m' l' [-> ->]. auto.
      * cbn. rewrite RR1. auto.
      * rewrite RR2, app_nil_r. reflexivity.
    + assert (LS : last_segment $"::" (content m) (after_last_sep rust_sep (content m)))
        by (apply after_last_sep_spec; discriminate).
      pose proof (S3 _ LS) as NC.
      assert (RR : rust_root expr = after_last_sep rust_sep (content m) /\ rust_rest expr = $"::" ++ content (ru_name i)).
      { rewrite EX. apply (colon_root _ (58%N :: content (ru_name i))). auto. }
      destruct RR as [RR1 RR2].
      destruct (contains rust_sep (content m)) eqn:CT.
      * apply (ONE m (LSelf None) (content m)).
        -- split; auto. split; auto. apply contains_spec in CT as [p [r CT]]. exists p, r. auto.
        -- intros m' l' [-> [-> _]]. auto.
        -- cbn. rewrite RR1. auto.
        -- rewrite RR2. reflexivity.
      * destruct LS as [[p [LS _]]|[LS _]].
        { exfalso. assert (contains rust_sep (content m) = true); [|congruence]. apply contains_spec. eauto. }
        right. split.
        -- intros [m' l'] p' IN B. apply IE in IN as [j [Hj A']].
           destruct (U j m' l' p' Hj A' B) as [<- [-> [p [r E]]]].
           assert (contains rust_sep (content m) = true); [|congruence]. apply contains_spec. eauto.
        -- rewrite EX, <- LS. reflexivity.
  - assert (EX : expr = content a ++ $"::" ++ content (ru_name i)).
    { subst expr. cbn. rewrite app_nil_r. reflexivity. }
    clearbody expr.
    assert (RR : rust_root expr = content a /\ rust_rest expr = $"::" ++ content (ru_name i)).
    { rewrite EX. apply (colon_root _ (58%N :: content (ru_name i))). auto. }
    destruct RR as [RR1 RR2].
    apply (ONE m (LSelf (Some a)) (content m)).
    + auto.
    + intros m' l' [-> ->]; auto.
    + cbn. rewrite RR1. auto.
    + rewrite RR2. reflexivity.
Qed.
Print Assumptions C44_rust_resolution_partial.

Definition ex_rust : list rust_import :=
  [rust_new (Static $"std::fmt") (Static $"Debug");
   rust_with_alias (Static $"D2") (rust_new (Static $"std::fmt") (Static $"Display"));
   rust_qualified (rust_new (Static $"std::collections") (Static $"HashMap"));
   rust_qualified (rust_new (Static $"serde") (Static $"Serialize"));
   rust_with_module_alias (Static $"iot") (rust_new (Static $"std::io") (Static $"Read"))].
Example C44_example : let t := build (ex_calls ex_rust) in
  Forall rust_named (uses t) /\
  body_of rust_lang ex_cfg Direct tt t
    ($"Debug" ++ [10%N] ++ $"D2" ++ [10%N] ++ $"collections::HashMap" ++ [10%N] ++ $"serde::Serialize" ++ [10%N] ++
     $"iot::Read") /\
  file_renders rust_lang ex_cfg Direct t
    ($"use std::collections;" ++ [10%N] ++ $"use std::fmt::{Debug, Display as D2};" ++ [10%N] ++
     $"use std::io as iot;" ++ [10; 10]%N ++
     $"Debug" ++ [10%N] ++ $"D2" ++ [10%N] ++ $"collections::HashMap" ++ [10%N] ++ $"serde::Serialize" ++ [10%N] ++
     $"iot::Read" ++ [10%N]) /\
  forall i, In i (uses t) -> rust_simple_names i.
Proof.
  split; [repeat constructor; discriminate|].
  split; [split; [vm_compute; reflexivity|plain_start]|]. split; [vm_compute; reflexivity|].
  assert (LS : forall sep s e, sep <> [] -> last_segment sep s e -> e = after_last_sep sep s).
  { intros sep s e NE H. pose proof (after_last_sep_spec sep s NE) as H'.
    destruct H as [[p [E M]]|[E M]], H' as [[p' [E' M']]|[E' M']].
    - assert (L : length e = length (after_last_sep sep s)) by (apply Nat.le_antisymm; eauto).
      rewrite E in E' at 1. rewrite !app_assoc in E'.
      clear - L E'. remember (after_last_sep sep s) as x. clear Heqx.
      apply (f_equal (@rev N)) in E'. rewrite !rev_app_distr in E'.
      assert (X : rev e = rev x).
      { rewrite <- !rev_length with (l := e), <- rev_length with (l := x) in L.
        revert L E'. generalize (rev e), (rev x). generalize (rev (p ++ sep)), (rev (p' ++ sep)). 
        intros q q' a. revert q q'. induction a as [|c a IH]; intros q q' [|d b] L E; cbn in *; try discriminate; auto.
        injection E as -> E. f_equal. eapply IH; eauto. }
      apply (f_equal (@rev N)) in X. rewrite !rev_involutive in X. auto.
    - destruct (M' _ _ E).
    - destruct (M _ _ E').
    - congruence. }
  intros i Hi. cbn in Hi.
  repeat destruct Hi as [<-|Hi]; try tauto; (split; [|split]);
    try (intros e H; apply LS in H; [|discriminate]; vm_compute in H; subst e);
    try exact I;
    intros X; cbn in X; repeat destruct X as [X|X]; try discriminate; auto.
Qed.

(** Two items of the same name: both are bound, which is an error. *)
Definition ex_rust_conflict : list rust_import :=
  [rust_new (Static $"std::fmt") (Static $"Result"); rust_new (Static $"std::io") (Static $"Result")].
Theorem C44_rust_conflict_refuted : let t := build (ex_calls ex_rust_conflict) in
  file_renders rust_lang ex_cfg Direct t
    ($"use std::fmt::Result;" ++ [10%N] ++ $"use std::io::Result;" ++ [10; 10]%N ++
     $"Result" ++ [10%N] ++ $"Result" ++ [10%N]) /\
  forall path, ~ rust_denotes
    [(Static $"std::fmt", LName (Static $"Result") None); (Static $"std::io", LName (Static $"Result") None)]
    $"Result" path.
Proof.
  split; [vm_compute; reflexivity|]. intros path [(b & e & a & p & E & B & U & _)|[U _]].
  - destruct b as [|x [|y b]].
    + injection E as <- <-. eapply U; [left; reflexivity|]. split; reflexivity.
    + injection E as <- <- <-. eapply U; [left; reflexivity|]. split; reflexivity.
    + injection E as _ _ E. destruct b; discriminate.
  - eapply U; [left; reflexivity|]. split; reflexivity.
Qed.
Print Assumptions C44_rust_conflict_refuted.
