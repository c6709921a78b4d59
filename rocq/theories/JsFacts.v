(** * Lemmas: the JavaScript header. *)
From Verif Require Import Str Tokens SpecTokens TokensRun TokensFacts Values Fmt SpecFmt RenderFacts LayoutFacts
  HistoryFacts StringFacts OrderFacts SpecOrder SpecFile HeaderFacts FileFacts SpecLang ImportFacts GroupFacts
  PythonFacts LangBase LangJs SpecJs.

(** ** Orders *)
Lemma order_ext {A} (P : A -> Prop) (c d : A -> A -> comparison) : (forall x y, c x y = d x y) ->
  order_on P c -> order_on P d.
Proof.
  intros E [O1 [O2 O3]]. repeat split; intros; rewrite <- ?E in *; auto.
  - apply O1; auto.
  - apply O1; auto.
  - eapply O3 with y; auto.
Qed.
Definition component_code (x : component) : nat * str :=
  match x with CurDir => (0, []) | ParentDir => (1, []) | Normal s => (2, s) end.
Lemma component_order : order cmp_component.
Proof.
  apply (order_ext _ (fun x y => cmp_pair cmp_nat str_cmp (component_code x) (component_code y))).
  - intros [| |x] [| |y]; reflexivity.
  - apply order_map.
    + intros [| |x] [| |y] _ _; cbn; congruence.
    + apply order_all, pair_order_full; auto using nat_order, str_order.
Qed.
Definition module_code (m : js_module) : bool * (path * option item_str) :=
  match m with MPath p => (false, (p, None)) | MGlobal s => (true, ([], Some s)) end.
Lemma module_order : order cmp_js_module.
Proof.
  apply (order_ext _ (fun x y => cmp_pair cmp_bool (cmp_pair (cmp_list cmp_component) (cmp_option cmp_item_str))
     (module_code x) (module_code y))).
  - intros [p|s] [q|u]; unfold cmp_pair; cbn; auto. destruct (cmp_list cmp_component p q); reflexivity.
  - apply order_map.
    + intros [p|s] [q|u] _ _; cbn; congruence.
    + apply order_all, pair_order_full; [apply bool_order|].
      apply pair_order_full; [apply list_order_full, component_order|apply option_order_full, item_str_order].
Qed.
Definition element_code (e : js_element) : bool * (item_str * option item_str) :=
  match e with EPlain n => (false, (n, None)) | EAliased n a => (true, (n, Some a)) end.
Lemma element_order : order cmp_js_element.
Proof.
  apply (order_ext _ (fun x y => cmp_pair cmp_bool (cmp_pair cmp_item_str (cmp_option cmp_item_str))
     (element_code x) (element_code y))).
  - intros [n|n a] [m|m b]; cbn; auto. unfold cmp_pair; cbn. destruct (cmp_item_str n m); reflexivity.
  - apply order_map.
    + intros [n|n a] [m|m b] _ _; cbn; congruence.
    + apply order_all, pair_order_full; [apply bool_order|].
      apply pair_order_full; [apply item_str_order|apply option_order_full, item_str_order].
Qed.
Lemma wildcard_order : order (cmp_pair cmp_js_module cmp_item_str).
Proof. apply pair_order_full; auto using module_order, item_str_order. Qed.

Lemma component_before_cmp a b : cmp_component a b = Lt -> component_before a b.
Proof. destruct a, b; cbn; try discriminate; auto. apply text_before_cmp. Qed.
Lemma path_before_cmp a : forall b, cmp_list cmp_component a b = Lt -> path_before a b.
Proof.
  induction a as [|x a IH]; intros [|y b]; cbn; try discriminate; auto.
  destruct (cmp_component x y) eqn:E; cbn; try discriminate.
  - intros H. right. split; auto. apply (o_eq component_order) in E; auto.
  - intros _. left. apply component_before_cmp; auto.
Qed.
Lemma module_before_cmp a b : cmp_js_module a b = Lt -> module_before a b.
Proof. destruct a, b; cbn; try discriminate; auto using path_before_cmp, name_before_cmp. Qed.
Lemma element_before_cmp a b : cmp_js_element a b = Lt -> element_before a b.
Proof.
  destruct a as [x|x p], b as [y|y q]; cbn; try discriminate; auto using name_before_cmp.
  intros H. apply (pair_before_cmp cmp_item_str cmp_item_str); auto using name_before_cmp, item_str_order.
Qed.

Section Js.
Context (relative : path -> path -> path) (cfg : config) (mp : option path).
Notation L := (js_lang relative).
Notation ops := (ld_ops L mp tt).
Notation from := (js_specifier relative mp).
Notation lit := (quoted_text ops).

Lemma js_quotes : l_open_quote ops false = [[34%N]] /\ l_close_quote ops false = [[34%N]].
Proof. split; reflexivity. Qed.

(** ** Lines *)
Definition from_item (m : js_module) : item_str :=
  match m with MGlobal s => s | MPath _ => Box (from m) end.
Lemma from_item_text m : content (from_item m) = from m.
Proof. destruct m; reflexivity. Qed.
Lemma render_from_run m t : ritems (js_render_from relative mp m t) = hrun [h_quoted (from_item m)] (ritems t).
Proof. unfold js_render_from, js_from_text, from_item, js_specifier. destruct m, mp, t; reflexivity. Qed.

Definition wild_acts (k : js_module * item_str) : list (@hact js_import) :=
  [h_text (Static $"import"); HReq TSpace; h_text (Static $"*"); HReq TSpace; h_text (Static $"as"); HReq TSpace;
   h_text (snd k); HReq TSpace; h_text (Static $"from"); HReq TSpace; h_quoted (from_item (fst k));
   h_text (Static $";")].
Lemma wild_ok k : named (snd k) -> writes ops cfg (wild_acts k) (js_wildcard_line lit from k).
Proof.
  intros N. unfold wild_acts, js_wildcard_line. rewrite <- from_item_text.
  eapply writes_eq.
  - do 3 (apply w_text_space; [discriminate|]). apply w_text_space; [exact N|].
    apply w_text_space; [discriminate|]. apply w_quoted_cons; [exact js_quotes|].
    apply (writes_text ops cfg (Static $";")). discriminate.
  - reflexivity.
Qed.
Definition wild_step : js_module * item_str -> tokens js_import -> tokens js_import :=
  fun '(module, name) out =>
  out |> push |> st $"import" |> space |> st $"*" |> space |> st $"as"
      |> space |> istr name |> space |> st $"from" |> space
      |> js_render_from relative mp module |> st $";".
Lemma st_run s (t : tokens js_import) : ritems (st s t) = hrun [h_text (Static s)] (ritems t).
Proof. destruct t; reflexivity. Qed.
Lemma wild_run k t : ritems (wild_step k t) = hrun (HReq TPush :: wild_acts k) (ritems t).
Proof.
  destruct k as [m n]. unfold wild_step, wild_acts. cbn [fst snd].
  rewrite st_run, render_from_run.
  reflexivity.
Qed.

Definition el_acts (e : js_element) : list (@hact js_import) :=
  match e with
  | EPlain n => [h_text n]
  | EAliased n a => [h_text n; HReq TSpace; h_text (Static $"as"); HReq TSpace; h_text a]
  end.
Definition el_named (e : js_element) : Prop :=
  match e with EPlain n => named n | EAliased n a => named n /\ named a end.
Lemma el_ok e : el_named e -> writes ops cfg (el_acts e) (js_element_text e).
Proof.
  destruct e as [n|n a]; cbn [el_named el_acts js_element_text]; intros N; [apply writes_text; exact N|].
  destruct N as [N1 N2].
  eapply writes_eq; [apply w_text_space; [exact N1|]; apply w_text_space; [discriminate|];
    apply writes_text; exact N2|]. reflexivity.
Qed.
Lemma el_run e t : ritems (js_element_tokens e t) = hrun (el_acts e) (ritems t).
Proof. destruct e, t; reflexivity. Qed.
(** In the code the comma is a boxed text here. *)
Definition box_comma : list (@hact js_import) := [h_text (Box $","); HReq TSpace].
Lemma els_run els : forall t, ritems (js_elements els t) = hrun (join_acts el_acts box_comma els) (ritems t).
Proof.
  induction els as [|e els IH]; intros t; [reflexivity|].
  destruct els as [|e2 els]; [apply el_run|].
  change (js_elements (e :: e2 :: els) t) with
    (js_elements (e2 :: els) (t |> js_element_tokens e |> txt $"," |> space)).
  change (join_acts el_acts box_comma (e :: e2 :: els)) with
    (el_acts e ++ box_comma ++ join_acts el_acts box_comma (e2 :: els)).
  rewrite IH, !hrun_app. f_equal. rewrite <- el_run. destruct (js_element_tokens e t); reflexivity.
Qed.
Lemma join_box {A} (acts : A -> list (@hact js_import)) (txt_of : A -> str) xs :
  Forall (fun x => writes ops cfg (acts x) (txt_of x)) xs -> xs <> [] ->
  writes ops cfg (join_acts acts box_comma xs) (join $", " (map txt_of xs)).
Proof.
  induction 1 as [|x xs H F IH]; intros NE; [congruence|].
  destruct xs as [|y ys]; [exact H|].
  change (join_acts acts box_comma (x :: y :: ys)) with
    (acts x ++ [h_text (Box $",")] ++ HReq TSpace :: join_acts acts box_comma (y :: ys)).
  change (join $", " (map txt_of (x :: y :: ys))) with
    (txt_of x ++ $"," ++ 32%N :: join $", " (map txt_of (y :: ys))).
  apply writes_app; auto. apply writes_space; [|apply IH; discriminate].
  apply (writes_text ops cfg (Box $",")). discriminate.
Qed.

(** Default and elements. *)
Definition bind_acts (r : js_resolved) : list (@hact js_import) :=
  match r_default r with Some d => [h_text d] | None => [] end ++
  match r_default r, r_set r with Some _, _ :: _ => box_comma | _, _ => [] end ++
  match r_set r with
  | [] => []
  | els => [h_text (Box $"{")] ++ join_acts el_acts box_comma els ++ [h_text (Box $"}")]
  end.
Lemma bind_run r t : ritems (js_bindings r t) = hrun (bind_acts r) (ritems t).
Proof.
  destruct r as [d s]. unfold js_bindings, bind_acts. cbn [r_default r_set].
  assert (E : forall els u, ritems (u |> txt $"{" |> js_elements els |> txt $"}") =
    hrun ([h_text (Box $"{")] ++ join_acts el_acts box_comma els ++ [h_text (Box $"}")]) (ritems u)).
  { intros els u. rewrite !hrun_app.
    assert (T : forall s (v : tokens js_import), ritems (txt s v) = hrun [h_text (Box s)] (ritems v)) by (intros; destruct v; reflexivity).
    rewrite T, els_run, T. reflexivity. }
  destruct s as [|e els].
  - destruct d as [d|], t; reflexivity.
  - rewrite E, !hrun_app. f_equal. destruct d as [d|], t; reflexivity.
Qed.
Definition res_named (r : js_resolved) : Prop :=
  opt_named (r_default r) /\ Forall el_named (r_set r) /\ (r_default r <> None \/ r_set r <> []).
Definition bind_text (r : js_resolved) : str :=
  match r_default r with Some d => content d | None => [] end ++
  match r_default r, r_set r with Some _, _ :: _ => $", " | _, _ => [] end ++
  match r_set r with [] => [] | els => $"{" ++ join $", " (map js_element_text els) ++ $"}" end.
Lemma bind_ok r : res_named r -> writes ops cfg (bind_acts r) (bind_text r).
Proof.
  destruct r as [d s]. intros [N1 [N2 N3]]. unfold bind_acts, bind_text. cbn [r_default r_set] in *.
  assert (SET : s <> [] -> writes ops cfg
     ([h_text (Box $"{")] ++ join_acts el_acts box_comma s ++ [h_text (Box $"}")])
     ($"{" ++ join $", " (map js_element_text s) ++ $"}")).
  { intros NE. apply (w_text ops cfg (Box $"{")); [discriminate|]. apply writes_app.
    - apply join_box with (txt_of := js_element_text); auto. eapply Forall_impl; [|exact N2]. apply el_ok.
    - apply (writes_text ops cfg (Box $"}")). discriminate. }
  destruct d as [d|], s as [|e els].
  - cbn [app]. rewrite app_nil_r. apply writes_text. exact N1.
  - eapply writes_eq.
    + apply (w_text ops cfg d); [exact N1|]. apply (w_text_space ops cfg (Box $",")); [discriminate|]. apply SET. discriminate.
    + reflexivity.
  - destruct N3; congruence.
  - cbn [app]. apply SET. discriminate.
Qed.

Definition module_view (k : js_module * js_resolved) : js_module * (option item_str * list js_element) :=
  (fst k, (r_default (snd k), r_set (snd k))).
Definition mod_acts (k : js_module * js_resolved) : list (@hact js_import) :=
  h_text (Static $"import") :: HReq TSpace :: bind_acts (snd k) ++ HReq TSpace ::
  [h_text (Static $"from"); HReq TSpace; h_quoted (from_item (fst k)); h_text (Static $";")].
Lemma mod_ok k : res_named (snd k) -> writes ops cfg (mod_acts k) (js_module_line lit from (module_view k)).
Proof.
  intros N. unfold mod_acts, js_module_line, module_view. destruct k as [m r]. cbn [fst snd] in *.
  rewrite <- from_item_text.
  eapply writes_eq.
  - apply w_text_space; [discriminate|]. apply writes_space; [apply bind_ok; exact N|].
    apply w_text_space; [discriminate|]. apply w_quoted_cons; [exact js_quotes|].
    apply (writes_text ops cfg (Static $";")). discriminate.
  - cbn [content]. unfold bind_text. change ($"import " ++ ?x) with ($"import" ++ 32%N :: x).
    do 2 f_equal. rewrite <- !app_assoc. do 3 f_equal. destruct (r_set r); reflexivity.
Qed.
Definition mod_step : js_module * js_resolved -> tokens js_import -> tokens js_import :=
  fun '(name, module) out =>
  out |> push |> st $"import" |> space |> js_bindings module |> space
      |> st $"from" |> space |> js_render_from relative mp name |> st $";".
Lemma mod_run k t : ritems (mod_step k t) = hrun (HReq TPush :: mod_acts k) (ritems t).
Proof.
  destruct k as [m r]. unfold mod_step, mod_acts. cbn [fst snd].
  rewrite st_run, render_from_run.
  change (HReq TPush :: h_text (Static $"import") :: HReq TSpace :: bind_acts r ++ HReq TSpace ::
    [h_text (Static $"from"); HReq TSpace; h_quoted (from_item m); h_text (Static $";")]) with
    ([HReq TPush; h_text (Static $"import"); HReq TSpace] ++ bind_acts r ++
     ([HReq TSpace; h_text (Static $"from"); HReq TSpace] ++ [h_quoted (from_item m)] ++ [h_text (Static $";")])).
  rewrite !hrun_app. do 2 f_equal.
  assert (E : forall u : tokens js_import, ritems (u |> space |> st $"from" |> space) =
     hrun [HReq TSpace; h_text (Static $"from"); HReq TSpace] (ritems u))
    by (intros u; destruct u as [[|[] ?] ?]; reflexivity).
  rewrite E, bind_run. reflexivity.
Qed.

(** ** Collecting *)
Definition js_grp (i : js_import) : option (js_module * (js_resolved -> js_resolved)) :=
  match js_import_kind i with
  | KNamed => Some (js_import_module i, fun r => mk_resolved (r_default r) (set_insert cmp_js_element (js_asks i) (r_set r)))
  | KDefault => Some (js_import_module i, fun r => mk_resolved (Some (js_name i)) (r_set r))
  | KWildcard => None
  end.
Definition js_wild_key (i : js_import) : option (js_module * item_str) :=
  match js_import_kind i with KWildcard => Some (js_import_module i, js_name i) | _ => None end.
Notation empty := (mk_resolved None []).
Definition js_mods (t : tokens js_import) : list (js_module * js_resolved) :=
  group (c := cmp_js_module) empty js_grp (walk_imports t) [].
Definition js_wilds (t : tokens js_import) : list (js_module * item_str) :=
  collect (c := cmp_pair cmp_js_module cmp_item_str) js_wild_key (walk_imports t) [].
Lemma js_collect_eq is : forall a b, fold_left js_collect_one is (a, b) =
  (group (c := cmp_js_module) empty js_grp is a, collect (c := cmp_pair cmp_js_module cmp_item_str) js_wild_key is b).
Proof.
  induction is as [|i is IH]; intros a b; [reflexivity|].
  cbn [fold_left]. unfold js_collect_one at 2. unfold group, collect. cbn [fold_left].
  unfold group_one at 2, js_grp at 2, js_wild_key at 2. unfold js_asks.
  destruct (js_import_kind i); rewrite IH; reflexivity.
Qed.

Definition js_stmts (t : tokens js_import) : list ((js_module * item_str) + (js_module * js_resolved)) :=
  map inl (js_wilds t) ++ map inr (js_mods t).
Definition js_stmt_acts (x : (js_module * item_str) + (js_module * js_resolved)) : list (@hact js_import) :=
  match x with inl k => wild_acts k | inr k => mod_acts k end.
Definition js_stmt_line (x : (js_module * item_str) + (js_module * js_resolved)) : str :=
  match x with inl k => js_wildcard_line lit from k | inr k => js_module_line lit from (module_view k) end.
Definition js_stmt_step (x : (js_module * item_str) + (js_module * js_resolved)) (t : tokens js_import) : tokens js_import :=
  match x with inl k => wild_step k t | inr k => mod_step k t end.
Lemma js_header t : ritems (js_imports relative t mp new) =
  hrun (before_style (map (fun k => (js_stmt_acts k, js_stmt_line k)) (js_stmts t))) [].
Proof.
  unfold js_imports, js_collect. rewrite js_collect_eq.
  change (group empty js_grp (walk_imports t) []) with (js_mods t).
  change (collect js_wild_key (walk_imports t) []) with (js_wilds t).
  assert (H : forall w m, ritems (line (for_each (fun '(name, module) out =>
        out |> push |> st $"import" |> space |> js_bindings module |> space
            |> st $"from" |> space |> js_render_from relative mp name |> st $";")
        m (for_each (fun '(module, name) out =>
        out |> push |> st $"import" |> space |> st $"*" |> space |> st $"as"
            |> space |> istr name |> space |> st $"from" |> space
            |> js_render_from relative mp module |> st $";") w new))) =
    ritems (line (for_each js_stmt_step (map inl w ++ map inr m) new))).
  { intros w m. rewrite for_each_app, !for_each_map. reflexivity. }
  unfold js_stmts. destruct (js_mods t) as [|m ms] eqn:E1, (js_wilds t) as [|k ks] eqn:E2; [reflexivity| | |];
  (rewrite H;
   refine (before_header js_stmt_step js_stmt_acts js_stmt_line _ _ _ new); [|discriminate];
   intros [x|x] u; [apply wild_run|apply mod_run]).
Qed.

Definition js_mem (r : js_resolved) (e : js_element) : Prop := In e (r_set r).
Definition js_adds (i : js_import) (e : js_element) : Prop := js_import_kind i = KNamed /\ e = js_asks i.
Lemma js_mem_step i k f v e : js_grp i = Some (k, f) -> (js_mem (f v) e <-> js_adds i e \/ js_mem v e).
Proof.
  unfold js_grp, js_adds, js_mem. destruct (js_import_kind i); try discriminate; intros [= <- <-]; cbn.
  - rewrite (in_insert element_order). intuition.
  - intuition congruence.
Qed.
Lemma in_js_elements cs m e : let t := build cs in
  (exists r, In (m, r) (js_mods t) /\ In e (r_set r)) <->
  exists i, In i (uses t) /\ js_import_kind i = KNamed /\ js_import_module i = m /\ js_asks i = e.
Proof.
  intros t. unfold js_mods.
  etransitivity; [apply (group_mem module_order empty js_grp js_mem js_adds (fun _ x => x) js_mem_step); constructor|].
  cbn. split.
  - intros [[v [[] _]]|[i [f [H1 [H2 [H3 ->]]]]]]. exists i. split; [apply walk_set; auto|].
    unfold js_grp in H2. rewrite H3 in H2. injection H2 as <- _. auto.
  - intros [i [H1 [H2 [<- <-]]]]. right. eexists i, _. split; [apply walk_set; auto|].
    split; [unfold js_grp; rewrite H2; reflexivity|]. split; auto.
Qed.
Lemma js_mods_sorted t : increasing cmp_js_module (keys (js_mods t)).
Proof. apply (group_increasing module_order). constructor. Qed.
Lemma js_elements_sorted t m r : In (m, r) (js_mods t) -> increasing cmp_js_element (r_set r).
Proof.
  apply (group_inv (c := cmp_js_module) empty js_grp (fun r => increasing cmp_js_element (r_set r)) (walk_imports t)).
  - constructor.
  - intros i k f v _. unfold js_grp. destruct (js_import_kind i); try discriminate; intros [= <- <-]; cbn; auto.
    apply (insert_increasing element_order).
  - intros ? ? [].
Qed.
Lemma js_mods_filled t m r : In (m, r) (js_mods t) -> r_default r <> None \/ r_set r <> [].
Proof.
  apply (group_post (c := cmp_js_module) empty js_grp (fun r => r_default r <> None \/ r_set r <> []) (walk_imports t)).
  - intros i k f v _. unfold js_grp. destruct (js_import_kind i); try discriminate; intros [= <- <-]; cbn.
    + right. intros E. assert (X : In (js_asks i) (set_insert cmp_js_element (js_asks i) (r_set v)))
        by (apply (in_insert element_order); auto). rewrite E in X. destruct X.
    + left. discriminate.
  - intros ? ? [].
Qed.
Lemma js_mods_keys cs m : let t := build cs in
  In m (map fst (js_mods t)) <-> exists i, In i (uses t) /\ js_import_kind i <> KWildcard /\ js_import_module i = m.
Proof.
  intros t. unfold js_mods. change (map fst ?l) with (keys l). rewrite (group_keys module_order). cbn. split.
  - intros [[]|[i [f [H1 H2]]]]. exists i. split; [apply walk_set; auto|]. unfold js_grp in H2.
    destruct (js_import_kind i); try discriminate; injection H2 as <- _; split; auto; discriminate.
  - intros [i [H1 [H2 <-]]]. right. unfold js_grp.
    destruct (js_import_kind i) eqn:E; [| |congruence]; eexists i, _; (split; [apply walk_set; auto|rewrite E; reflexivity]).
Qed.

(** The default import of a module: the last one collected. *)
Definition is_default (m : js_module) (i : js_import) : Prop :=
  js_import_kind i = KDefault /\ js_import_module i = m.
Definition default_of (m : js_module) (mods : list (js_module * js_resolved)) : option item_str :=
  match map_get cmp_js_module m mods with Some r => r_default r | None => None end.
Lemma default_step mods i m : increasing cmp_js_module (keys mods) ->
  default_of m (group_one (c := cmp_js_module) empty js_grp mods i) =
  match js_import_kind i with
  | KDefault => match cmp_js_module m (js_import_module i) with Eq => Some (js_name i) | _ => default_of m mods end
  | _ => default_of m mods
  end.
Proof.
  intros S. unfold default_of, group_one, js_grp.
  destruct (js_import_kind i); [| |reflexivity]; rewrite (get_update module_order) by auto.
  - destruct (cmp_js_module m (js_import_module i)) eqn:E; auto. apply (o_eq module_order) in E; auto. subst.
    destruct (map_get cmp_js_module (js_import_module i) mods); reflexivity.
  - destruct (cmp_js_module m (js_import_module i)); reflexivity.
Qed.
Lemma default_group is : forall mods m, increasing cmp_js_module (keys mods) ->
  default_of m (group (c := cmp_js_module) empty js_grp is mods) =
  fold_left (fun d i => match js_import_kind i with
     | KDefault => match cmp_js_module m (js_import_module i) with Eq => Some (js_name i) | _ => d end
     | _ => d end) is (default_of m mods).
Proof.
  induction is as [|i is IH]; intros mods m S; [reflexivity|].
  change (group empty js_grp (i :: is) mods) with (group (c := cmp_js_module) empty js_grp is (group_one (c := cmp_js_module) empty js_grp mods i)).
  rewrite IH.
  - cbn [fold_left]. rewrite default_step by auto. reflexivity.
  - unfold group_one. destruct (js_grp i) as [[k f]|]; auto. apply (update_increasing module_order); auto.
Qed.
Lemma fold_last m us : fold_left (fun d i => match js_import_kind i with
     | KDefault => match cmp_js_module m (js_import_module i) with Eq => Some (js_name i) | _ => d end
     | _ => d end) (rev us) None =
  match find (fun i => match js_import_kind i with KDefault => match cmp_js_module m (js_import_module i) with Eq => true | _ => false end | _ => false end) us with
  | Some i => Some (js_name i) | None => None end.
Proof.
  induction us as [|i us IH]; [reflexivity|]. cbn [rev find]. rewrite fold_left_app, IH. cbn [fold_left].
  destruct (js_import_kind i); auto. destruct (cmp_js_module m (js_import_module i)); auto.
Qed.
Lemma find_split {A} (p : A -> bool) l : match find p l with
  | Some x => exists a b, l = a ++ x :: b /\ p x = true /\ forall y, In y a -> p y = false
  | None => forall y, In y l -> p y = false end.
Proof.
  induction l as [|x l IH]; cbn; [intros ? []|]. destruct (p x) eqn:E.
  - exists [], l. split; auto. split; auto. intros ? [].
  - destruct (find p l) as [y|].
    + destruct IH as (a & b & -> & H1 & H2). exists (x :: a), b. split; auto. split; auto. intros z [<-|H]; auto.
    + intros y [<-|H]; auto.
Qed.
Lemma js_default cs m : let t := build cs in
  match default_of m (js_mods t) with
  | Some d => first_default (uses t) m d
  | None => forall i, In i (uses t) -> js_import_kind i = KDefault -> js_import_module i <> m
  end.
Proof.
  intros t. unfold js_mods. rewrite default_group by constructor.
  unfold t. rewrite walk_imports_spec by apply build_wf. fold (uses (build cs)).
  change (default_of m []) with (@None item_str).
  rewrite fold_last. pose proof (find_split (fun i => match js_import_kind i with KDefault => match cmp_js_module m (js_import_module i) with Eq => true | _ => false end | _ => false end) (uses (build cs))) as H.
  destruct (find _ (uses (build cs))) as [i|].
  - destruct H as (a & b & E & H1 & H2). exists a, i, b. split; auto.
    destruct (js_import_kind i) eqn:K; try discriminate.
    destruct (cmp_js_module m (js_import_module i)) eqn:C; try discriminate.
    apply (o_eq module_order) in C; auto. repeat split; auto.
    intros j Hj KJ E2. specialize (H2 j Hj). rewrite KJ, E2 in H2.
    rewrite (o_refl module_order) in H2; [discriminate|auto].
  - intros i Hi K E. specialize (H i Hi). cbn in H. rewrite K, E in H.
    rewrite (o_refl module_order) in H; [discriminate|auto].
Qed.
Lemma js_default_in cs m r : let t := build cs in In (m, r) (js_mods t) ->
  match r_default r with
  | Some d => first_default (uses t) m d
  | None => forall i, In i (uses t) -> js_import_kind i = KDefault -> js_import_module i <> m
  end.
Proof.
  intros t H. pose proof (js_default cs m) as D. fold t in D. cbv zeta in D. unfold default_of in D.
  apply (get_in module_order) in H; [|apply js_mods_sorted]. rewrite H in D. exact D.
Qed.
Lemma in_js_wilds cs m n : let t := build cs in
  In (m, n) (js_wilds t) <->
  exists i, In i (uses t) /\ js_import_kind i = KWildcard /\ js_import_module i = m /\ js_name i = n.
Proof.
  intros t. unfold js_wilds. rewrite (in_collect wildcard_order). unfold js_wild_key. split.
  - intros [[]|[i [H E]]]. exists i. split; [apply walk_set; auto|].
    destruct (js_import_kind i); try discriminate. injection E as -> ->. auto.
  - intros [i [H [K [<- <-]]]]. right. exists i. split; [apply walk_set; auto|]. rewrite K. reflexivity.
Qed.

Definition js_named (i : js_import) : Prop := named (js_name i) /\ opt_named (js_alias i).
Lemma js_placed cs body body' : let t := build cs in
  Forall js_named (uses t) ->
  renders L cfg mp tt t body -> carried js_format_item (c_indentation cfg) t body body' ->
  file_renders L cfg mp t
    (placed_file (c_newline cfg)
       (map (js_wildcard_line lit from) (js_wilds t) ++
        map (js_module_line lit from) (map module_view (js_mods t))) body body').
Proof.
  intros t N R CS.
  assert (E : map (js_wildcard_line lit from) (js_wilds t) ++
        map (js_module_line lit from) (map module_view (js_mods t)) = map js_stmt_line (js_stmts t)).
  { unfold js_stmts. rewrite map_app, !map_map. reflexivity. }
  rewrite E. rewrite Forall_forall in N.
  eapply file_before with (acts := js_stmt_acts); try eassumption; try reflexivity; [| |apply js_header].
  2: { intros [|]; discriminate. }
  apply Forall_forall. intros x Hx. unfold js_stmts in Hx. apply in_app_or in Hx as [Hx|Hx].
  - apply in_map_iff in Hx as [[m n] [<- H]]. apply wild_ok. apply in_js_wilds in H as (i & Hi & _ & _ & <-). apply N; auto.
  - apply in_map_iff in Hx as [[m r] [<- H]]. apply mod_ok. cbn [snd]. split; [|split].
    + pose proof (js_default_in cs m r H) as D. cbv zeta in D. fold t in D. destruct (r_default r) as [d|]; [|exact I].
      destruct D as (b & i & a & E1 & _ & _ & <- & _). apply N. rewrite E1. apply in_elt.
    + apply Forall_forall. intros e He. destruct (proj1 (in_js_elements cs m e)) as (i & Hi & _ & _ & <-); [eauto|].
      specialize (N i Hi). destruct N as [N1 N2]. unfold js_asks. destruct (js_alias i); cbn; auto.
    + eapply js_mods_filled; eauto.
Qed.
Lemma js_file cs body : let t := build cs in
  Forall js_named (uses t) ->
  renders L cfg mp tt t body -> (body <> [] -> clean_start js_format_item t) ->
  file_renders L cfg mp t
    (file_text (c_newline cfg)
       (map (js_wildcard_line lit from) (js_wilds t) ++
        map (js_module_line lit from) (map module_view (js_mods t))) body).
Proof.
  intros t N R CS. rewrite <- placed_same. apply js_placed; auto.
  apply (carried_clean L cfg mp tt t body); auto. open_quote.
Qed.
End Js.
