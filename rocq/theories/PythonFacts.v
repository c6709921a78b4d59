(** * Lemmas: the Python header. *)
From Verif Require Import Str Tokens SpecTokens TokensRun Values Fmt SpecFmt RenderFacts LayoutFacts
  HistoryFacts StringFacts OrderFacts SpecOrder SpecFile HeaderFacts FileFacts SpecLang ImportFacts GroupFacts
  LangBase LangPython SpecPython.

(** ** Joined acts *)
Section Joined.
Context {LI : Type} (ops : lang_ops LI) (cfg : config).
Fixpoint join_acts {A} (acts : A -> list (@hact LI)) (sep : list (@hact LI)) (xs : list A) : list hact :=
  match xs with
  | [] => []
  | [x] => acts x
  | x :: xs' => acts x ++ sep ++ join_acts acts sep xs'
  end.
Definition comma_acts : list (@hact LI) := [h_text (Static $","); HReq TSpace].
Lemma join_comma {A} (acts : A -> list (@hact LI)) (txt_of : A -> str) xs :
  Forall (fun x => writes ops cfg (acts x) (txt_of x)) xs -> xs <> [] ->
  writes ops cfg (join_acts acts comma_acts xs) (join $", " (map txt_of xs)).
Proof.
  induction 1 as [|x xs H F IH]; intros NE; [congruence|].
  destruct xs as [|y ys]; [exact H|].
  change (join_acts acts comma_acts (x :: y :: ys)) with
    (acts x ++ [h_text (Static $",")] ++ HReq TSpace :: join_acts acts comma_acts (y :: ys)).
  change (join $", " (map txt_of (x :: y :: ys))) with
    (txt_of x ++ $"," ++ 32%N :: join $", " (map txt_of (y :: ys))).
  apply writes_app; auto. apply writes_space; [|apply IH; discriminate].
  apply (writes_text ops cfg (Static $",")). discriminate.
Qed.
End Joined.

Section Python.
Context (cfg : config).
Notation ops := (ld_ops python_lang tt tt).

Definition py_as_acts (k : py_key) : list (@hact py_import) :=
  h_text (fst k) ::
  match snd k with
  | Some a => [HReq TSpace; h_text (Static $"as"); HReq TSpace; h_text a]
  | None => []
  end.
Lemma py_as_ok k : named (fst k) -> opt_named (snd k) -> writes ops cfg (py_as_acts k) (py_as_text k).
Proof.
  destruct k as [n [a|]]; cbn [fst snd]; intros N1 N2; unfold py_as_acts, py_as_text; cbn [fst snd].
  - eapply writes_eq; [apply w_text_space; [exact N1|]; apply w_text_space; [discriminate|];
      apply writes_text; exact N2|reflexivity].
  - rewrite app_nil_r. apply writes_text. exact N1.
Qed.
Lemma py_as_run k t : ritems (t |> istr (fst k) |> py_as (snd k)) = hrun (py_as_acts k) (ritems t).
Proof. destruct k as [n [a|]], t; reflexivity. Qed.
Lemma py_element_append k t :
  ritems (append (VTokens (py_element k)) t) = hrun (py_as_acts k) (ritems t).
Proof. destruct k as [n [a|]], t; reflexivity. Qed.

Lemma py_joined_run ks : forall t,
  ritems (py_joined (map py_element ks) t) = hrun (join_acts py_as_acts comma_acts ks) (ritems t).
Proof.
  induction ks as [|k ks IH]; intros t; [reflexivity|].
  destruct ks as [|k2 ks]; [apply py_element_append|].
  change (py_joined (map py_element (k :: k2 :: ks)) t) with
    (py_joined (map py_element (k2 :: ks)) (t |> append (VTokens (py_element k)) |> st $"," |> space)).
  change (join_acts py_as_acts comma_acts (k :: k2 :: ks)) with
    (py_as_acts k ++ comma_acts ++ join_acts py_as_acts comma_acts (k2 :: ks)).
  rewrite IH, !hrun_app. f_equal. rewrite <- py_element_append.
  destruct (append (VTokens (py_element k)) t) as [r n]. reflexivity.
Qed.

Definition py_from_acts (m : item_str * list py_key) : list (@hact py_import) :=
  [h_text (Static $"from"); HReq TSpace; h_text (fst m); HReq TSpace; h_text (Static $"import"); HReq TSpace] ++
  join_acts py_as_acts comma_acts (snd m).
Definition py_import_acts (k : py_key) : list (@hact py_import) :=
  h_text (Static $"import") :: HReq TSpace :: py_as_acts k.
Definition py_key_named (k : py_key) : Prop := named (fst k) /\ opt_named (snd k).
Definition py_entry_ok (m : item_str * list py_key) : Prop :=
  named (fst m) /\ snd m <> [] /\ Forall py_key_named (snd m).
Lemma py_from_ok m : py_entry_ok m -> writes ops cfg (py_from_acts m) (py_from_line m).
Proof.
  destruct m as [m ks]. intros [N1 [NE N2]]. cbn [fst snd] in *. unfold py_from_acts, py_from_line. cbn [fst snd].
  eapply writes_eq; [apply w_text_space; [discriminate|]; apply w_text_space; [exact N1|];
    apply w_text_space; [discriminate|]; apply join_comma with (txt_of := py_as_text); [|exact NE]|].
  - eapply Forall_impl; [|exact N2]. intros k [? ?]. apply py_as_ok; auto.
  - cbn [content app]. reflexivity.
Qed.
Lemma py_import_ok k : py_key_named k -> writes ops cfg (py_import_acts k) (py_import_line k).
Proof.
  intros [N1 N2]. unfold py_import_acts, py_import_line.
  eapply writes_eq; [apply w_text_space; [discriminate|]; apply py_as_ok; auto|]. reflexivity.
Qed.
Lemma py_from_run m t : ritems (py_from_stmt m t) = hrun (HReq TPush :: py_from_acts m) (ritems t).
Proof.
  destruct m as [m ks]. unfold py_from_stmt, py_from_acts. cbn [fst snd]. rewrite map_length.
  set (t1 := t |> push |> st $"from" |> space |> istr m |> space |> st $"import" |> space).
  assert (E1 : ritems t1 = hrun ([HReq TPush; h_text (Static $"from"); HReq TSpace; h_text m; HReq TSpace;
    h_text (Static $"import"); HReq TSpace]) (ritems t)).
  { subst t1. destruct t as [r n]. reflexivity. }
  change (HReq TPush :: [h_text (Static $"from"); HReq TSpace; h_text m; HReq TSpace; h_text (Static $"import"); HReq TSpace] ++
    join_acts py_as_acts comma_acts ks) with
    ([HReq TPush; h_text (Static $"from"); HReq TSpace; h_text m; HReq TSpace;
    h_text (Static $"import"); HReq TSpace] ++ join_acts py_as_acts comma_acts ks).
  rewrite hrun_app, <- E1. destruct ks as [|k [|k2 ks]].
  - reflexivity.
  - cbn [length Nat.eqb map]. apply py_element_append.
  - cbn [length Nat.eqb]. apply py_joined_run.
Qed.
Lemma py_import_run k t : ritems (py_import_stmt k t) = hrun (HReq TPush :: py_import_acts k) (ritems t).
Proof. destruct k as [n [a|]], t; reflexivity. Qed.

(** ** Collecting *)
Definition py_from_grp (i : py_import) : option (item_str * (list py_key -> list py_key)) :=
  match i with
  | PyImport (Unqualified m) n a => Some (m, set_insert py_key_cmp (n, a))
  | _ => None
  end.
Definition py_import_key (i : py_import) : option py_key :=
  match i with
  | PyImport (Qualified m a) _ _ => Some (m, a)
  | PyModule m a => Some (m, a)
  | _ => None
  end.
Definition py_froms (t : tokens py_import) : list (item_str * list py_key) :=
  group (c := cmp_item_str) [] py_from_grp (walk_imports t) [].
Definition py_mods (t : tokens py_import) : list py_key :=
  collect (c := py_key_cmp) py_import_key (walk_imports t) [].
Lemma py_key_order : order py_key_cmp.
Proof. apply pair_order_full; auto using item_str_order, option_order_full. Qed.
Lemma py_collect_eq is : forall a b, fold_left py_collect_one is (a, b) =
  (group (c := cmp_item_str) [] py_from_grp is a, collect (c := py_key_cmp) py_import_key is b).
Proof.
  induction is as [|i is IH]; intros a b; [reflexivity|].
  cbn [fold_left]. destruct i as [[m|m ma] n al|m al]; cbn [py_collect_one]; rewrite IH; reflexivity.
Qed.

(** The lines, of either kind, in one list. *)
Definition py_stmts (t : tokens py_import) : list ((item_str * list py_key) + py_key) :=
  map inl (py_froms t) ++ map inr (py_mods t).
Definition py_stmt_acts (x : (item_str * list py_key) + py_key) : list (@hact py_import) :=
  match x with inl m => py_from_acts m | inr k => py_import_acts k end.
Definition py_stmt_line (x : (item_str * list py_key) + py_key) : str :=
  match x with inl m => py_from_line m | inr k => py_import_line k end.
Definition py_stmt_step (x : (item_str * list py_key) + py_key) (t : tokens py_import) : tokens py_import :=
  match x with inl m => py_from_stmt m t | inr k => py_import_stmt k t end.
Lemma for_each_app {LI A} (f : A -> tokens LI -> tokens LI) xs ys t :
  for_each f (xs ++ ys) t = for_each f ys (for_each f xs t).
Proof. unfold for_each. apply fold_left_app. Qed.
Lemma for_each_map {LI A B} (f : B -> tokens LI -> tokens LI) (g : A -> B) xs : forall t,
  for_each f (map g xs) t = for_each (fun x => f (g x)) xs t.
Proof. unfold for_each. induction xs as [|x xs IH]; intros t; cbn; auto. Qed.

Lemma py_header t : ritems (py_imports t new) =
  hrun (before_style (map (fun k => (py_stmt_acts k, py_stmt_line k)) (py_stmts t))) [].
Proof.
  unfold py_imports, py_collect. rewrite py_collect_eq. unfold py_stmts.
  change (group [] py_from_grp (walk_imports t) []) with (py_froms t).
  change (collect py_import_key (walk_imports t) []) with (py_mods t).
  assert (H : ritems (line (for_each py_import_stmt (py_mods t) (for_each py_from_stmt (py_froms t) new))) =
    ritems (line (for_each py_stmt_step (py_stmts t) new))).
  { unfold py_stmts. rewrite for_each_app, !for_each_map. reflexivity. }
  destruct (py_froms t) as [|m ms] eqn:E1, (py_mods t) as [|k ks] eqn:E2; [reflexivity| | |];
  (rewrite H; unfold py_stmts; rewrite E1, E2;
   refine (before_header py_stmt_step py_stmt_acts py_stmt_line _ _ _ new); [|discriminate];
   intros [x|x] u; [apply py_from_run|apply py_import_run]).
Qed.

Definition py_named (i : py_import) : Prop :=
  match i with
  | PyImport (Unqualified m) n a => named m /\ named n /\ opt_named a
  | PyImport (Qualified m ma) _ _ => named m /\ opt_named ma
  | PyModule m a => named m /\ opt_named a
  end.

Definition py_adds (i : py_import) (k : py_key) : Prop :=
  match i with PyImport (Unqualified _) n a => k = (n, a) | _ => False end.
Lemma py_mem_step i k f v e : py_from_grp i = Some (k, f) -> (In e (f v) <-> py_adds i e \/ In e v).
Proof.
  destruct i as [[m|m ma] n al|m al]; cbn; try discriminate. intros [= <- <-].
  rewrite (in_insert py_key_order). tauto.
Qed.
Lemma in_py_froms cs m n a : let t := build cs in
  (exists names, In (m, names) (py_froms t) /\ In (n, a) names) <-> In (PyImport (Unqualified m) n a) (uses t).
Proof.
  intros t. unfold py_froms.
  rewrite (group_mem item_str_order [] py_from_grp (fun v e => In e v) py_adds (fun _ x => x) py_mem_step)
    by constructor.
  cbn. split.
  - intros [[v [[] _]]|[i [f [H1 [H2 H3]]]]]. apply walk_set in H1.
    destruct i as [[m'|m' ma] n' al|m' al]; cbn in *; try discriminate. injection H2 as -> _. injection H3 as -> ->. auto.
  - intros H. right. exists (PyImport (Unqualified m) n a), (set_insert py_key_cmp (n, a)).
    split; [apply walk_set; auto|]. cbn. auto.
Qed.
Lemma py_froms_sorted t : increasing cmp_item_str (keys (py_froms t)).
Proof. apply (group_increasing item_str_order). constructor. Qed.
Lemma py_names_ok t m names : In (m, names) (py_froms t) -> names <> [] /\ increasing py_key_cmp names.
Proof.
  intros H. split.
  - eapply (group_post (c := cmp_item_str) [] py_from_grp (fun v => v <> []) (walk_imports t)); [| |exact H].
    + intros [[m'|m' ma] n' al|m' al] k f v _; cbn; try discriminate. intros [= <- <-] E.
      assert (X : In (n', al) (set_insert py_key_cmp (n', al) v)) by (apply (in_insert py_key_order); auto).
      rewrite E in X. destruct X.
    + intros ? ? [].
  - eapply (group_inv (c := cmp_item_str) [] py_from_grp (fun v => increasing py_key_cmp v) (walk_imports t)); [constructor| | |exact H].
    + intros [[m'|m' ma] n' al|m' al] k f v _; cbn; try discriminate. intros [= <- <-] E.
      apply (insert_increasing py_key_order); auto.
    + intros ? ? [].
Qed.
Lemma in_py_mods cs m a : let t := build cs in
  In (m, a) (py_mods t) <->
  (exists n al, In (PyImport (Qualified m a) n al) (uses t)) \/ In (PyModule m a) (uses t).
Proof.
  intros t. unfold py_mods. rewrite (in_collect py_key_order). split.
  - intros [[]|[i [H E]]]. apply walk_set in H.
    destruct i as [[m'|m' ma] n' al|m' al]; cbn in E; try discriminate; injection E as -> ->; eauto.
  - intros [[n [al H]]|H]; right; eexists; (split; [apply walk_set; exact H|reflexivity]).
Qed.

Lemma py_placed cs body body' : let t := build cs in
  Forall py_named (uses t) ->
  renders python_lang cfg tt tt t body -> carried py_format_item (c_indentation cfg) t body body' ->
  file_renders python_lang cfg tt t
    (placed_file (c_newline cfg) (map py_from_line (py_froms t) ++ map py_import_line (py_mods t)) body body').
Proof.
  intros t N R CS.
  assert (E : map py_from_line (py_froms t) ++ map py_import_line (py_mods t) = map py_stmt_line (py_stmts t)).
  { unfold py_stmts. rewrite map_app, !map_map. reflexivity. }
  rewrite E. rewrite Forall_forall in N.
  eapply file_before with (acts := py_stmt_acts); try eassumption; try reflexivity; try open_quote; [|apply py_header].
  apply Forall_forall. intros x Hx. unfold py_stmts in Hx. apply in_app_or in Hx as [Hx|Hx].
  - apply in_map_iff in Hx as [[m names] [<- H]]. apply py_from_ok.
    destruct (py_names_ok t m names H) as [NE _].
    assert (NK : forall k, In k names -> In (PyImport (Unqualified m) (fst k) (snd k)) (uses t)).
    { intros [n a] Hk. apply in_py_froms. exists names. auto. }
    split; [|split; auto].
    + destruct names as [|k names]; [congruence|]. apply (N _ (NK k (or_introl eq_refl))).
    + apply Forall_forall. intros k Hk. apply (N _ (NK k Hk)).
  - apply in_map_iff in Hx as [[m a] [<- H]]. apply py_import_ok.
    apply in_py_mods in H as [[n [al H]]|H]; apply N in H; exact H.
Qed.
Lemma py_file cs body : let t := build cs in
  Forall py_named (uses t) ->
  renders python_lang cfg tt tt t body -> (body <> [] -> clean_start py_format_item t) ->
  file_renders python_lang cfg tt t
    (file_text (c_newline cfg) (map py_from_line (py_froms t) ++ map py_import_line (py_mods t)) body).
Proof.
  intros t N R CS. rewrite <- placed_same. apply py_placed; auto.
  apply (carried_clean python_lang cfg tt tt t body); auto. open_quote.
Qed.
End Python.
