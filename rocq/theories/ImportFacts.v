(** * Lemmas: the headers of C, Swift, Go and Dart. *)
From Verif Require Import Str StrFacts Tokens SpecTokens TokensRun Values Fmt SpecFmt 
  Order OrderFacts SpecFile SpecLang LangBase HeaderFacts FileFacts TokensFacts
  LangC LangSwift LangGo LangDart.

(** ** Imports of built streams *)

Lemma fold_ext {A B} (f g : A -> B -> A) l : (forall a b, f a b = g a b) ->
  forall a, fold_left f l a = fold_left g l a.
Proof. intros H. induction l; intros a'; cbn; auto. rewrite H. apply IHl. Qed.

Lemma walk_set {LI} (cs : list (call LI)) : same_set (walk_imports (build cs)) (uses (build cs)).
Proof.
  intros x. rewrite walk_imports_spec by apply build_wf. unfold uses. rewrite <- in_rev. tauto.
Qed.

Section Package.
Context {LI : Type} (ops : lang_ops LI) (cfg : config).
(** A package line, then imports each followed by a push. *)
Lemma package_hist hp sp ls : writes ops cfg hp sp ->
  Forall (fun p => writes ops cfg (fst p) (snd p)) ls ->
  Forall (good_hact ops cfg) ((hp ++ [HReq TLine]) ++ after_style ls) /\
  hist ops cfg true 0%Z nothing ((hp ++ [HReq TLine]) ++ after_style ls) =
    (join_lines (package_then (Some sp) (map snd ls)), (false, 0%Z, mk_pending 2 false 0 0)).
Proof.
  intros [G H] F. destruct (after_style_hist ops cfg ls F) as [G2 _]. split.
  - rewrite !Forall_app. repeat split; auto. constructor; auto. discriminate.
  - rewrite !hist_app, H. cbn [hist request nothing p_indent p_space p_frozen Z.add]. 
    unfold gap_text at 1. cbn [nothing p_space p_frozen Nat.add p_indent].
    replace (pad (c_indentation cfg) 0) with (@nil sym) by (unfold pad; destruct (c_indentation cfg); reflexivity).
    cbn [blanks repeat app]. rewrite app_nil_r.
    destruct ls as [|p ls].
    + cbn [after_style hist map package_then join_lines]. rewrite app_nil_r. reflexivity.
    + unfold after_style. change (0 + 0)%nat with 0. rewrite hist_app, hist_each_push by (auto; discriminate).
      cbn [hist request p_space p_frozen p_indent]. rewrite app_nil_r.
      unfold gap_text. cbn [Nat.eqb p_breaks p_space blanks repeat].
      replace (pad (c_indentation cfg) 0) with (@nil sym) by (unfold pad; destruct (c_indentation cfg); reflexivity).
      cbn [package_then map join_lines app]. reflexivity.
Qed.
End Package.

Ltac open_quote := let e := fresh in intros e; destruct e; discriminate.
Ltac quote_ok := split; reflexivity.
(** A line of texts. *)
Ltac line_ok :=
  eapply writes_eq;
  [ repeat first [ apply w_quoted_space; [quote_ok|] | eapply w_text_space; [first [assumption|discriminate]|]
                 | eapply writes_text; first [assumption|discriminate]
                 | apply w_quoted; quote_ok | apply w_quoted_cons; [quote_ok|]
                 | eapply w_text; [first [assumption|discriminate]|] ]
  | cbn [content]; rewrite <- ?app_assoc; reflexivity ].

(** ** Separators *)

Lemma starts_with_spec p : forall s, starts_with p s = true <-> exists r, s = p ++ r.
Proof.
  induction p as [|c p IH]; intros s; cbn; [split; eauto|].
  destruct s as [|d s].
  - split; [discriminate|]. intros [r E]. discriminate.
  - rewrite andb_true_iff, N.eqb_eq, IH. split.
    + intros [-> [r ->]]. exists r. auto.
    + intros [r E]. injection E as -> ->. eauto.
Qed.
Lemma contains_spec sep s : contains sep s = true <-> exists p r, s = p ++ sep ++ r.
Proof.
  induction s as [|c s IH]; cbn [contains]; rewrite orb_true_iff, starts_with_spec.
  - split; [intros [[r E]|]; [exists [], r; auto|discriminate]|].
    intros [p [r E]]. destruct p; [|discriminate]. left. exists r; auto.
  - rewrite IH. split.
    + intros [[r E]|[p [r ->]]]; [exists [], r; auto|exists (c :: p), r; auto].
    + intros [[|d p] [r E]]; [left; exists r; auto|]. injection E as -> ->. right. exists p, r. auto.
Qed.
Lemma after_last_sep_spec sep s : sep <> [] -> last_segment sep s (after_last_sep sep s).
Proof.
  intros NE. induction s as [|c s IH].
  - cbn. right. split; auto. intros p' e' E. destruct p', sep; try discriminate. congruence.
  - cbn [after_last_sep]. destruct (contains sep (c :: s)) eqn:C1.
    + destruct (contains sep s) eqn:C2.
      * destruct IH as [[p [E M]]|[_ N]].
        -- left. exists (c :: p). split; [cbn; f_equal; exact E|]. intros p' e' E'.
           destruct p' as [|d p'].
           ++ apply (f_equal (@length N)) in E'. apply (f_equal (@length N)) in E.
              cbn in E'. rewrite !app_length in *. destruct sep; [congruence|cbn in *; lia].
           ++ injection E' as -> E'. eauto.
        -- exfalso. apply contains_spec in C2 as [p [r E]]. apply (N p r E).
      * apply contains_spec in C1 as [[|d p] [r E]].
        -- cbn in E. rewrite E. assert (SK : skipn (length sep) (sep ++ r) = r).
           { clear. induction sep; cbn; auto. }
           rewrite SK. left. exists []. split; auto. intros p' e' E'.
           destruct p' as [|d p'].
           ++ cbn in E'. apply app_inv_head in E'. subst. auto.
           ++ exfalso. rewrite <- E in E'. injection E' as -> E'.
              assert (contains sep s = true) by (apply contains_spec; eauto). congruence.
        -- exfalso. injection E as -> E. assert (contains sep s = true) by (apply contains_spec; eauto). congruence.
    + right. split; auto. intros p' e' E.
      assert (contains sep (c :: s) = true) by (apply contains_spec; eauto). congruence.
Qed.

(** ** C *)

Section C.
Context (cfg : config).
Notation ops := (ld_ops c_lang tt tt).
Definition c_acts (k : item_str * bool) : list (@hact c_import) :=
  let '(file, sys) := k in
  if sys : bool then [h_text (Static $"#include"); HReq TSpace; h_text (Static $"<"); h_text file; h_text (Static $">")]
  else [h_text (Static $"#include"); HReq TSpace; h_quoted file].
Lemma c_acts_ok k : named (fst k) -> writes ops cfg (c_acts k) (c_line (quoted_text ops) k).
Proof. destruct k as [file [|]]; intros N; unfold c_acts, c_line; line_ok. Qed.
Definition c_keys (t : tokens c_import) : list (item_str * bool) :=
  collect (c := c_key_cmp) (fun i => Some (c_path i, c_system i)) (walk_imports t) [].

Lemma c_key_order : order c_key_cmp.
Proof. apply pair_order_full; auto using item_str_order, bool_order. Qed.
Lemma c_header t : ritems (c_imports t new) =
  hrun (after_style (map (fun k => (c_acts k, c_line (quoted_text ops) k)) (c_keys t))) [].
Proof.
  unfold c_imports. change (fold_left _ (walk_imports t) []) with (c_keys t).
  destruct (c_keys t) as [|k ks]; [reflexivity|].
  apply (after_header _ c_acts (c_line (quoted_text ops)) (k :: ks)); [|discriminate].
  intros [file [|]] [r n]; reflexivity.
Qed.
Lemma c_placed cs body body' : let t := build cs in
  Forall (fun i => named (c_path i)) (uses t) ->
  renders c_lang cfg tt tt t body -> carried c_format_item (c_indentation cfg) t body body' ->
  file_renders c_lang cfg tt t (placed_file (c_newline cfg) (map (c_line (quoted_text ops)) (c_keys t)) body body').
Proof.
  intros t N R CS. eapply file_after; try eassumption; try reflexivity; try open_quote; [|apply c_header].
  apply Forall_forall. intros k Hk. apply c_acts_ok.
  apply (in_collect c_key_order) in Hk as [[]|[i [Hi E]]].
  injection E as <-. cbn. rewrite Forall_forall in N. apply N, walk_set, Hi.
Qed.
Lemma c_file cs body : let t := build cs in
  Forall (fun i => named (c_path i)) (uses t) ->
  renders c_lang cfg tt tt t body -> (body <> [] -> clean_start c_format_item t) ->
  file_renders c_lang cfg tt t (file_text (c_newline cfg) (map (c_line (quoted_text ops)) (c_keys t)) body).
Proof.
  intros t N R CS. rewrite <- placed_same. apply c_placed; auto.
  apply (carried_clean c_lang cfg tt tt t body); auto. open_quote.
Qed.
End C.

(** ** Swift *)

Section Swift.
Context (cfg : config).
Notation ops := (ld_ops swift_lang tt tt).
Definition swift_acts (m : item_str) : list (@hact swift_import) :=
  [h_text (Static $"import"); HReq TSpace; h_text m].
Lemma swift_acts_ok m : named m -> writes ops cfg (swift_acts m) (swift_line m).
Proof. intros N. unfold swift_acts, swift_line. line_ok. Qed.
Definition swift_keys (t : tokens swift_import) : list item_str :=
  collect (c := cmp_item_str) (fun i => Some (sw_module i)) (walk_imports t) [].
Lemma swift_header t : ritems (swift_imports t new) =
  match swift_keys t with
  | [] => hrun [HReq TLine] []
  | ks => hrun (before_style (map (fun k => (swift_acts k, swift_line k)) ks)) []
  end.
Proof.
  unfold swift_imports. change (fold_left _ (walk_imports t) []) with (swift_keys t).
  destruct (swift_keys t) as [|k ks]; [reflexivity|].
  apply (before_header _ swift_acts swift_line (k :: ks)); [|discriminate].
  intros m [r n]; reflexivity.
Qed.
Lemma swift_placed cs body body' : let t := build cs in
  Forall (fun i => named (sw_module i)) (uses t) ->
  renders swift_lang cfg tt tt t body -> carried swift_format_item (c_indentation cfg) t body body' ->
  file_renders swift_lang cfg tt t (placed_file (c_newline cfg) (map swift_line (swift_keys t)) body body').
Proof.
  intros t N R CS. pose proof (swift_header t) as H. destruct (swift_keys t) as [|k ks] eqn:E.
  - eapply (file_of_header swift_lang cfg tt tt t (swift_imports t new) [HReq TLine] []); try eassumption; try reflexivity;
      try open_quote; [repeat constructor; discriminate|]. eexists. split; [reflexivity|]. right. reflexivity.
  - rewrite <- E in H. rewrite <- E.
    eapply file_before with (acts := swift_acts); try eassumption; try reflexivity; try open_quote.
    rewrite E.
    apply Forall_forall. intros m Hk. apply swift_acts_ok. rewrite <- E in Hk.
    apply (in_collect item_str_order) in Hk as [[]|[i [Hi E1]]].
    injection E1 as <-. cbn. rewrite Forall_forall in N. apply N, walk_set, Hi.
Qed.
Lemma swift_file cs body : let t := build cs in
  Forall (fun i => named (sw_module i)) (uses t) ->
  renders swift_lang cfg tt tt t body -> (body <> [] -> clean_start swift_format_item t) ->
  file_renders swift_lang cfg tt t (file_text (c_newline cfg) (map swift_line (swift_keys t)) body).
Proof.
  intros t N R CS. rewrite <- placed_same. apply swift_placed; auto.
  apply (carried_clean swift_lang cfg tt tt t body); auto. open_quote.
Qed.
End Swift.

(** ** Go *)

Section Go.
Context (cfg : config).
Notation ops := (ld_ops go_lang None tt).
Definition go_acts (m : item_str) : list (@hact go_import) :=
  [h_text (Static $"import"); HReq TSpace; h_quoted m].
Definition go_package_acts (m : item_str) : list (@hact go_import) :=
  [h_text (Static $"package"); HReq TSpace; h_text m].
Lemma go_acts_ok m : named m -> writes ops cfg (go_acts m) (go_line (quoted_text ops) m).
Proof. intros N. unfold go_acts, go_line. line_ok. Qed.
Lemma go_package_ok m : named m -> writes ops cfg (go_package_acts m) (go_package_line m).
Proof. intros N. unfold go_package_acts, go_package_line. line_ok. Qed.
Definition go_keys (t : tokens go_import) : list item_str :=
  collect (c := cmp_item_str) (fun i => Some (go_module i)) (walk_imports t) [].
Notation styled t := (after_style (map (fun k => (go_acts k, go_line (quoted_text ops) k)) (go_keys t))).
Lemma go_imports_acts t out : ritems (go_imports t out) = hrun (styled t) (ritems out).
Proof.
  unfold go_imports. change (fold_left _ (walk_imports t) []) with (go_keys t).
  destruct (go_keys t) as [|k ks]; [reflexivity|].
  apply (after_header _ go_acts (go_line (quoted_text ops)) (k :: ks)); [|discriminate].
  intros m [r n]; reflexivity.
Qed.
Lemma go_placed p cs body body' : let t := build cs in
  opt_named p -> Forall (fun i => named (go_module i)) (uses t) ->
  renders go_lang cfg p tt t body -> carried go_format_item (c_indentation cfg) t body body' ->
  file_renders go_lang cfg p t (placed_file (c_newline cfg)
    (package_then (option_map go_package_line p) (map (go_line (quoted_text ops)) (go_keys t))) body body').
Proof.
  intros t NP N R CS.
  assert (W : Forall (fun k => writes ops cfg (go_acts k) (go_line (quoted_text ops) k)) (go_keys t)).
  { apply Forall_forall. intros m Hk. apply go_acts_ok.
    apply (in_collect item_str_order) in Hk as [[]|[i [Hi E1]]].
    injection E1 as <-. cbn. rewrite Forall_forall in N. apply N, walk_set, Hi. }
  destruct p as [p|].
  - destruct (package_hist ops cfg (go_package_acts p) (go_package_line p) _ (go_package_ok p NP)
        (keyed_writes ops cfg go_acts (go_line (quoted_text ops)) _ W)) as [G H].
    rewrite keyed_lines in H.
    eapply (file_of_header go_lang cfg (Some p) tt t _ ((go_package_acts p ++ [HReq TLine]) ++ styled t));
      try eassumption; try reflexivity; try open_quote.
    + unfold go_header. rewrite go_imports_acts, hrun_app. reflexivity.
    + exists (mk_pending 2 false 0 0). split; [|auto]. cbn [option_map].
      match goal with |- context [package_then _ ?l] => generalize l end. intros [|]; reflexivity.
  - eapply file_after; try eassumption; try reflexivity; try open_quote. apply go_imports_acts.
Qed.
Lemma go_file p cs body : let t := build cs in
  opt_named p -> Forall (fun i => named (go_module i)) (uses t) ->
  renders go_lang cfg p tt t body -> (body <> [] -> clean_start go_format_item t) ->
  file_renders go_lang cfg p t (file_text (c_newline cfg)
    (package_then (option_map go_package_line p) (map (go_line (quoted_text ops)) (go_keys t))) body).
Proof.
  intros t NP N R CS. rewrite <- placed_same. apply go_placed; auto.
  apply (carried_clean go_lang cfg p tt t body); auto. open_quote.
Qed.
End Go.

(** ** Dart *)

Section Dart.
Context (cfg : config).
Notation ops := (ld_ops dart_lang tt tt).
Definition dart_acts (k : item_str * option item_str) : list (@hact dart_import) :=
  let '(path, alias) := k in
  match alias with
  | Some a => [h_text (Static $"import"); HReq TSpace; h_quoted path; HReq TSpace; h_text (Static $"as");
               HReq TSpace; h_text a; h_text (Static $";")]
  | None => [h_text (Static $"import"); HReq TSpace; h_quoted path; h_text (Static $";")]
  end.
Lemma dart_acts_ok k : opt_named (snd k) -> writes ops cfg (dart_acts k) (dart_line (quoted_text ops) k).
Proof. destruct k as [p [a|]]; intros N; unfold dart_acts, dart_line; line_ok. Qed.
Definition dart_key (i : dart_import) : option (item_str * option item_str) :=
  if str_eqb (content (da_path i)) dart_core then None else Some (da_path i, da_alias i).
Definition dart_keys (t : tokens dart_import) : list (item_str * option item_str) :=
  collect (c := dart_key_cmp) dart_key (walk_imports t) [].
Lemma dart_key_order : order dart_key_cmp.
Proof. apply pair_order_full; auto using item_str_order, option_order_full. Qed.
Lemma dart_keys_model t : fold_left (fun s i =>
        if str_eqb (content (da_path i)) dart_core then s
        else set_insert dart_key_cmp (da_path i, da_alias i) s)
      (walk_imports t) [] = dart_keys t.
Proof.
  unfold dart_keys, collect. apply fold_ext. intros s i. unfold dart_key.
  destruct (str_eqb (content (da_path i)) dart_core); reflexivity.
Qed.
Lemma dart_header t : ritems (dart_imports t new) =
  hrun (after_style (map (fun k => (dart_acts k, dart_line (quoted_text ops) k)) (dart_keys t))) [].
Proof.
  unfold dart_imports. rewrite dart_keys_model.
  destruct (dart_keys t) as [|k ks]; [reflexivity|].
  apply (after_header _ dart_acts (dart_line (quoted_text ops)) (k :: ks)); [|discriminate].
  intros [p [a|]] [r n]; reflexivity.
Qed.
Lemma dart_placed cs body body' : let t := build cs in
  Forall (fun i => opt_named (da_alias i)) (uses t) ->
  renders dart_lang cfg tt tt t body -> carried dart_format_item (c_indentation cfg) t body body' ->
  file_renders dart_lang cfg tt t
    (placed_file (c_newline cfg) (map (dart_line (quoted_text ops)) (dart_keys t)) body body').
Proof.
  intros t N R CS. eapply file_after; try eassumption; try reflexivity; try open_quote; [|apply dart_header].
  apply Forall_forall. intros k Hk. apply dart_acts_ok.
  apply (in_collect dart_key_order) in Hk as [[]|[i [Hi E]]].
  unfold dart_key in E. destruct (str_eqb _ _); [discriminate|]. injection E as <-. cbn.
  rewrite Forall_forall in N. apply N, walk_set, Hi.
Qed.
Lemma dart_file cs body : let t := build cs in
  Forall (fun i => opt_named (da_alias i)) (uses t) ->
  renders dart_lang cfg tt tt t body -> (body <> [] -> clean_start dart_format_item t) ->
  file_renders dart_lang cfg tt t
    (file_text (c_newline cfg) (map (dart_line (quoted_text ops)) (dart_keys t)) body).
Proof.
  intros t N R CS. rewrite <- placed_same. apply dart_placed; auto.
  apply (carried_clean dart_lang cfg tt tt t body); auto. open_quote.
Qed.
End Dart.
