(** * Lemmas: Java files. *)
From Verif Require Import Str StrFacts Tokens SpecTokens TokensRun Values Fmt SpecFmt RenderFacts
  Order OrderFacts SpecFile SpecLang LangBase HeaderFacts FileFacts TokensFacts ImportFacts PickFacts LangJava.

(** ** Rendering of a single reference *)
Lemma only_renders {LI C F} (L : lang_def LI C F) cfg c f (l : LI) :
  renders L cfg c f (only l) (concat (l_format_item (ld_ops L c f) l)).
Proof.
  unfold renders, format. change (items (only l)) with [Lang 0 l].
  pose proof (format_plain (ld_ops L c f) cfg string_writer [Lang 0 l] (formatter_new []) eq_refl) as H.
  cbn [atoms flat_map atoms_of] in H. rewrite app_nil_r in H. rewrite H.
  destruct (run_string_new cfg (map AText (l_format_item (ld_ops L c f) l)) []) as [st' [E1 E2]].
  unfold outcome. unfold str in *. rewrite E1. cbn [fst snd]. rewrite E2. cbn [app].
  change (map AText ?x) with (texts x). rewrite StringFacts.layout_texts, text_chars. reflexivity.
Qed.

Section Java.
Context (cfg : config) (package : option item_str).

Notation key := (item_str * item_str)%type.
Definition java_elig (k : key) : bool :=
  negb (str_eqb (content (fst k)) java_lang_package) &&
  negb (opt_str_eqb (Some (content (fst k))) (opt_text package)).
Definition java_nm (k : key) : str := content (snd k).
Definition java_val (k : key) : str := content (fst k).

Lemma opt_str_eqb_eq a b : opt_str_eqb a b = true <-> a = b.
Proof.
  destruct a, b; cbn; try (split; congruence). rewrite str_eqb_eq. split; congruence.
Qed.
Lemma java_elig_own k : java_elig k = true <-> ~ java_own package (fst k).
Proof.
  unfold java_elig, java_own. rewrite andb_true_iff, !negb_true_iff, <- !not_true_iff_false, str_eqb_eq, opt_str_eqb_eq.
  unfold opt_text, java_lang_package. intuition congruence.
Qed.

Definition java_keys (t : tokens java_import) : list key :=
  collect (c := java_key_cmp) (fun i => Some (ja_package i, ja_name i)) (walk_imports t) [].
Definition java_chosen (t : tokens java_import) : list key := picks java_elig java_nm [] (java_keys t).
Lemma java_key_order : order java_key_cmp.
Proof. apply pair_order_full; auto using item_str_order. Qed.

Definition java_stmt (k : key) (out : tokens java_import) : tokens java_import :=
  out |> append (VTokens (java_import_stmt (fst k) (snd k))) |> push.

Lemma java_steps ks : forall seen out (m : java_imported), (forall n, map_get str_cmp n m = None <-> ~ In n seen) ->
  increasing str_cmp (OrderFacts.keys m) ->
  fold_left (java_step (opt_text package)) ks (out, m) =
  (for_each java_stmt (picks java_elig java_nm seen ks) out,
   pick_map java_nm java_val (picks java_elig java_nm seen ks) m).
Proof.
  induction ks as [|[p n] ks IH]; intros seen out m H S; cbn [fold_left picks]; [reflexivity|].
  unfold java_step at 2. change (java_nm (p, n)) with (content n).
  change (java_elig (p, n)) with (negb (str_eqb (content p) java_lang_package) &&
    negb (opt_str_eqb (Some (content p)) (opt_text package))).
  destruct (map_get str_cmp (content n) m) as [v|] eqn:G.
  - assert (M : existsb (str_eqb (content n)) seen = true).
    { apply mem_true. destruct (in_dec (list_eq_dec N.eq_dec) (content n) seen) as [|NI]; auto.
      apply H in NI. congruence. }
    rewrite M, andb_false_r. apply IH; auto.
  - assert (M : existsb (str_eqb (content n)) seen = false) by (apply mem_false, H; auto).
    rewrite M.
    destruct (str_eqb (content p) java_lang_package); [cbn [negb andb]; apply IH; auto|].
    destruct (opt_str_eqb (Some (content p)) (opt_text package)); [cbn [negb andb]; apply IH; auto|].
    cbn [negb andb for_each fold_left pick_map]. rewrite IH with (seen := content n :: seen).
    + reflexivity.
    + intros x. unfold map_insert. rewrite (get_update str_order) by auto.
      destruct (str_cmp x (content n)) eqn:E.
      * apply str_cmp_eq in E. subst. cbn. split; [discriminate|tauto].
      * rewrite H. cbn. split; [|tauto]. intros A [B|B]; auto. subst. rewrite str_cmp_refl in E. discriminate.
      * rewrite H. cbn. split; [|tauto]. intros A [B|B]; auto. subst. rewrite str_cmp_refl in E. discriminate.
    + apply (update_increasing str_order); auto.
Qed.

Definition java_format (t : tokens java_import) : java_imported :=
  pick_map java_nm java_val (java_chosen t) [].

(** The header. *)
Notation ops f := (ld_ops java_lang package f).
Definition java_acts (k : key) : list (@hact java_import) :=
  [h_text (Static $"import"); HReq TSpace; h_text (fst k); h_text (Box java_sep); h_text (snd k); h_text (Static $";")].
Definition java_package_acts (p : item_str) : list (@hact java_import) :=
  [h_text (Static $"package"); HReq TSpace; h_text p; h_text (Static $";")].
Lemma java_acts_ok f k : named (fst k) -> named (snd k) -> writes (ops f) cfg (java_acts k) (java_line k).
Proof. intros N1 N2. unfold java_acts, java_line. line_ok. Qed.
Lemma java_package_ok f p : named p -> writes (ops f) cfg (java_package_acts p) (java_package_line p).
Proof. intros N. unfold java_package_acts, java_package_line. line_ok. Qed.

Lemma java_stmt_acts k t : ritems (java_stmt k t) = hrun (java_acts k ++ [HReq TPush]) (ritems t).
Proof. destruct k, t; reflexivity. Qed.

Lemma java_header_acts t :
  exists hs, (hs = [] \/ hs = [HReq TLine]) /\
  java_header package t =
    (fst (java_header package t), java_format t) /\
  ritems (fst (java_header package t)) =
    hrun (match package with
          | Some p => (java_package_acts p ++ [HReq TLine])
          | None => []
          end ++
          match java_chosen t with
          | [] => hs
          | ks => after_style (map (fun k => (java_acts k, java_line k)) ks)
          end) [].
Proof.
  unfold java_header. set (out := match package with Some p => _ | None => new end).
  assert (EO : ritems out = hrun (match package with
          | Some p => (java_package_acts p ++ [HReq TLine])
          | None => []
          end) []) by (unfold out; destruct package; reflexivity).
  unfold java_imports. change (fold_left _ (walk_imports t) []) with (java_keys t).
  unfold java_format, java_chosen. destruct (java_keys t) as [|k ks] eqn:E.
  - exists []. split; [auto|]. split; [reflexivity|]. cbn [fst picks]. rewrite app_nil_r. exact EO.
  - exists [HReq TLine]. split; [auto|].
    rewrite (java_steps (k :: ks) [] out []) by (try constructor; cbn; tauto).
    split; [reflexivity|]. cbn [fst]. rewrite hrun_app, <- EO.
    destruct (picks java_elig java_nm [] (k :: ks)) as [|k' ks'].
    + cbn [for_each fold_left]. apply line_hrun.
    + apply (after_header _ java_acts java_line (k' :: ks')); [|discriminate]. apply java_stmt_acts.
Qed.

Lemma in_java_keys cs k : let t := build cs in
  In k (java_keys t) <-> exists i, In i (uses t) /\ k = (ja_package i, ja_name i).
Proof.
  intros t. unfold java_keys. rewrite (in_collect java_key_order). split.
  - intros [[]|[i [H E]]]. injection E as <-. exists i. split; auto. apply walk_set; auto.
  - intros [i [H ->]]. right. exists i. split; auto. apply walk_set; auto.
Qed.
Lemma java_keys_increasing t : increasing java_key_cmp (java_keys t).
Proof. apply (collect_increasing java_key_order). constructor. Qed.

Lemma java_chosen_spec cs k : let t := build cs in
  In k (java_chosen t) <->
  first_named (fun a b => java_key_cmp a b = Lt) (fun k => ~ java_own package (fst k)) (fun k => content (snd k))
    (fun k => exists i, In i (uses t) /\ k = (ja_package i, ja_name i)) k.
Proof.
  intros t. unfold java_chosen. rewrite (picks_spec java_key_order) by apply java_keys_increasing.
  unfold first_named. cbn [In]. rewrite java_elig_own.
  assert (H := in_java_keys cs). cbn zeta in H. fold t in H. rewrite H. unfold java_nm. split.
  - intros [_ [H1 [H2 H3]]]. split; [auto|]. split; [auto|]. intros k' K1 K2 K3.
    apply H3; auto; [apply H; auto|apply java_elig_own; auto].
  - intros [H1 [H2 H3]]. split; [auto|]. split; [auto|]. split; [auto|]. intros k' K1 K2 K3.
    apply H3; auto; [apply H; auto|apply java_elig_own; auto].
Qed.

Lemma java_format_get t n v :
  map_get str_cmp n (java_format t) = Some v <->
  exists k, In k (java_chosen t) /\ content (snd k) = n /\ content (fst k) = v.
Proof.
  unfold java_format. rewrite pick_map_get.
  - split; [intros [|H]; [discriminate|exact H]|auto].
  - apply picks_names.
  - constructor.
  - reflexivity.
Qed.

Lemma java_placed cs body body' : let t := build cs in
  opt_named package -> Forall (fun i => named (ja_package i) /\ named (ja_name i)) (uses t) ->
  renders java_lang cfg package (java_format t) t body ->
  carried (l_format_item (ops (java_format t))) (c_indentation cfg) t body body' ->
  file_renders java_lang cfg package t (placed_file (c_newline cfg)
    (package_then (option_map java_package_line package) (map java_line (java_chosen t))) body body').
Proof.
  intros t NP N R CS. set (f := java_format t) in *.
  assert (W : Forall (fun k => writes (ops f) cfg (java_acts k) (java_line k)) (java_chosen t)).
  { apply Forall_forall. intros k Hk. 
    assert (Hk' : In k (java_keys t)) by (apply (picks_in _ _ _ _ _ Hk)).
    apply in_java_keys in Hk' as [i [Hi ->]]. rewrite Forall_forall in N. destruct (N i Hi).
    apply java_acts_ok; auto. }
  destruct (java_header_acts t) as (hs & HS & E1 & E2).
  assert (EF : ld_format_file java_lang t package = [(fst (java_header package t), f); (t, f)]).
  { cbn. rewrite E1. reflexivity. }
  assert (P : package = None \/ exists p, package = Some p) by (destruct package; eauto).
  destruct P as [EP|[p EP]].
  - replace (package_then (option_map java_package_line package) (map java_line (java_chosen t)))
      with (map java_line (java_chosen t)) by (rewrite EP; reflexivity).
    assert (E2' : ritems (fst (java_header package t)) =
      hrun (match java_chosen t with [] => hs | ks => after_style (map (fun k => (java_acts k, java_line k)) ks) end) []).
    { rewrite E2, EP. reflexivity. }
    destruct (java_chosen t) as [|k ks] eqn:EC.
    + assert (exists q, hist (ops f) cfg true 0%Z nothing hs = ([], (true, 0%Z, q)) /\
         Forall (good_hact (ops f) cfg) hs /\
         (q = nothing \/ q = mk_pending 2 false 0 0)) as (q & H & G & HQ).
      { destruct HS as [-> | ->]; eexists; (split; [reflexivity|]); (split; [repeat constructor; discriminate|auto]). }
      eapply (file_of_header java_lang cfg package f t); try eassumption; try open_quote.
      eexists. split; [reflexivity|]. intuition.
    + rewrite <- EC in *. eapply file_after; try eassumption; try open_quote.
  - assert (NP' : named p) by (rewrite EP in NP; exact NP).
    assert (E2' : ritems (fst (java_header package t)) =
      hrun ((java_package_acts p ++ [HReq TLine]) ++
            match java_chosen t with [] => hs | ks => after_style (map (fun k => (java_acts k, java_line k)) ks) end) []).
    { rewrite E2, EP. reflexivity. }
    replace (option_map java_package_line package) with (Some (java_package_line p)) by (rewrite EP; reflexivity).
    destruct (java_chosen t) as [|k ks] eqn:EC.
    + assert (PH : Forall (good_hact (ops f) cfg) ((java_package_acts p ++ [HReq TLine]) ++ hs) /\
        hist (ops f) cfg true 0%Z nothing ((java_package_acts p ++ [HReq TLine]) ++ hs) =
        (join_lines [java_package_line p], (false, 0%Z, mk_pending 2 false 0 0))).
      { destruct (package_hist (ops f) cfg (java_package_acts p) (java_package_line p) [] (java_package_ok f p NP')) as [G H]; [constructor|].
        cbn [after_style map package_then] in G, H. rewrite app_nil_r in G, H.
        destruct HS as [-> | ->].
        - rewrite app_nil_r. auto.
        - split; [apply Forall_app; split; auto; repeat constructor; discriminate|].
          rewrite hist_app, H. cbn. rewrite app_nil_r. reflexivity. }
      destruct PH as [G H].
      eapply (file_of_header java_lang cfg package f t); try eassumption; try open_quote.
      eexists. split; [reflexivity|]. auto.
    + rewrite <- EC in *.
      assert (E3 : ritems (fst (java_header package t)) = hrun ((java_package_acts p ++ [HReq TLine]) ++
         after_style (map (fun k => (java_acts k, java_line k)) (java_chosen t))) []).
      { rewrite E2', EC. reflexivity. }
      destruct (package_hist (ops f) cfg (java_package_acts p) (java_package_line p) _ (java_package_ok f p NP')
        (keyed_writes (ops f) cfg java_acts java_line _ W)) as [G H].
      rewrite keyed_lines in H.
      eapply (file_of_header java_lang cfg package f t); try eassumption; try open_quote.
      eexists. split; [|right; reflexivity]. rewrite EC. reflexivity.
Qed.
Lemma java_file cs body : let t := build cs in
  opt_named package -> Forall (fun i => named (ja_package i) /\ named (ja_name i)) (uses t) ->
  renders java_lang cfg package (java_format t) t body ->
  (body <> [] -> clean_start (l_format_item (ops (java_format t))) t) ->
  file_renders java_lang cfg package t (file_text (c_newline cfg)
    (package_then (option_map java_package_line package) (map java_line (java_chosen t))) body).
Proof.
  intros t NP N R CS. rewrite <- placed_same. apply java_placed; auto.
  apply (carried_clean java_lang cfg package (java_format t) t body); auto. open_quote.
Qed.

(** References. *)
Notation java_written := (SpecLang.java_written package).
Lemma java_reference cs i : let t := build cs in In i (uses t) ->
  exists w, java_written (java_chosen t) i w /\
    renders java_lang cfg package (java_format t) (only i) (written_text w).
Proof.
  intros t Hi. pose proof (only_renders java_lang cfg package (java_format t) i) as R.
  assert (K : java_elig (ja_package i, ja_name i) = true \/ java_own package (ja_package i)).
  { destruct (java_elig (ja_package i, ja_name i)) eqn:E; auto. right.
    unfold java_elig in E. cbn [fst] in E. unfold java_own.
    apply andb_false_iff in E as [E|E]; apply negb_false_iff in E.
    - left. apply str_eqb_eq in E. exact E.
    - right. apply opt_str_eqb_eq in E. auto. }
  cbn [ld_ops java_lang lang_ops_of l_format_item] in R. unfold java_format_item in R.
  destruct (str_eqb (content (ja_package i)) java_lang_package) eqn:E1.
  { exists (Simple (content (ja_name i))). cbn in R. rewrite app_nil_r in R. split; [|exact R].
    left. split; auto. left. left. apply str_eqb_eq in E1. auto. }
  destruct (opt_str_eqb (opt_text package) (Some (content (ja_package i)))) eqn:E2.
  { rewrite !andb_false_r in R. exists (Simple (content (ja_name i))). cbn in R. rewrite app_nil_r in R.
    split; [|exact R]. left. split; auto. left. right. apply opt_str_eqb_eq in E2. auto. }
  destruct K as [K|K].
  2:{ exfalso. destruct K as [K|K].
      - apply str_eqb_eq in K. unfold java_lang_package in E1. congruence.
      - apply opt_str_eqb_eq in K. unfold opt_text in E2. congruence. }
  destruct (opt_str_eqb (map_get str_cmp (content (ja_name i)) (java_format t)) (Some (content (ja_package i)))) eqn:E3.
  - exists (Simple (content (ja_name i))). cbn in R. rewrite app_nil_r in R. split; [|exact R].
    left. split; auto. right. apply opt_str_eqb_eq in E3. apply java_format_get in E3 as [k [H1 [H2 H3]]].
    exists k. auto.
  - exists (Dotted (content (ja_package i)) (content (ja_name i))). cbn in R. rewrite app_nil_r in R.
    split; [|exact R]. right. split; auto. split; [apply (java_elig_own (ja_package i, ja_name i)) in K; exact K|].
    destruct (picks_complete java_elig java_nm (java_keys t) [] (ja_package i, ja_name i)) as [k [H1 H2]]; auto.
    { apply in_java_keys. eauto. }
    exists k. split; [exact H1|]. split; [|exact H2].
    intros E4. rewrite <- not_true_iff_false in E3. apply E3, opt_str_eqb_eq, java_format_get.
    exists k. auto.
Qed.
End Java.
