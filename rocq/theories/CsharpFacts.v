(** * Lemmas: C# files. *)
From Verif Require Import Str StrFacts Tokens SpecTokens TokensRun Values Fmt SpecFmt RenderFacts
  Order OrderFacts SpecFile SpecLang LangBase HeaderFacts FileFacts TokensFacts ImportFacts PickFacts
  JavaFacts LangCsharp.

Section Csharp.
Context (cfg : config) (namespace : option item_str).

Notation key := (str * str)%type.
Definition cs_elig (k : key) : bool := negb (opt_str_eqb (Some (fst k)) (opt_text namespace)).
Definition cs_elig_own k : cs_elig k = true <-> option_map content namespace <> Some (fst k).
Proof.
  unfold cs_elig. rewrite negb_true_iff, <- not_true_iff_false, opt_str_eqb_eq. unfold opt_text. intuition congruence.
Qed.
Definition cs_keys (t : tokens cs_import) : list key :=
  collect (c := cs_key_cmp) (fun i => Some (content (cs_namespace i), content (cs_name i))) (walk_imports t) [].
Definition cs_chosen (t : tokens cs_import) : list key := picks cs_elig snd [] (cs_keys t).
Definition cs_usings (t : tokens cs_import) : list str :=
  map fst (picks (fun _ => true) (@fst str str) [] (cs_chosen t)).
Lemma cs_key_order : order cs_key_cmp.
Proof. apply pair_order_full; auto using str_order. Qed.

Definition cs_stmt (ns : str) (out : tokens cs_import) : tokens cs_import :=
  out |> st $"using" |> space |> txt ns |> st $";" |> push.

Lemma cs_steps ks : forall seen done out (m : cs_imported) (imp : list str),
  (forall n, map_get str_cmp n m = None <-> ~ In n seen) ->
  increasing str_cmp (OrderFacts.keys m) ->
  (forall n, set_mem str_cmp n imp = existsb (str_eqb n) done) ->
  fst (fold_left (cs_step (opt_text namespace)) ks (out, m, imp)) =
  (for_each cs_stmt (map fst (picks (fun _ => true) (@fst str str) done (picks cs_elig snd seen ks))) out,
   pick_map snd fst (picks cs_elig snd seen ks) m).
Proof.
  induction ks as [|[p n] ks IH]; intros seen done out m imp H S D; cbn [fold_left picks]; [reflexivity|].
  unfold cs_step at 2. cbn [snd].
  change (cs_elig (p, n)) with (negb (opt_str_eqb (Some p) (opt_text namespace))).
  destruct (opt_str_eqb (Some p) (opt_text namespace)); [cbn [negb andb]; apply IH; auto|].
  destruct (map_get str_cmp n m) as [v|] eqn:G.
  - assert (M : existsb (str_eqb n) seen = true).
    { apply mem_true. destruct (in_dec (list_eq_dec N.eq_dec) n seen) as [|NI]; auto.
      apply H in NI. congruence. }
    rewrite M, andb_false_r. apply IH; auto.
  - assert (M : existsb (str_eqb n) seen = false) by (apply mem_false, H; auto).
    rewrite M. cbn [negb andb]. cbn [picks map fst]. rewrite (D p).
    assert (H' : forall x, map_get str_cmp x (map_insert str_cmp n p m) = None <-> ~ In x (n :: seen)).
    { intros x. unfold map_insert. rewrite (get_update str_order) by auto.
      destruct (str_cmp x n) eqn:E.
      * apply str_cmp_eq in E. subst. cbn. split; [discriminate|tauto].
      * rewrite H. cbn. split; [|tauto]. intros A [B|B]; auto. subst. rewrite str_cmp_refl in E. discriminate.
      * rewrite H. cbn. split; [|tauto]. intros A [B|B]; auto. subst. rewrite str_cmp_refl in E. discriminate. }
    assert (S' : increasing str_cmp (OrderFacts.keys (map_insert str_cmp n p m))).
    { apply (update_increasing str_order); auto. }
    destruct (existsb (str_eqb p) done) eqn:DP; cbn [negb andb].
    + rewrite (IH (n :: seen) done); auto.
    + rewrite (IH (n :: seen) (p :: done)); auto.
      intros x. cbn [existsb]. rewrite <- D. apply eq_true_iff_eq.
      rewrite orb_true_iff, !(set_mem_in str_order), (in_insert str_order), str_eqb_eq. tauto.
Qed.

Definition cs_format (t : tokens cs_import) : cs_imported := pick_map snd fst (cs_chosen t) [].

Notation ops f := (ld_ops csharp_lang namespace f).
Definition cs_acts (ns : str) : list (@hact cs_import) :=
  [h_text (Static $"using"); HReq TSpace; h_text (Box ns); h_text (Static $";")].
Lemma cs_acts_ok f ns : ns <> [] -> writes (ops f) cfg (cs_acts ns) (cs_line ns).
Proof.
  intros N. unfold cs_acts, cs_line.
  assert (content (Box ns) <> []) by auto. line_ok.
Qed.

(** The [using] part of the file. *)
Lemma cs_imports_eq t : cs_imports t namespace new [] =
  match cs_keys t with
  | [] => (new, [])
  | ks => let r := fold_left (cs_step (opt_text namespace)) ks (new, [], []) in
          (line (fst (fst r)), snd (fst r))
  end.
Proof.
  unfold cs_imports. change (fold_left _ (walk_imports t) []) with (cs_keys t).
  destruct (cs_keys t) as [|k ks]; [reflexivity|].
  cbv zeta.
  assert (G : forall r : tokens cs_import * cs_imported * list str,
    (let '(out, names, _) := r in (line out, names)) = (line (fst (fst r)), snd (fst r))).
  { intros [[a b] c]. reflexivity. }
  apply (G (fold_left (cs_step (opt_text namespace)) (k :: ks) (new, [], []))).
Qed.
Lemma cs_imports_acts t : exists hs, (hs = [] \/ hs = [HReq TLine]) /\
  cs_imports t namespace new [] = (fst (cs_imports t namespace new []), cs_format t) /\
  ritems (fst (cs_imports t namespace new [])) =
    hrun (match cs_usings t with
          | [] => hs
          | ks => after_style (map (fun k => (cs_acts k, cs_line k)) ks)
          end) [].
Proof.
  rewrite cs_imports_eq.
  unfold cs_format, cs_usings, cs_chosen. destruct (cs_keys t) as [|k ks] eqn:E.
  - exists []. split; [auto|]. split; reflexivity.
  - exists [HReq TLine]. split; [auto|]. cbv zeta.
    assert (S : fst (fold_left (cs_step (opt_text namespace)) (k :: ks) (new, [], [])) =
      (for_each cs_stmt (map fst (picks (fun _ => true) (@fst str str) [] (picks cs_elig snd [] (k :: ks)))) new,
       pick_map snd fst (picks cs_elig snd [] (k :: ks)) [])).
    { apply (cs_steps (k :: ks) [] [] new [] []); try constructor; cbn; tauto. }
    match type of S with fst ?x = _ => match goal with |- context [line (fst (fst ?y))] => 
      change y with x; generalize dependent x end end.
    intros r ->.
    split; [reflexivity|]. cbn [fst].
    destruct (map fst (picks (fun _ => true) (@fst str str) [] (picks cs_elig snd [] (k :: ks)))) as [|k' ks'].
    + reflexivity.
    + apply (after_header _ cs_acts cs_line (k' :: ks')); [|discriminate]. intros ns [rr nn]; reflexivity.
Qed.

Lemma in_cs_keys cs k : let t := build cs in
  In k (cs_keys t) <-> exists i, In i (uses t) /\ k = (content (cs_namespace i), content (cs_name i)).
Proof.
  intros t. unfold cs_keys. rewrite (in_collect cs_key_order). split.
  - intros [[]|[i [H E]]]. injection E as <-. exists i. split; auto. apply walk_set; auto.
  - intros [i [H ->]]. right. exists i. split; auto. apply walk_set; auto.
Qed.
Lemma cs_keys_increasing t : increasing cs_key_cmp (cs_keys t).
Proof. apply (collect_increasing cs_key_order). constructor. Qed.

Lemma cs_chosen_spec cs k : let t := build cs in
  In k (cs_chosen t) <->
  first_named (fun a b => cs_key_cmp a b = Lt) (fun k => option_map content namespace <> Some (fst k)) snd
    (fun k => exists i, In i (uses t) /\ k = (content (cs_namespace i), content (cs_name i))) k.
Proof.
  intros t. unfold cs_chosen. rewrite (picks_spec cs_key_order) by apply cs_keys_increasing.
  unfold first_named. cbn [In]. rewrite cs_elig_own.
  assert (H := in_cs_keys cs). cbn zeta in H. fold t in H. rewrite H. split.
  - intros [_ [H1 [H2 H3]]]. split; [auto|]. split; [auto|]. intros k' K1 K2 K3.
    apply H3; auto; [apply H; auto|apply cs_elig_own; auto].
  - intros [H1 [H2 H3]]. split; [auto|]. split; [auto|]. split; [auto|]. intros k' K1 K2 K3.
    apply H3; auto; [apply H; auto|apply cs_elig_own; auto].
Qed.
Lemma in_cs_usings t n : In n (cs_usings t) <-> exists k, In k (cs_chosen t) /\ fst k = n.
Proof.
  unfold cs_usings. rewrite in_map_iff. split.
  - intros [k [<- H]]. exists k. split; auto. apply (picks_in _ _ _ _ _ H).
  - intros [k [H <-]]. destruct (picks_complete (fun _ => true) (@fst str str) (cs_chosen t) [] k) as [k' [H1 H2]]; auto.
    exists k'. auto.
Qed.
Lemma cs_usings_increasing t : increasing str_cmp (cs_usings t).
Proof.
  unfold cs_usings.
  assert (S : increasing cs_key_cmp (picks (fun _ => true) (@fst str str) [] (cs_chosen t))).
  { apply picks_increasing, picks_increasing, cs_keys_increasing. }
  pose proof (picks_names (fun _ => true) (@fst str str) (cs_chosen t) []) as ND.
  unfold increasing in *. induction S as [|k ks S IH F]; cbn in *; constructor.
  - apply IH. inversion ND; auto.
  - apply Forall_forall. intros x Hx. inversion ND as [|? ? N1 N2]; subst.
    assert (x <> fst k) by (intros ->; auto).
    apply in_map_iff in Hx as [k' [<- Hk]]. rewrite Forall_forall in F. specialize (F k' Hk).
    unfold cs_key_cmp, cmp_pair, then_cmp in F. destruct (str_cmp (fst k) (fst k')) eqn:E; auto.
    apply str_cmp_eq in E. congruence.
Qed.
Lemma cs_format_get t n v :
  map_get str_cmp n (cs_format t) = Some v <-> In (v, n) (cs_chosen t).
Proof.
  unfold cs_format. rewrite pick_map_get.
  - split; [intros [|[[a b] [H [<- <-]]]]; [discriminate|exact H]|].
    intros H. right. exists (v, n). auto.
  - apply picks_names.
  - constructor.
  - reflexivity.
Qed.

Lemma cs_usings_named cs f : let t := build cs in
  Forall (fun i => named (cs_namespace i)) (uses t) ->
  Forall (fun k => writes (ops f) cfg (cs_acts k) (cs_line k)) (cs_usings t).
Proof.
  intros t N. apply Forall_forall. intros n Hn. apply in_cs_usings in Hn as [k [Hk <-]].
  apply picks_in, in_cs_keys in Hk as [i [Hi ->]]. rewrite Forall_forall in N.
  apply cs_acts_ok. apply N; auto.
Qed.

(** Without a namespace. *)
Lemma cs_placed cs body body' : let t := build cs in
  namespace = None -> Forall (fun i => named (cs_namespace i)) (uses t) ->
  renders csharp_lang cfg namespace (cs_format t) t body ->
  carried (l_format_item (ops (cs_format t))) (c_indentation cfg) t body body' ->
  file_renders csharp_lang cfg namespace t
    (placed_file (c_newline cfg) (map cs_line (cs_usings t)) body body').
Proof.
  intros t EN N R CS. set (f := cs_format t) in *.
  pose proof (cs_usings_named cs f N) as W. fold t in W.
  destruct (cs_imports_acts t) as (hs & HS & E1 & E2).
  assert (EF : ld_format_file csharp_lang t namespace = [(fst (cs_imports t namespace new []), f); (t, f)]).
  { cbn [ld_format_file csharp_lang]. unfold cs_format_file. rewrite E1. fold f.
    generalize (fst (cs_imports t namespace new [])) f. intros ht ff. rewrite EN. reflexivity. }
  destruct (cs_usings t) as [|k ks] eqn:EC.
  + assert (exists q, hist (ops f) cfg true 0%Z nothing hs = ([], (true, 0%Z, q)) /\
       Forall (good_hact (ops f) cfg) hs /\
       (q = nothing \/ q = mk_pending 2 false 0 0)) as (q & H & G & HQ).
    { destruct HS as [-> | ->]; eexists; (split; [reflexivity|]); (split; [repeat constructor; discriminate|auto]). }
    eapply (file_of_header csharp_lang cfg namespace f t); try eassumption; try open_quote.
    eexists. split; [reflexivity|]. intuition.
  + rewrite <- EC in *. eapply file_after; try eassumption; try open_quote.
Qed.
Lemma cs_file cs body : let t := build cs in
  namespace = None -> Forall (fun i => named (cs_namespace i)) (uses t) ->
  renders csharp_lang cfg namespace (cs_format t) t body ->
  (body <> [] -> clean_start (l_format_item (ops (cs_format t))) t) ->
  file_renders csharp_lang cfg namespace t
    (file_text (c_newline cfg) (map cs_line (cs_usings t)) body).
Proof.
  intros t EN N R CS. rewrite <- placed_same. apply cs_placed; auto.
  apply (carried_clean csharp_lang cfg namespace (cs_format t) t body); auto. open_quote.
Qed.

(** References. *)
Notation cs_written := (SpecLang.cs_written namespace).
Lemma cs_reference cs i : let t := build cs in In i (uses t) ->
  exists w, cs_written (cs_chosen t) i w /\
    renders csharp_lang cfg namespace (cs_format t) (only i) (written_text w).
Proof.
  intros t Hi. pose proof (only_renders csharp_lang cfg namespace (cs_format t) i) as R.
  cbn [ld_ops csharp_lang lang_ops_of l_format_item] in R. unfold cs_format_item in R.
  set (ns := content (cs_namespace i)) in *. set (n := content (cs_name i)) in *.
  unfold cs_written. fold ns n.
  destruct (cs_qualified i) eqn:Q.
  { exists (Dotted ns n). cbn in R. rewrite app_nil_r in R. split; [|exact R]. auto. }
  cbn [orb] in R. unfold cs_is_qualified in R.
  destruct (opt_str_eqb (opt_text namespace) (Some ns)) eqn:E.
  { exists (Simple n). cbn in R. rewrite app_nil_r in R. split; [|exact R]. right. split; auto. split; auto.
    left. apply opt_str_eqb_eq in E. exact E. }
  assert (NE : option_map content namespace <> Some ns).
  { intros H. apply opt_str_eqb_eq in H. unfold opt_text in E. congruence. }
  destruct (picks_complete cs_elig (@snd str str) (cs_keys t) [] (ns, n)) as [[m n'] [H1 H2]]; auto.
  { apply in_cs_keys. exists i; auto. }
  { apply cs_elig_own. exact NE. }
  cbn in H2. subst n'. fold (cs_chosen t) in H1. pose proof H1 as G. apply cs_format_get in G. rewrite G in R.
  destruct (str_eqb m ns) eqn:EM; cbn [negb] in R.
  - apply str_eqb_eq in EM. subst m. exists (Simple n). cbn in R. rewrite app_nil_r in R. split; [|exact R].
    right. auto.
  - exists (Dotted ns n). cbn in R. rewrite app_nil_r in R. split; [|exact R]. left. split; auto. right.
    split; auto. exists m. split; auto. intros ->. rewrite <- not_true_iff_false in EM. apply EM, str_eqb_eq. reflexivity.
Qed.
End Csharp.
