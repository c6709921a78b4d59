(** * Properties of generated files: Nix (C42).

    Vocabulary: [SpecFile.v] (files, bodies, sorting), [SpecNix.v] (sections and
    names of the language); model: [LangNix.v]. *)
From Verif Require Import Str StrFacts Tokens SpecTokens TokensRun Values Fmt SpecFmt RenderFacts WriterFacts
  StringFacts OutputFacts HistoryFacts Order OrderFacts SpecFile SpecLang HeaderFacts FileFacts ImportFacts JavaFacts BlockFacts GroupFacts
  LangBase LangNix SpecNix NixFacts NixHeader NixFile PropsLang PropsNames PropsJs.

Lemma choose_docs cfg scoped vars :
  Forall (fun k => exists doc, value_doc cfg scoped k doc) vars -> exists docs, Forall2 (value_doc cfg scoped) vars docs.
Proof.
  induction 1 as [|k vars [d H] F [docs IH]]; [exists []; constructor|]. exists (d :: docs). constructor; auto.
Qed.
Lemma vars_docs cfg scoped cs : let t := build cs in nix_values_ok cfg scoped t ->
  exists docs, Forall2 (value_doc cfg scoped) (nix_vars t) docs.
Proof.
  intros t V. apply choose_docs, Forall_forall. intros [n [v l]] H. apply in_nix_vars in H.
  destruct (V n v l H) as [doc D]. exists doc. exact D.
Qed.
Lemma value_lines cfg scoped k doc : value_doc cfg scoped k doc ->
  renders nix_lang cfg scoped tt (var_stream k) (stack (c_newline cfg) (snd (var_lines cfg scoped (k, doc)))).
Proof. intros (EI & OK & V & LB). apply doc_renders; auto. Qed.

Section Facts.
Context (cfg : config) (scoped : bool) (cs : list (call nix_import)).
Notation t := (build cs).
Lemma nix_ready : Forall nix_made (uses t) -> (forall i, nix_used t i -> nix_named i) ->
  Forall (fun a => a <> []) (nix_args t) /\ Forall named (nix_ws t) /\
  Forall (fun k => named (fst k) /\ named (snd k)) (nix_inherits t) /\
  Forall (fun k => named (fst k)) (nix_vars t) /\ Forall made_var (nix_vars t).
Proof.
  intros M N. repeat split; apply Forall_forall.
  - intros a H. apply in_nix_args in H as [i [U H]]; auto. apply N in U. destruct i; cbn in *; subst; auto; try tauto.
    all: destruct U as (_ & _ & U); intros ->; auto.
  - intros w H. apply in_nix_ws in H as [n H]. apply (N (NWith w n)). constructor. exact H.
  - intros [p n] H. apply in_nix_inherits in H; auto. apply N in H. cbn in *. tauto.
  - intros [n [v l]] H. apply in_nix_vars in H. apply (N (NVariable n v l)). constructor. exact H.
  - intros [n [v l]] H. apply in_nix_vars in H. rewrite Forall_forall in M. apply (M _ H).
Qed.

(** Names bound by [let], with what they come from. *)
Definition let_entries (docs : list (list (node nix_import))) : list (nix_import * nix_object) :=
  map (fun k => (NInherit (fst k) (snd k), OInherit (content (fst k)) (content (snd k)))) (nix_inherits t) ++
  map (fun p => (NVariable (fst (fst p)) (fst (snd (fst p))) (snd (snd (fst p))), OVariable (snd (var_lines cfg scoped p))))
    (combine (nix_vars t) docs).
Lemma entries_lets docs : nix_lets (nix_inherits t) (map (var_lines cfg scoped) (combine (nix_vars t) docs)) =
  map (fun e => (nix_name (fst e), snd e)) (let_entries docs).
Proof.
  unfold nix_lets, let_entries. rewrite map_app, !map_map. reflexivity.
Qed.
Lemma combine_fst {A B} (la : list A) (lb : list B) (R : A -> B -> Prop) : Forall2 R la lb -> map fst (combine la lb) = la.
Proof. induction 1; cbn; congruence. Qed.
Lemma entries_nodup docs : Forall2 (value_doc cfg scoped) (nix_vars t) docs -> NoDup (map fst (let_entries docs)).
Proof.
  intros F. unfold let_entries. rewrite map_app, !map_map. cbn [fst].
  apply nodup_app.
  - apply nodup_map; [intros [] [] [=]; congruence|]. eapply increasing_nodup; [apply inherit_order|].
    apply (inserts_increasing _ inherit_order).
  - rewrite <- (map_map fst (fun k : nix_var => NVariable (fst k) (fst (snd k)) (snd (snd k)))).
    rewrite (combine_fst _ _ _ F). apply nodup_map; [intros [? []] [? []] [=]; cbn in *; congruence|].
    eapply increasing_nodup; [apply nix_var_order|]. apply (inserts_increasing _ nix_var_order).
  - intros x H X. apply in_map_iff in H as [k [<- _]]. apply in_map_iff in X as [k' [[=] _]].
Qed.
Lemma entries_used docs i o : Forall nix_made (uses t) -> In (i, o) (let_entries docs) -> nix_used t i /\ nix_binder i.
Proof.
  intros M H. unfold let_entries in H. apply in_app_or in H as [H|H]; apply in_map_iff in H as [k [[= <- <-] H]].
  - split; [|exact I]. destruct k. apply in_nix_inherits; auto.
  - split; [|exact I]. destruct k as [[n [v l]] d]. apply in_combine_l in H. apply in_nix_vars in H. constructor. exact H.
Qed.
Lemma used_entries docs i : Forall nix_made (uses t) -> Forall2 (value_doc cfg scoped) (nix_vars t) docs ->
  nix_used t i -> nix_binder i -> exists o, In (i, o) (let_entries docs) /\ nix_means cfg scoped i o.
Proof.
  intros M F U B. unfold let_entries. destruct i as [|p n|n v l|]; try destruct B.
  - eexists. split; [|reflexivity]. apply in_or_app. left. apply in_map_iff. exists (p, n). split; [reflexivity|].
    apply in_nix_inherits; auto.
  - assert (H : In (n, (v, l)) (nix_vars t)).
    { apply in_nix_vars. inversion U; subst; auto. tauto. }
    assert (exists doc, In ((n, (v, l)), doc) (combine (nix_vars t) docs) /\ value_doc cfg scoped (n, (v, l)) doc) as (doc & X & D).
    { clear - F H. induction F as [|a b la lb R F IH]; [destruct H|]. destruct H as [->|H].
      - exists b. split; [left; reflexivity|auto].
      - destruct (IH H) as (d & X & D). exists d. split; [right|]; auto. }
    eexists. split.
    + apply in_or_app. right. apply in_map_iff. eexists. split; [|exact X]. reflexivity.
    + eexists. split; [reflexivity|]. apply (value_lines cfg scoped (n, (v, l)) doc D).
Qed.
Lemma entry_once docs i o : NoDup (map fst (let_entries docs)) -> In (i, o) (let_entries docs) ->
  (forall j o', In (j, o') (let_entries docs) -> nix_name j = nix_name i -> j = i) ->
  bound_once (nix_lets (nix_inherits t) (map (var_lines cfg scoped) (combine (nix_vars t) docs))) (nix_name i) o.
Proof.
  intros ND H U. rewrite entries_lets. destruct (in_split _ _ H) as (a & b & E).
  exists (map (fun e => (nix_name (fst e), snd e)) a), (map (fun e => (nix_name (fst e), snd e)) b).
  rewrite E. split; [rewrite map_app; reflexivity|].
  intros o' X. rewrite <- map_app in X. apply in_map_iff in X as [[j oj] [[= EN EO] X]]. cbn in EN.
  assert (J : j = i).
  { apply (U j oj); auto. rewrite E. apply in_app_or in X as [X|X]; apply in_or_app; [left|right; right]; auto. }
  subst j. rewrite E, map_app in ND. cbn in ND. apply NoDup_remove_2 in ND. apply ND. rewrite <- map_app.
  apply in_map_iff. exists (i, oj). auto.
Qed.
Lemma not_let docs name : Forall nix_made (uses t) -> (forall j, nix_used t j -> nix_binder j -> nix_name j <> name) ->
  forall o, ~ In (name, o) (nix_lets (nix_inherits t) (map (var_lines cfg scoped) (combine (nix_vars t) docs))).
Proof.
  intros M H o X. rewrite entries_lets in X. apply in_map_iff in X as [[j oj] [[= EN EO] X]].
  apply entries_used in X as [X1 X2]; auto. eapply H; eauto.
Qed.
End Facts.

Lemma var_lines_docs cfg scoped cs docs (t := build cs) : Forall2 (value_doc cfg scoped) (nix_vars t) docs ->
  Forall2 (fun k ls => fst ls = fst k /\ renders nix_lang cfg scoped tt (nix_value (fst (snd k)) (snd (snd k))) (stack (c_newline cfg) (snd ls)) /\
     exists doc, nix_value_ok cfg scoped (nix_value (fst (snd k)) (snd (snd k))) doc /\
       (Forall (fun a => no_newline (a_text a)) (doc_atoms (ld_ops nix_lang scoped tt) cfg doc) -> Forall no_newline (snd ls)))
    (nix_vars t) (map (var_lines cfg scoped) (combine (nix_vars t) docs)).
Proof.
  induction 1 as [|k doc vars docs D F IH]; cbn [combine map]; constructor; auto.
  split; [reflexivity|]. split; [apply (value_lines cfg scoped k doc D)|].
  exists doc. split; [exact D|]. apply layout_lines_no_newline.
Qed.

Lemma variable_stream (v : tokens nix_import) : nix_value (items v) (last_lang_item v) = v.
Proof. unfold nix_value, items. rewrite rev_involutive. destruct v. reflexivity. Qed.
Lemma Forall2_in_r {A B} (R : A -> B -> Prop) la lb : Forall2 R la lb -> forall b, In b lb -> exists a, In a la /\ R a b.
Proof. induction 1 as [|x y la lb H F IH]; intros b K; [destruct K|]. destruct K as [<-|K]; [exists x; split; [left; reflexivity|exact H]|]. destruct (IH b K) as (a & P & Q). exists a. split; [right; exact P|exact Q]. Qed.
Lemma Forall2_in_l {A B} (R : A -> B -> Prop) la lb : Forall2 R la lb -> forall a, In a la -> exists b, In b lb /\ R a b.
Proof. induction 1 as [|x y la lb H F IH]; intros b K; [destruct K|]. destruct K as [<-|K]; [exists y; split; [left; reflexivity|exact H]|]. destruct (IH b K) as (a & P & Q). exists a. split; [right; exact P|exact Q]. Qed.
(** The header is the arguments, the [with]s and the [let] block; they list
    exactly what is used. *)
Theorem C42_nix_header : forall cfg scoped cs body, let t := build cs in
  Forall nix_made (uses t) -> (forall i, nix_used t i -> nix_named i) -> nix_values_ok cfg scoped t ->
  body_of nix_lang cfg scoped tt t body ->
  exists arguments withs inherits (variables : list nix_var) lines,
    sorted text_before arguments /\
    (forall a, In a arguments <-> exists i, nix_used t i /\ nix_needs_argument i a) /\
    sorted name_before withs /\
    (forall w, In w withs <-> exists n, In (NWith w n) (uses t)) /\
    sorted (pair_before name_before name_before) inherits /\
    (forall p n, In (p, n) inherits <-> nix_used t (NInherit p n)) /\
    sorted (pair_before name_before (fun a b => a <> b)) variables /\
    (forall n v l, In (n, (v, l)) variables <-> In (NVariable n v l) (uses t)) /\
    Forall2 (fun k ls => fst ls = fst k /\
       let value := nix_value (fst (snd k)) (snd (snd k)) in
       renders nix_lang cfg scoped tt value (stack (c_newline cfg) (snd ls)) /\
       exists doc, nix_value_ok cfg scoped value doc /\
         (Forall (fun a => no_newline (a_text a)) (doc_atoms (ld_ops nix_lang scoped tt) cfg doc) ->
          Forall no_newline (snd ls))) variables lines /\
    let p := indent_text (c_indentation cfg) 1 in
    file_renders nix_lang cfg scoped t
      (file_text (c_newline cfg)
         (sections [if scoped then [] else nix_arguments_section p arguments;
                    nix_withs_section withs;
                    nix_let_section p inherits lines]) body).
Proof.
  intros cfg scoped cs body t M N V [R CS]. destruct (vars_docs cfg scoped cs V) as [docs D].
  exists (nix_args t), (nix_ws t), (nix_inherits t), (nix_vars t), (map (var_lines cfg scoped) (combine (nix_vars t) docs)).
  split; [eapply increasing_sorted; [intros a b; apply text_before_iff|apply (inserts_increasing _ str_order)]|].
  split; [intros a; apply in_nix_args; auto|].
  split; [eapply increasing_sorted; [apply name_before_cmp|apply (inserts_increasing _ item_str_order)]|].
  split; [intros w; apply in_nix_ws|].
  split; [eapply increasing_sorted; [|apply (inserts_increasing _ inherit_order)]|].
  { intros a b. apply (pair_before_cmp cmp_item_str cmp_item_str); auto using name_before_cmp, item_str_order. }
  split; [intros p n; apply in_nix_inherits; auto|].
  split; [eapply increasing_sorted; [|apply (inserts_increasing _ nix_var_order)]|].
  { intros a b H. eapply (pair_before_cmp cmp_item_str (cmp_pair (cmp_list (cmp_item cmp_nix)) cmp_nat)); eauto using name_before_cmp, item_str_order.
    cbn. intros x y H' ->. pose proof nix_var_order as O.
    pose proof (proj2 (proj1 O (Static [], y) (Static [], y) I I) eq_refl) as X.
    change (cmp_pair (cmp_list (cmp_item cmp_nix)) cmp_nat y y = Eq) in X. congruence. }
  split; [intros n v l; apply in_nix_vars|].
  split; [apply var_lines_docs; exact D|].
  destruct (nix_ready cs M N) as (A1 & A2 & A3 & A4 & A5).
  apply nix_file; auto.
Qed.
Print Assumptions C42_nix_header.

(** The same for variables made by [variable] from streams: the header declares
    what the streams of the variables need, and the variables with these streams
    as their values. *)
Theorem C42_variables : forall cfg scoped cs body, let t := build cs in
  Forall nix_from_streams (uses t) -> (forall i, nix_used t i -> nix_named i) -> nix_values_ok cfg scoped t ->
  body_of nix_lang cfg scoped tt t body ->
  exists arguments withs inherits (variables : list (item_str * list str)),
    sorted text_before arguments /\
    (forall a, In a arguments <->
       (exists i, In i (uses t) /\ nix_needs_argument i a) \/
       exists n vs i, In (nix_variable n (build vs)) (uses t) /\ In i (uses (build vs)) /\ nix_needs_argument i a /\ forall p m, i <> NWith p m) /\
    sorted (pair_before name_before name_before) inherits /\
    (forall p n, In (p, n) inherits <->
       In (NInherit p n) (uses t) \/
       exists m vs, In (nix_variable m (build vs)) (uses t) /\ In (NInherit p n) (uses (build vs))) /\
    (forall n ls, In (n, ls) variables -> exists vs, In (nix_variable n (build vs)) (uses t) /\
       renders nix_lang cfg scoped tt (build vs) (stack (c_newline cfg) ls)) /\
    (forall n vs, In (nix_variable n (build vs)) (uses t) -> exists ls, In (n, ls) variables /\
       renders nix_lang cfg scoped tt (build vs) (stack (c_newline cfg) ls)) /\
    let p := indent_text (c_indentation cfg) 1 in
    file_renders nix_lang cfg scoped t
      (file_text (c_newline cfg)
         (sections [if scoped then [] else nix_arguments_section p arguments;
                    nix_withs_section withs;
                    nix_let_section p inherits variables]) body).
Proof.
  intros cfg scoped cs body t A N V B.
  assert (M : Forall nix_made (uses t)).
  { eapply Forall_impl; [|exact A]. intros i H. destruct i; try exact I. destruct H as (vs & E). injection E as -> ->. exists vs. apply variable_stream. }
  assert (UV : forall n v l, In (NVariable n v l) (uses t) -> exists vs, NVariable n v l = nix_variable n (build vs) /\ nix_value v l = build vs).
  { intros n v l H. rewrite Forall_forall in A. destruct (A _ H) as (vs & E). injection E as -> ->. exists vs. split; [reflexivity|apply variable_stream]. }
  destruct (C42_nix_header cfg scoped cs body M N V B) as (arguments & withs & inherits & variables & lines & S1 & I1 & _ & _ & S3 & I3 & _ & I4 & F & R).
  exists arguments, withs, inherits, lines. split; [exact S1|]. split; [|split; [exact S3|split; [|split; [|split; [|exact R]]]]].
  - intros a. rewrite I1. split.
    + intros (i & [j U|n v l j U W D] & H); [left; eauto|]. right. destruct (UV _ _ _ U) as (vs & E & E'). rewrite E in U. rewrite E' in W. exists n, vs, j. repeat (split; [assumption|]). intros p m ->. exact D.
    + intros [(i & U & H)|(n & vs & i & U & W & H & D)]; [exists i; split; [constructor; exact U|exact H]|]. exists i. split; [|exact H]. unfold nix_variable in U.
      refine (used_in_value _ _ _ _ i U _ _); [rewrite variable_stream; exact W|]. destruct i; try exact I; [exact H|]. exact (D _ _ eq_refl).
  - intros p n. rewrite I3. split.
    + intros U. inversion U as [i U1|m v l i U1 W D]; subst; [left; exact U1|]. right. destruct (UV _ _ _ U1) as (vs & E & E'). rewrite E in U1. rewrite E' in W. eauto.
    + intros [U|(m & vs & U & W)]; [constructor; exact U|]. unfold nix_variable in U. refine (used_in_value _ _ _ _ _ U _ _); [rewrite variable_stream; exact W|exact I].
  - intros n ls H. destruct (Forall2_in_r _ _ _ F _ H) as ([m [v l]] & K & E & R' & _). cbn [fst snd] in *. subst m. apply I4 in K. destruct (UV _ _ _ K) as (vs & E1 & E2). exists vs. rewrite <- E1, <- E2. auto.
  - intros n vs H. unfold nix_variable in H. apply I4 in H. destruct (Forall2_in_l _ _ _ F _ H) as ([m ls] & K & E & R' & _). cbn [fst snd] in *. subst m. exists ls. split; [exact K|]. rewrite variable_stream in R'. exact R'.
Qed.
Print Assumptions C42_variables.

(** Every reference used denotes what it is meant to, if no other [let] binding
    has its name, none has the name of the first element of its path and, for a
    [with], no argument has its name and no other [with] provides it.  Missing:
    [with]s and variables inside the values of variables, see below. *)
Theorem C42_nix_resolution_partial : forall cfg scoped cs body (has : str -> str -> Prop), let t := build cs in
  Forall nix_made (uses t) -> (forall i, nix_used t i -> nix_named i) -> nix_values_ok cfg scoped t ->
  body_of nix_lang cfg scoped tt t body ->
  exists arguments withs inherits lines,
    let p := indent_text (c_indentation cfg) 1 in
    file_renders nix_lang cfg scoped t
      (file_text (c_newline cfg)
         (sections [if scoped then [] else nix_arguments_section p arguments;
                    nix_withs_section withs;
                    nix_let_section p inherits lines]) body) /\
    forall i, nix_used t i ->
      (forall j, nix_used t j -> nix_binder j -> nix_name j = nix_name i -> j = i) ->
      match i with
      | NInherit path _ | NWith path _ =>
          forall j, nix_used t j -> nix_binder j -> ~ nix_path_root (content path) (nix_name j)
      | _ => True
      end ->
      match i with
      | NWith path n =>
          (scoped = false -> forall j, nix_used t j -> ~ nix_needs_argument j (content n)) /\
          (forall q m, In (NWith q m) (uses t) -> content q <> content path -> ~ has (content q) (content n))
      | _ => True
      end ->
      exists o, nix_means cfg scoped i o /\
        renders nix_lang cfg scoped tt (only i) (nix_name i) /\
        nix_denotes has scoped arguments withs (nix_lets inherits lines) (nix_name i) o.
Proof.
  intros cfg scoped cs body has t M N V [R CS]. destruct (vars_docs cfg scoped cs V) as [docs D].
  exists (nix_args t), (nix_ws t), (nix_inherits t), (map (var_lines cfg scoped) (combine (nix_vars t) docs)).
  destruct (nix_ready cs M N) as (A1 & A2 & A3 & A4 & A5).
  intros p. split; [apply nix_file; auto|]. intros i U UN UP UW.
  assert (RI : renders nix_lang cfg scoped tt (only i) (nix_name i)).
  { eapply eq_ind with (x := concat (nix_format_item i)) (P := fun x => renders nix_lang cfg scoped tt (only i) x).
    - exact (only_renders nix_lang cfg scoped tt i).
    - destruct i; cbn; apply app_nil_r. }
  assert (ARG : forall a, nix_needs_argument i a -> (forall j, nix_used t j -> nix_binder j -> nix_name j <> a) ->
    is_argument scoped (nix_args t) (nix_lets (nix_inherits t) (map (var_lines cfg scoped) (combine (nix_vars t) docs))) a).
  { intros a H X. split; [apply not_let; auto|]. intros _. apply in_nix_args; auto. exists i. auto. }
  assert (ROOT : forall path, nix_path_root (content path) (nix_root path)) by (intros; apply root_spec).
  destruct i as [n|path n|n v l|path n].
  - exists (OArgument (content n)). split; [reflexivity|]. split; [exact RI|]. split; [reflexivity|].
    apply ARG; [reflexivity|]. intros j Hj B E. apply UN in E; auto. subst j. destruct B.
  - destruct (used_entries cfg scoped cs docs (NInherit path n) M D U I) as (o & H & E). exists o.
    split; [exact E|]. split; [exact RI|]. cbn in E. subst o. split.
    + apply (entry_once cfg scoped cs docs (NInherit path n)); auto.
      * apply entries_nodup. exact D.
      * intros j o' Hj. apply entries_used in Hj as [? ?]; auto.
    + exists (nix_root path). split; auto. apply ARG; [apply ROOT|].
      intros j Hj B E. apply (UP j Hj B). rewrite E. apply ROOT.
  - destruct (used_entries cfg scoped cs docs (NVariable n v l) M D U I) as (o & H & E). exists o.
    split; [exact E|]. split; [exact RI|]. destruct E as (ls & -> & E).
    apply (entry_once cfg scoped cs docs (NVariable n v l)); auto.
    + apply entries_nodup. exact D.
    + intros j o' Hj. apply entries_used in Hj as [? ?]; auto.
  - exists (OWith (content path) (content n)). split; [reflexivity|]. split; [exact RI|].
    destruct UW as [UA UH]. split; [reflexivity|].
    split; [apply not_let; auto; intros j Hj B E; apply UN in E; auto; subst j; destruct B|].
    split; [intros S H; apply in_nix_args in H as [j [Hj H]]; auto; apply (UA S j Hj H)|]. split.
    + assert (H : In path (nix_ws t)).
      { apply in_nix_ws. exists n. inversion U; subst; auto. tauto. }
      destruct (in_split _ _ H) as (a & b & E). exists a, path, b. split; auto. split; auto.
      intros w Hw NE. assert (X : In w (nix_ws t)) by (rewrite E; apply in_or_app; right; right; exact Hw).
      apply in_nix_ws in X as [m X]. eapply UH; eauto.
    + exists (nix_root path). split; auto. apply ARG; [apply ROOT|].
      intros j Hj B E. apply (UP j Hj B). rewrite E. apply ROOT.
Qed.
Print Assumptions C42_nix_resolution_partial.

(** Exactly which references resolve. *)
Lemma sorted_around {A} (R : A -> A -> Prop) a x b : StronglySorted R (a ++ x :: b) ->
  (forall y, In y a -> R y x) /\ (forall y, In y b -> R x y).
Proof.
  induction a as [|c a IH]; cbn; intros H.
  - inversion_clear H as [|? ? _ F]. split; [intros y []|]. exact (proj1 (Forall_forall _ _) F).
  - inversion_clear H as [|? ? S F]. destruct (IH S) as [I1 I2]. split; [|exact I2].
    intros y [<-|Hy]; [|auto]. apply (proj1 (Forall_forall _ _) F), in_elt.
Qed.
Lemma Forall2_impl' {A B} (P Q : A -> B -> Prop) (H : forall a b, P a b -> Q a b) l l' : Forall2 P l l' -> Forall2 Q l l'.
Proof. induction 1; constructor; auto. Qed.
Lemma name_before_asym a b : name_before a b -> name_before b a -> False.
Proof.
  intros H1 H2. assert (O : order str_cmp) by apply str_order. destruct a as [x|x], b as [y|y]; cbn in *; try tauto;
    apply text_before_iff in H1, H2; pose proof (o_trans O _ _ _ Logic.I Logic.I Logic.I H1 H2) as T; rewrite (o_refl O _ Logic.I) in T; discriminate T.
Qed.
Lemma lets_of cfg scoped cs docs i : let t := build cs in
  Forall nix_made (uses t) -> Forall2 (value_doc cfg scoped) (nix_vars t) docs -> nix_used t i -> nix_binder i ->
  let lets := nix_lets (nix_inherits t) (map (var_lines cfg scoped) (combine (nix_vars t) docs)) in
  (exists o, In (nix_name i, o) lets) /\
  ((exists o, bound_once lets (nix_name i) o) <-> forall j, nix_used t j -> nix_binder j -> nix_name j = nix_name i -> j = i).
Proof.
  intros t M D U B lets. destruct (used_entries cfg scoped cs docs i M D U B) as (o & H & E).
  split; [exists o; unfold lets, t; rewrite entries_lets; apply (in_map (fun e => (nix_name (fst e), snd e)) _ _ H)|]. split.
  - intros (o' & a & b & EL & NO) j Hj Bj EN. destruct (used_entries cfg scoped cs docs j M D Hj Bj) as (oj & Hj' & _).
    pose proof (entries_nodup cfg scoped cs docs D) as ND. unfold lets, t in EL. rewrite entries_lets in EL.
    apply map_eq_app in EL as (ea & eb & EL & <- & EQ). apply map_eq_cons in EQ as (x & eb' & -> & EX & <-).
    assert (G : forall k ok, In (k, ok) (let_entries cfg scoped cs docs) -> nix_name k = nix_name i -> (k, ok) = x).
    { intros k ok Hk Nk. rewrite EL in Hk. apply in_app_or in Hk as [Hk|[Hk|Hk]]; auto; exfalso; apply (NO ok); rewrite <- Nk; apply in_or_app; [left|right];
        apply (in_map (fun e => (nix_name (fst e), snd e)) _ _ Hk). }
    pose proof (G _ _ H eq_refl) as G1. pose proof (G _ _ Hj' EN) as G2. congruence.
  - intros UN. exists o. apply (entry_once cfg scoped cs docs i o); [apply entries_nodup; exact D|exact H|].
    intros j o' Hj. apply entries_used in Hj as [? ?]; auto.
Qed.
Lemma once_in {A B} (l : list (A * B)) : forall n o, (exists a b, l = a ++ (n, o) :: b /\ forall o', ~ In (n, o') (a ++ b)) ->
  forall o', In (n, o') l -> o' = o.
Proof.
  intros n o (a & b & -> & NO) o' H. apply in_app_or in H as [H|[H|H]]; [|congruence|]; exfalso; apply (NO o'), in_or_app; auto.
Qed.
Theorem C42_nix_resolution_exact : forall cfg scoped cs body (has : str -> str -> Prop), let t := build cs in
  Forall nix_made (uses t) -> (forall i, nix_used t i -> nix_named i) -> nix_values_ok cfg scoped t ->
  body_of nix_lang cfg scoped tt t body ->
  exists arguments withs inherits (variables : list nix_var) lines,
    nix_listed t arguments withs inherits variables /\
    Forall2 (fun k ls => fst ls = fst k /\
       renders nix_lang cfg scoped tt (nix_value (fst (snd k)) (snd (snd k))) (stack (c_newline cfg) (snd ls))) variables lines /\
    (let p := indent_text (c_indentation cfg) 1 in
    file_renders nix_lang cfg scoped t
      (file_text (c_newline cfg)
         (sections [if scoped then [] else nix_arguments_section p arguments;
                    nix_withs_section withs;
                    nix_let_section p inherits lines]) body)) /\
    forall i, nix_used t i ->
      let free name := forall j, nix_used t j -> nix_binder j -> nix_name j <> name in
      let alone := forall j, nix_used t j -> nix_binder j -> nix_name j = nix_name i -> j = i in
      renders nix_lang cfg scoped tt (only i) (nix_name i) /\
      ((exists o, nix_means cfg scoped i o /\
          nix_denotes has scoped arguments withs (nix_lets inherits lines) (nix_name i) o) <->
       match i with
       | NArgument n => free (content n)
       | NInherit path _ => alone /\ forall r, nix_path_root (content path) r -> free r
       | NVariable _ _ _ => alone
       | NWith path n =>
           free (content n) /\ (forall r, nix_path_root (content path) r -> free r) /\
           (scoped = false -> forall j, nix_used t j -> ~ nix_needs_argument j (content n)) /\
           (* of the sets listed after this one, no other has the name *)
           exists w m, In (NWith w m) (uses t) /\ content w = content path /\
             forall q m', In (NWith q m') (uses t) -> name_before w q -> content q <> content path ->
               ~ has (content q) (content n)
       end).
Proof.
  intros cfg scoped cs body has t M N V [R CS]. destruct (vars_docs cfg scoped cs V) as [docs D].
  exists (nix_args t), (nix_ws t), (nix_inherits t), (nix_vars t), (map (var_lines cfg scoped) (combine (nix_vars t) docs)).
  assert (SW : sorted name_before (nix_ws t)) by (eapply increasing_sorted; [apply name_before_cmp|apply (inserts_increasing _ item_str_order)]).
  split.
  { split; [eapply increasing_sorted; [intros a b; apply text_before_iff|apply (inserts_increasing _ str_order)]|].
    split; [intros a; apply in_nix_args; auto|]. split; [exact SW|].
    split; [intros w; apply in_nix_ws|].
    split; [eapply increasing_sorted; [|apply (inserts_increasing _ inherit_order)]|].
    { intros a b. apply (pair_before_cmp cmp_item_str cmp_item_str); auto using name_before_cmp, item_str_order. }
    split; [intros p n; apply in_nix_inherits; auto|].
    split; [eapply increasing_sorted; [|apply (inserts_increasing _ nix_var_order)]|].
    { intros a b H. eapply (pair_before_cmp cmp_item_str (cmp_pair (cmp_list (cmp_item cmp_nix)) cmp_nat)); eauto using name_before_cmp, item_str_order.
      cbn. intros x y H' ->. pose proof nix_var_order as O.
      pose proof (proj2 (proj1 O (Static [], y) (Static [], y) I I) eq_refl) as X.
      change (cmp_pair (cmp_list (cmp_item cmp_nix)) cmp_nat y y = Eq) in X. congruence. }
    intros n v l; apply in_nix_vars. }
  split. { pose proof (var_lines_docs cfg scoped cs docs D) as F2. eapply Forall2_impl'; [|exact F2]. intros k ls H. split; apply H. }
  destruct (nix_ready cs M N) as (A1 & A2 & A3 & A4 & A5).
  split; [apply nix_file; auto|]. intros i U free alone.
  set (lets := nix_lets (nix_inherits t) (map (var_lines cfg scoped) (combine (nix_vars t) docs))).
  split.
  { eapply eq_ind with (x := concat (nix_format_item i)) (P := fun x => renders nix_lang cfg scoped tt (only i) x).
    - exact (only_renders nix_lang cfg scoped tt i).
    - destruct i; cbn; apply app_nil_r. }
  assert (FR : forall name, (forall o, ~ In (name, o) lets) <-> free name).
  { intros name. split.
    - intros H j Hj B E. destruct (lets_of cfg scoped cs docs j M D Hj B) as [[o X] _]. apply (H o). rewrite <- E. exact X.
    - intros H. apply not_let; auto. }
  assert (ARG : forall a, nix_needs_argument i a -> (is_argument scoped (nix_args t) lets a <-> free a)).
  { intros a H. unfold is_argument. rewrite FR. split; [tauto|]. intros F. split; [exact F|]. intros _. apply in_nix_args; auto. exists i. auto. }
  assert (ROOT : forall path, nix_path_root (content path) (nix_root path)) by (intros; apply root_spec).
  assert (PR : forall path, (forall r, nix_path_root (content path) r -> nix_needs_argument i r) ->
     ((exists r, nix_path_root (content path) r /\ is_argument scoped (nix_args t) lets r) <-> (forall r, nix_path_root (content path) r -> free r))).
  { intros path NA. split.
    - intros (r & H1 & H2) r' H'. rewrite (root_unique _ _ H'), <- (root_unique _ _ H1). apply ARG; auto.
    - intros H. exists (nix_root path). split; [apply ROOT|]. apply ARG; auto. }
  destruct i as [n|path n|n v l|path n].
  - split.
    + intros (o & -> & _ & A). apply (ARG (content n) eq_refl). exact A.
    + intros F. exists (OArgument (content n)). split; [reflexivity|]. split; [reflexivity|]. apply (ARG (content n) eq_refl). exact F.
  - destruct (lets_of cfg scoped cs docs (NInherit path n) M D U I) as [_ ONE]. change ((exists o, bound_once lets (nix_name (NInherit path n)) o) <-> alone) in ONE. rewrite <- (PR path (fun r H => H)). split.
    + intros (o & -> & BO & A). split; [apply ONE; eauto|exact A].
    + intros [AL A]. exists (OInherit (content path) (content n)). split; [reflexivity|]. split; [|exact A].
      apply ONE in AL as [o BO]. destruct (used_entries cfg scoped cs docs (NInherit path n) M D U I) as (o' & H & E). cbn in E. subst o'.
      assert (IN : In (nix_name (NInherit path n), OInherit (content path) (content n)) lets).
      { unfold lets, t. rewrite entries_lets. apply (in_map (fun e => (nix_name (fst e), snd e)) _ _ H). }
      rewrite (once_in lets _ _ BO _ IN). exact BO.
  - destruct (lets_of cfg scoped cs docs (NVariable n v l) M D U I) as [_ ONE]. change ((exists o, bound_once lets (nix_name (NVariable n v l)) o) <-> alone) in ONE. split.
    + intros (o & (ls & -> & _) & BO). apply ONE. eauto.
    + intros AL. apply ONE in AL as [o BO]. destruct (used_entries cfg scoped cs docs (NVariable n v l) M D U I) as (o' & H & E).
      exists o'. split; [exact E|]. assert (IN : In (nix_name (NVariable n v l), o') lets).
      { unfold lets, t. rewrite entries_lets. apply (in_map (fun e => (nix_name (fst e), snd e)) _ _ H). }
      pose proof (once_in lets _ _ BO _ IN) as X. destruct E as (ls & -> & _). subst o. exact BO.
  - rewrite <- (PR path (fun r H => H)). rewrite <- FR.
    assert (AR : (scoped = false -> ~ In (content n) (nix_args t)) <-> (scoped = false -> forall j, nix_used t j -> ~ nix_needs_argument j (content n))).
    { split; intros H S.
      - intros j Hj NA. apply (H S). apply in_nix_args; eauto.
      - intros X. apply in_nix_args in X as [j [Hj X]]; auto. exact (H S j Hj X). }
    assert (WI : (exists a w b, nix_ws t = a ++ w :: b /\ content w = content path /\
         forall w', In w' b -> content w' <> content path -> ~ has (content w') (content n)) <->
       exists w m, In (NWith w m) (uses t) /\ content w = content path /\
             forall q m', In (NWith q m') (uses t) -> name_before w q -> content q <> content path -> ~ has (content q) (content n)).
    { split.
      - intros (a & w & b & E & EW & H). assert (X : In w (nix_ws t)) by (rewrite E; apply in_elt). apply in_nix_ws in X as [m X].
        exists w, m. split; [exact X|]. split; [exact EW|]. intros q m' Hq BQ. apply H.
        assert (Y : In q (nix_ws t)) by (apply in_nix_ws; eauto). rewrite E in SW, Y. apply in_app_or in Y as [Y|[Y|Y]]; [|subst q; destruct (name_before_asym _ _ BQ BQ)|exact Y].
        exfalso. destruct (sorted_around _ _ _ _ SW) as [L _]. exact (name_before_asym _ _ BQ (L q Y)).
      - intros (w & m & Hw & EW & H). assert (X : In w (nix_ws t)) by (apply in_nix_ws; eauto). destruct (in_split _ _ X) as (a & b & E).
        exists a, w, b. split; [exact E|]. split; [exact EW|]. intros w' Hw'. assert (Y : In w' (nix_ws t)) by (rewrite E; apply in_or_app; right; right; exact Hw').
        apply in_nix_ws in Y as [m' Y]. apply (H w' m' Y). rewrite E in SW. destruct (sorted_around _ _ _ _ SW) as [_ G]. auto. }
    rewrite <- AR, <- WI. split.
    + intros (o & -> & _ & H1 & H2 & H3 & H4). cbn [nix_name] in *. tauto.
    + intros (H1 & H4 & H2 & H3). exists (OWith (content path) (content n)). split; [reflexivity|]. split; [reflexivity|]. cbn [nix_name]. tauto.
Qed.
Print Assumptions C42_nix_resolution_exact.

(** ** Examples *)
Definition ex_nixpkgs : nix_import := NInherit (Static $"inputs") (Static $"nixpkgs").
Definition ex_nix_calls : list (call nix_import) :=
  [CItem (Literal (Static $"import")); CSpace; CItem (Lang 0 ex_nixpkgs); CSpace; CItem (Literal (Static $"{")); CIndent;
   CItem (Literal (Static $"free")); CSpace; CItem (Literal (Static $"= true;")); CUnindent; CItem (Literal (Static $"}"))].
Definition ex_nix_value : tokens nix_import := build ex_nix_calls.
Definition ex_nix : list nix_import :=
  [nix_variable (Static $"pkgs") ex_nix_value; NWith (Static $"inputs.lib") (Static $"mkIf"); NArgument (Static $"self")].
Example C42_example : let t := build (ex_calls ex_nix) in
  Forall nix_made (uses t) /\ (forall i, nix_used t i -> nix_named i) /\ nix_values_ok ex_cfg false t /\
  body_of nix_lang ex_cfg false tt t ($"pkgs" ++ [10%N] ++ $"mkIf" ++ [10%N] ++ $"self") /\
  (forall i j, nix_used t i -> nix_used t j -> nix_binder j -> nix_name j = nix_name i -> j = i) /\
  (forall j, nix_used t j -> nix_binder j -> ~ nix_path_root $"inputs" (nix_name j)) /\
  (forall j, nix_used t j -> ~ nix_needs_argument j $"mkIf") /\
  file_renders nix_lang ex_cfg false t
    (stack [10%N] [$"{"; $"    inputs,"; $"    self,"; $"    ..."; $"}:"; []; $"with inputs.lib;"; []; $"let";
        $"    inherit (inputs) nixpkgs;"; $"    pkgs = import nixpkgs {"; $"        free = true;"; $"    };"; $"in"; [];
        $"pkgs"; $"mkIf"; $"self"; []]).
Proof.
  assert (UI : forall i, nix_used (build (ex_calls ex_nix)) i -> In i (ex_nix ++ [ex_nixpkgs])).
  { intros i [j H|n v l j H K _].
    - cbn in H |- *. tauto.
    - cbn in H. destruct H as [H|[H|[H|[]]]]; try discriminate H. injection H as <- <- <-. cbn in K. cbn. tauto. }
  split; [repeat constructor|]. { exists ex_nix_calls. reflexivity. }
  split. { intros i H. apply UI in H. cbn in H. repeat destruct H as [<-|H]; try destruct H; cbn; repeat split; try discriminate;
    intros [_ [H|[r H]]]; discriminate. }
  split.
  { intros n v l H. cbn in H. destruct H as [H|[H|[H|[]]]]; try discriminate H. injection H as <- <- <-.
    exists (map NItem (items ex_nix_value)). split; [reflexivity|]. split; [reflexivity|].
    set (a := doc_atoms _ _ _). vm_compute in a. subst a. split.
    - split; [eexists _, _; split; [reflexivity|reflexivity]|].
      eexists [_; _; _; _; _; _; _; _; _; _], _. split; [reflexivity|reflexivity].
    - split; [reflexivity|]. intros p q E.
      repeat (destruct p as [|? p]; [cbn; lia|first [discriminate E|injection E as <- E]]). }
  split; [split; [vm_compute; reflexivity|plain_start]|].
  split.
  { intros i j Hi Hj. apply UI in Hi, Hj. cbn in Hi, Hj.
    repeat destruct Hi as [<-|Hi]; try tauto; repeat destruct Hj as [<-|Hj]; try tauto; intros B E;
      vm_compute in E; try discriminate; try destruct B; reflexivity. }
  split.
  { intros j Hj. apply UI in Hj. cbn in Hj. repeat destruct Hj as [<-|Hj]; try tauto; intros B [_ [H|[r H]]]; try discriminate; try destruct B. }
  split.
  { intros j Hj. apply UI in Hj. cbn in Hj. repeat destruct Hj as [<-|Hj]; try tauto; cbn; try discriminate;
      intros [_ [H|[r H]]]; discriminate. }
  vm_compute. reflexivity.
Qed.

Example C42_variables_example : Forall nix_from_streams ex_nix /\ In (NInherit (Static $"inputs") (Static $"nixpkgs")) (uses ex_nix_value).
Proof. split; [repeat constructor; exists ex_nix_calls; reflexivity|]. left. reflexivity. Qed.

(** A variable inside the value of a variable is not bound. *)
Definition ex_nix_inner : nix_import := nix_variable (Static $"b") (build [CItem (Literal (Static $"1"))]).
Definition ex_nix_outer : nix_import :=
  nix_variable (Static $"a") (build [CItem (Lang 0 ex_nix_inner); CItem (Literal (Static $" + 2"))]).
Theorem C42_nix_nested_variable_refuted : let t := build (ex_calls [ex_nix_outer]) in
  nix_reachable t ex_nix_inner /\
  file_renders nix_lang ex_cfg true t (stack [10%N] [$"let"; $"    a = b + 2;"; $"in"; []; $"a"; []]) /\
  nix_let_section $"    " [] [(Static $"a", [$"b + 2"])] = [$"let"; $"    a = b + 2;"; $"in"] /\
  forall has o, nix_means ex_cfg true ex_nix_inner o ->
    ~ nix_denotes has true [] [] (nix_lets [] [(Static $"a", [$"b + 2"])]) $"b" o.
Proof.
  split. { eapply reach_in_value; [apply reach_here; left; reflexivity|left; reflexivity]. }
  split; [vm_compute; reflexivity|]. split; [reflexivity|].
  intros has o (ls & -> & _) (a & b & E & _). destruct a as [|x [|y a]]; discriminate.
Qed.
Print Assumptions C42_nix_nested_variable_refuted.
(** A [with] used inside the value of a variable is missing. *)
Definition ex_nix_with : nix_import := NWith (Static $"lib") (Static $"mkIf").
Theorem C42_nix_nested_with_refuted :
  let t := build (ex_calls [nix_variable (Static $"a") (build [CItem (Lang 0 ex_nix_with)])]) in
  nix_reachable t ex_nix_with /\
  file_renders nix_lang ex_cfg false t
    (stack [10%N] [$"{"; $"    ..."; $"}:"; []; $"let"; $"    a = mkIf;"; $"in"; []; $"a"; []]) /\
  sections [nix_arguments_section $"    " []; nix_withs_section []; nix_let_section $"    " [] [(Static $"a", [$"mkIf"])]] =
    [$"{"; $"    ..."; $"}:"; []; $"let"; $"    a = mkIf;"; $"in"] /\
  forall has o, nix_means ex_cfg false ex_nix_with o ->
    ~ nix_denotes has false [] [] (nix_lets [] [(Static $"a", [$"mkIf"])]) $"mkIf" o.
Proof.
  split. { eapply reach_in_value; [apply reach_here; left; reflexivity|left; reflexivity]. }
  split; [vm_compute; reflexivity|]. split; [reflexivity|].
  intros has o -> (_ & _ & _ & (a & w & b & E & _) & _). destruct a; discriminate.
Qed.
Print Assumptions C42_nix_nested_with_refuted.
(** The same name inherited from two paths: bound twice, which is an error. *)
Definition ex_nix_conflict : list nix_import :=
  [NInherit (Static $"a") (Static $"x"); NInherit (Static $"b") (Static $"x")].
Theorem C42_nix_conflict_refuted : let t := build (ex_calls ex_nix_conflict) in
  file_renders nix_lang ex_cfg true t
    (stack [10%N] [$"let"; $"    inherit (a) x;"; $"    inherit (b) x;"; $"in"; []; $"x"; $"x"; []]) /\
  nix_let_section $"    " [(Static $"a", Static $"x"); (Static $"b", Static $"x")] [] =
    [$"let"; $"    inherit (a) x;"; $"    inherit (b) x;"; $"in"] /\
  forall has i o, In i ex_nix_conflict -> nix_means ex_cfg true i o ->
    ~ nix_denotes has true [] [] (nix_lets [(Static $"a", Static $"x"); (Static $"b", Static $"x")] []) $"x" o.
Proof.
  split; [vm_compute; reflexivity|]. split; [reflexivity|].
  intros has i o Hi Ho D. destruct Hi as [<-|[<-|[]]]; cbn in Ho; subst o; destruct D as [(a & b & E & U) _];
    destruct a as [|x [|y a]]; try (injection E; intros; subst); try (eapply U; left; reflexivity);
    try (destruct a; discriminate); try discriminate.
Qed.
Print Assumptions C42_nix_conflict_refuted.
(** Of these names [x] is bound twice, [self] resolves, and [f] resolves to the set
    that is listed last and has it. *)
Example C42_exact_example :
  let a := NInherit (Static $"a") (Static $"x") in let b := NInherit (Static $"b") (Static $"x") in
  let self := NArgument (Static $"self") in let f := NWith (Static $"lib") (Static $"f") in
  let g := NWith (Static $"util") (Static $"g") in let t := build (ex_calls [a; b; self; f; g]) in
  Forall nix_made (uses t) /\ (forall i, nix_used t i -> nix_named i) /\ nix_values_ok ex_cfg false t /\
  body_of nix_lang ex_cfg false tt t ($"x" ++ [10%N] ++ $"x" ++ [10%N] ++ $"self" ++ [10%N] ++ $"f" ++ [10%N] ++ $"g") /\
  ~ (forall j, nix_used t j -> nix_binder j -> nix_name j = nix_name a -> j = a) /\
  (forall j, nix_used t j -> nix_binder j -> nix_name j <> $"self") /\
  (forall has : str -> str -> Prop, ~ has $"util" $"f" ->
     exists w m, In (NWith w m) (uses t) /\ content w = $"lib" /\
       forall q m', In (NWith q m') (uses t) -> name_before w q -> content q <> $"lib" -> ~ has (content q) $"f") /\
  (forall has : str -> str -> Prop, has $"util" $"f" ->
     ~ exists w m, In (NWith w m) (uses t) /\ content w = $"lib" /\
       forall q m', In (NWith q m') (uses t) -> name_before w q -> content q <> $"lib" -> ~ has (content q) $"f").
Proof.
  cbv zeta. set (t := build _).
  assert (UU : forall i, nix_used t i -> In i (uses t)).
  { intros i [j H|n v l j H _ _]; [exact H|]. cbn in H. repeat destruct H as [H|H]; try discriminate H. contradiction. }
  assert (LU : name_before (Static $"lib") (Static $"util")) by (apply name_before_iff; reflexivity).
  split; [repeat constructor|]. split.
  { intros i H. apply UU in H. cbn in H. repeat destruct H as [<-|H]; try destruct H; cbn; repeat split; try discriminate;
      intros [_ [X|[r X]]]; discriminate. }
  split. { intros n v l H. cbn in H. repeat destruct H as [H|H]; try discriminate H. contradiction. }
  split; [split; [vm_compute; reflexivity|plain_start]|].
  split. { intros H. specialize (H (NInherit (Static $"b") (Static $"x")) (used_here t _ (or_intror (or_introl eq_refl))) I eq_refl). discriminate H. }
  split. { intros j H B. apply UU in H. cbn in H. repeat destruct H as [<-|H]; try destruct H; try destruct B; discriminate. }
  split.
  - intros has HN. exists (Static $"lib"), (Static $"f"). split; [cbn; tauto|]. split; [reflexivity|].
    intros q m' H _ NE. cbn in H. repeat destruct H as [H|H]; try discriminate H; try contradiction; injection H as <- <-; [exfalso; apply NE; reflexivity|exact HN].
  - intros has HY (w & m & Hw & EW & H). cbn in Hw. repeat destruct Hw as [Hw|Hw]; try discriminate Hw; try contradiction; injection Hw as <- <-; [|discriminate EW].
    apply (H (Static $"util") (Static $"g")); [cbn; tauto|exact LU|discriminate|exact HY].
Qed.
