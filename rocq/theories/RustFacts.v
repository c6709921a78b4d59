(** * Lemmas: the Rust header. *)
From Verif Require Import Str Tokens SpecTokens TokensRun Values Fmt SpecFmt RenderFacts LayoutFacts
  HistoryFacts StringFacts OrderFacts SpecOrder SpecFile HeaderFacts FileFacts SpecLang ImportFacts GroupFacts
  PythonFacts LangBase LangRust SpecRust.

Section Rust.
Context (cfg : config) (mode : rust_mode).
Notation ops := (ld_ops rust_lang mode tt).

(** ** Lines *)
Definition leaf_of (r : rust_render) : rust_leaf :=
  match r with
  | SelfImport => LSelf None
  | SelfAlias a => LSelf (Some a)
  | RName n a => LName n a
  end.
Definition leaf_tokens (l : rust_leaf) (t : tokens rust_import) : tokens rust_import :=
  match l with
  | LSelf None => rust_render_item SelfImport t
  | LSelf (Some a) => rust_render_item (SelfAlias a) t
  | LName n a => rust_render_item (RName n a) t
  end.
Lemma leaf_tokens_of r t : leaf_tokens (leaf_of r) t = rust_render_item r t.
Proof. destruct r; reflexivity. Qed.
Definition as_acts (s : item_str) (a : option item_str) : list (@hact rust_import) :=
  h_text s :: match a with Some a => [HReq TSpace; h_text (Static $"as"); HReq TSpace; h_text a] | None => [] end.
Definition leaf_acts (l : rust_leaf) : list (@hact rust_import) :=
  match l with LSelf a => as_acts (Static $"self") a | LName n a => as_acts n a end.
Definition leaf_named (l : rust_leaf) : Prop :=
  match l with LSelf a => opt_named a | LName n a => named n /\ opt_named a end.
Lemma as_ok s a : named s -> opt_named a -> writes ops cfg (as_acts s a) (content s ++ rust_as a).
Proof.
  destruct a as [a|]; intros N1 N2; unfold as_acts, rust_as.
  - eapply writes_eq; [apply w_text_space; [exact N1|]; apply w_text_space; [discriminate|];
      apply writes_text; exact N2|reflexivity].
  - rewrite app_nil_r. apply writes_text. exact N1.
Qed.
Lemma leaf_ok l : leaf_named l -> writes ops cfg (leaf_acts l) (rust_leaf_text l).
Proof.
  destruct l as [a|n a]; cbn [leaf_named leaf_acts rust_leaf_text]; intros N.
  - apply (as_ok (Static $"self")); [discriminate|auto].
  - destruct N. apply as_ok; auto.
Qed.
Lemma leaf_run l t : ritems (leaf_tokens l t) = hrun (leaf_acts l) (ritems t).
Proof. destruct l as [[a|]|n [a|]], t; reflexivity. Qed.

Definition rust_line_acts (u : item_str * list rust_leaf) : list (@hact rust_import) :=
  let '(m, leaves) := u in
  h_text (Static $"use") :: HReq TSpace ::
  match leaves with
  | [LSelf a] => as_acts m a ++ [h_text (Static $";")]
  | [LName n a] => ([h_text m; h_text (Static $"::")] ++ as_acts n a) ++ [h_text (Static $";")]
  | _ => [h_text m; h_text (Static $"::{")] ++ join_acts leaf_acts comma_acts leaves ++ [h_text (Static $"};")]
  end.
Definition entry_named (u : item_str * list rust_leaf) : Prop :=
  named (fst u) /\ snd u <> [] /\ Forall leaf_named (snd u).
Lemma semi_ok hs s : writes ops cfg hs s -> writes ops cfg (hs ++ [h_text (Static $";")]) (s ++ $";").
Proof. intros H. apply writes_app; auto. apply (writes_text ops cfg (Static $";")). discriminate. Qed.
Lemma rust_line_ok u : entry_named u -> writes ops cfg (rust_line_acts u) (rust_use_line u).
Proof.
  destruct u as [m leaves]. intros [N1 [NE N2]]. cbn [fst snd] in *. unfold rust_line_acts, rust_use_line.
  assert (MANY : leaves <> [] -> writes ops cfg
     (h_text (Static $"use") :: HReq TSpace ::
      [h_text m; h_text (Static $"::{")] ++ join_acts leaf_acts comma_acts leaves ++ [h_text (Static $"};")])
     ($"use " ++ content m ++ ($"::{" ++ join $", " (map rust_leaf_text leaves) ++ $"}") ++ $";")).
  { intros _. eapply writes_eq.
    - apply w_text_space; [discriminate|]. apply (w_text ops cfg m); [exact N1|].
      apply (w_text ops cfg (Static $"::{")); [discriminate|].
      apply writes_app; [apply join_comma with (txt_of := rust_leaf_text); [|auto]|].
      + eapply Forall_impl; [|exact N2]. apply leaf_ok.
      + apply (writes_text ops cfg (Static $"};")). discriminate.
    - cbn [content]. rewrite <- !app_assoc. reflexivity. }
  destruct leaves as [|l [|l2 ls]]; [congruence| |].
  - clear MANY. inversion N2 as [|? ? NL _]; subst. destruct l as [a|n a]; cbn [leaf_named] in NL.
    + eapply writes_eq; [apply w_text_space; [discriminate|]; apply semi_ok, as_ok; auto|].
      cbn [content]. rewrite <- !app_assoc. reflexivity.
    + eapply writes_eq; [apply w_text_space; [discriminate|]; apply semi_ok;
        apply (w_text ops cfg m); [exact N1|]; apply (w_text ops cfg (Static $"::")); [discriminate|];
        apply as_ok; apply NL|].
      cbn [content]. rewrite <- !app_assoc. reflexivity.
  - destruct l; apply MANY; discriminate.
Qed.

(** ** The statements of the model *)
Definition rust_step (u : item_str * list rust_leaf) (out : tokens rust_import) : tokens rust_import :=
  let '(name, leaves) := u in
  let out := push out in
  match leaves with
  | first :: second :: more =>
      let out := out |> st $"use" |> space |> istr name |> st $"::{" |> leaf_tokens first in
      let out := out |> st $"," |> space |> leaf_tokens second in
      let out := for_each (fun r o => o |> st $"," |> space |> leaf_tokens r) more out in
      out |> st $"};"
  | [LSelf None] => out |> st $"use" |> space |> istr name |> st $";"
  | [LSelf (Some alias)] => out |> st $"use" |> space |> istr name |> space |> st $"as" |> space
                                |> istr alias |> st $";"
  | [LName n (Some alias)] => out |> st $"use" |> space |> istr name |> st $"::" |> istr n |> space
                                  |> st $"as" |> space |> istr alias |> st $";"
  | [LName n None] => out |> st $"use" |> space |> istr name |> st $"::" |> istr n |> st $";"
  | [] => out
  end.
Lemma for_each_ext {LI A} (f g : A -> tokens LI -> tokens LI) xs : (forall x t, f x t = g x t) ->
  forall t, for_each f xs t = for_each g xs t.
Proof. intros E. unfold for_each. induction xs; intros t; cbn; auto. rewrite E. auto. Qed.
Lemma rust_stmt_step out b name u :
  rust_use_stmt (out, b) (name, u) =
  match map leaf_of (rust_iter name u) with
  | [] => (out, b)
  | ls => (rust_step (name, ls) out, true)
  end.
Proof.
  unfold rust_use_stmt. destruct (rust_iter name u) as [|r1 [|r2 rs]]; [reflexivity| |].
  - destruct r1 as [|a|n [a|]]; reflexivity.
  - cbn [map]. unfold rust_step. rewrite !leaf_tokens_of, for_each_map.
    destruct (leaf_of r1) as [[a|]|n [a|]]; do 2 f_equal; apply for_each_ext; intros x t; rewrite leaf_tokens_of; reflexivity.
Qed.

Definition rust_mods_of (m : list (item_str * rust_used)) : list (item_str * list rust_leaf) :=
  filter (fun u => match snd u with [] => false | _ => true end)
    (map (fun '(name, u) => (name, map leaf_of (rust_iter name u))) m).
Lemma rust_fold m : forall out b,
  fold_left rust_use_stmt m (out, b) =
  (for_each rust_step (rust_mods_of m) out,
   match rust_mods_of m with [] => b | _ => true end).
Proof.
  induction m as [|[name u] m IH]; intros out b; [reflexivity|].
  cbn [fold_left]. rewrite rust_stmt_step. unfold rust_mods_of. cbn [map filter snd].
  destruct (map leaf_of (rust_iter name u)) as [|l ls] eqn:E.
  - rewrite IH. reflexivity.
  - rewrite IH. unfold for_each. cbn [fold_left]. fold (rust_mods_of m).
    destruct (rust_mods_of m); reflexivity.
Qed.

Lemma more_run ls : forall t,
  ritems (for_each (fun r o => o |> st $"," |> space |> leaf_tokens r) ls t) =
  hrun (flat_map (fun r => comma_acts ++ leaf_acts r) ls) (ritems t).
Proof.
  intros t. apply for_each_hrun. intros x u. rewrite leaf_run, hrun_app. destruct u; reflexivity.
Qed.
Lemma join_acts_more (l : rust_leaf) ls : join_acts leaf_acts comma_acts (l :: ls) =
  leaf_acts l ++ flat_map (fun r => comma_acts ++ leaf_acts r) ls.
Proof.
  revert l. induction ls as [|l2 ls IH]; intros l; cbn [flat_map].
  - cbn. rewrite app_nil_r. reflexivity.
  - change (join_acts leaf_acts comma_acts (l :: l2 :: ls)) with
      (leaf_acts l ++ comma_acts ++ join_acts leaf_acts comma_acts (l2 :: ls)).
    rewrite IH, <- !app_assoc. reflexivity.
Qed.
Lemma rust_step_run u t : snd u <> [] ->
  ritems (rust_step u t) = hrun (HReq TPush :: rust_line_acts u) (ritems t).
Proof.
  destruct u as [m leaves]. cbn [snd]. intros NE. destruct leaves as [|l1 [|l2 ls]]; [congruence| |].
  - destruct l1 as [[a|]|n [a|]], t; reflexivity.
  - assert (E : rust_line_acts (m, l1 :: l2 :: ls) =
      [h_text (Static $"use"); HReq TSpace; h_text m; h_text (Static $"::{")] ++
      leaf_acts l1 ++ comma_acts ++ leaf_acts l2 ++ flat_map (fun r => comma_acts ++ leaf_acts r) ls ++
      [h_text (Static $"};")]).
    { unfold rust_line_acts. rewrite join_acts_more. cbn [flat_map]. rewrite <- !app_assoc.
      destruct l1; reflexivity. }
    rewrite E. clear E.
    set (t1 := push t |> st $"use" |> space |> istr m |> st $"::{").
    assert (E1 : ritems t1 = hrun (HReq TPush :: [h_text (Static $"use"); HReq TSpace; h_text m; h_text (Static $"::{")]) (ritems t)).
    { subst t1. destruct t; reflexivity. }
    assert (E2 : rust_step (m, l1 :: l2 :: ls) t =
      (st $"};" (for_each (fun r o => o |> st $"," |> space |> leaf_tokens r) ls
         (leaf_tokens l2 (space (st $"," (leaf_tokens l1 t1))))))).
    { destruct l1 as [[a|]|n [a|]]; reflexivity. }
    rewrite E2. clear E2.
    assert (ES : forall u : tokens rust_import, ritems (st $"};" u) = hrun [h_text (Static $"};")] (ritems u)).
    { intros u. destruct u; reflexivity. }
    rewrite ES, more_run, leaf_run.
    assert (EC : forall u : tokens rust_import, ritems (space (st $"," u)) = hrun comma_acts (ritems u)).
    { intros u. destruct u; reflexivity. }
    rewrite EC, leaf_run, E1.
    change (HReq TPush :: ?a ++ ?b) with ((HReq TPush :: a) ++ b).
    rewrite !hrun_app. reflexivity.
Qed.

(** ** Collecting *)
Definition rust_grp (i : rust_import) : option (item_str * (rust_used -> rust_used)) :=
  match ru_module i with
  | RModule md m =>
      match rust_effective mode md with
      | Direct => Some (m, use_name i)
      | QualifiedMode => Some (m, use_self)
      end
  | RAliased m a => Some (m, use_alias a)
  end.
Definition rust_map (t : tokens rust_import) : list (item_str * rust_used) :=
  group (c := cmp_item_str) unused rust_grp (walk_imports t) [].
Lemma rust_collect_eq is : rust_collect mode is = group (c := cmp_item_str) unused rust_grp is [].
Proof.
  unfold rust_collect, group. apply fold_ext. intros m i. unfold rust_collect_one, group_one, rust_grp.
  destruct (ru_module i) as [[[|]|] md|md a]; try reflexivity; destruct mode; reflexivity.
Qed.
Definition rust_mods (t : tokens rust_import) : list (item_str * list rust_leaf) := rust_mods_of (rust_map t).

Lemma rust_header t : ritems (rust_imports t mode new) =
  hrun (before_style (map (fun k => (rust_line_acts k, rust_use_line k)) (rust_mods t))) [].
Proof.
  unfold rust_imports. rewrite rust_collect_eq, rust_fold.
  change (rust_mods_of (group unused rust_grp (walk_imports t) [])) with (rust_mods t).
  assert (NE : forall u, In u (rust_mods t) -> snd u <> []).
  { intros u H. unfold rust_mods, rust_mods_of in H. apply filter_In in H as [_ H].
    destruct (snd u); discriminate. }
  destruct (rust_mods t) as [|u us] eqn:E; [reflexivity|].
  assert (H : forall us (t : tokens rust_import), (forall u, In u us -> snd u <> []) ->
     ritems (for_each rust_step us t) = hrun (flat_map (fun u => HReq TPush :: rust_line_acts u) us) (ritems t)).
  { clear. induction us as [|u us IH]; intros t NE; [reflexivity|].
    change (for_each rust_step (u :: us) t) with (for_each rust_step us (rust_step u t)).
    rewrite IH by (intros; apply NE; right; auto). cbn [flat_map]. rewrite hrun_app.
    f_equal. apply rust_step_run. apply NE. left; auto. }
  rewrite line_hrun, H by auto. rewrite <- hrun_app. f_equal.
  unfold before_style. cbn [map]. rewrite !flat_map_concat_map. cbn [map]. rewrite !map_map. reflexivity.
Qed.

(** Elements of an entry. *)
Inductive use_elem : Type := ESelf | EAlias (a : item_str) | EName (k : item_str * option item_str).
Definition used_mem (u : rust_used) (e : use_elem) : Prop :=
  match e with
  | ESelf => u_self u = true
  | EAlias a => In a (u_aliases u)
  | EName k => In k (u_names u)
  end.
Definition used_adds (i : rust_import) (e : use_elem) : Prop :=
  match ru_module i with
  | RModule md _ =>
      match rust_effective mode md with
      | Direct => e = EName (ru_name i, ru_alias i)
      | QualifiedMode => e = ESelf
      end
  | RAliased _ a => e = EAlias a
  end.
Lemma rust_name_order : order rust_name_cmp.
Proof. apply pair_order_full; auto using item_str_order, option_order_full. Qed.
Lemma used_step i k f v e : rust_grp i = Some (k, f) -> (used_mem (f v) e <-> used_adds i e \/ used_mem v e).
Proof.
  unfold rust_grp, used_adds. destruct (ru_module i) as [md m|m a].
  - destruct (rust_effective mode md); intros [= <- <-]; destruct e; cbn;
      rewrite ?(in_insert rust_name_order); intuition congruence.
  - intros [= <- <-]. destruct e; cbn; rewrite ?(in_insert item_str_order); intuition congruence.
Qed.
Definition used_ok (u : rust_used) : Prop :=
  increasing cmp_item_str (u_aliases u) /\ increasing rust_name_cmp (u_names u).
Lemma used_ok_step i k f v : rust_grp i = Some (k, f) -> used_ok v -> used_ok (f v).
Proof.
  unfold rust_grp, used_ok. destruct (ru_module i) as [md m|m a]; [destruct (rust_effective mode md)|];
    intros [= <- <-] [H1 H2]; cbn; auto using (insert_increasing rust_name_order), (insert_increasing item_str_order).
Qed.
Lemma unused_mem e : ~ used_mem unused e.
Proof. destruct e; cbn; auto; discriminate. Qed.

Lemma in_rust_map t m e : 
  (exists u, In (m, u) (rust_map t) /\ used_mem u e) <->
  exists i f, In i (walk_imports t) /\ rust_grp i = Some (m, f) /\ used_adds i e.
Proof.
  unfold rust_map.
  rewrite (group_mem item_str_order unused rust_grp used_mem used_adds unused_mem used_step) by constructor.
  cbn. split; [|auto]. intros [[v [[] _]]|H]; auto.
Qed.
Lemma rust_map_sorted t : increasing cmp_item_str (keys (rust_map t)).
Proof. apply (group_increasing item_str_order). constructor. Qed.
Lemma rust_map_ok t m u : In (m, u) (rust_map t) -> used_ok u.
Proof.
  apply (group_inv (c := cmp_item_str) unused rust_grp used_ok (walk_imports t)).
  - split; constructor.
  - intros i k f v _. apply used_ok_step.
  - intros ? ? [].
Qed.

Definition elem_leaf (e : use_elem) : rust_leaf :=
  match e with ESelf => LSelf None | EAlias a => LSelf (Some a) | EName k => LName (fst k) (snd k) end.
Lemma in_iter m u l : In l (map leaf_of (rust_iter m u)) <->
  exists e, used_mem u e /\ l = elem_leaf e /\ (e = ESelf -> contains rust_sep (content m) = true).
Proof.
  unfold rust_iter. rewrite in_map_iff. split.
  - intros [r [<- H]]. rewrite !in_app_iff in H. destruct H as [H|[H|H]].
    + destruct (u_self u) eqn:E1, (contains rust_sep (content m)) eqn:E2; cbn in H; try tauto.
      destruct H as [<-|[]]. exists ESelf. cbn. auto.
    + apply in_map_iff in H as [a [<- H]]. exists (EAlias a). cbn. repeat split; auto. discriminate.
    + apply in_map_iff in H as [[n a] [<- H]]. exists (EName (n, a)). cbn. repeat split; auto. discriminate.
  - intros [e [H1 [-> H2]]]. destruct e as [|a|[n a]]; cbn in *.
    + exists SelfImport. rewrite H1, (H2 eq_refl). cbn. auto.
    + exists (SelfAlias a). split; auto. rewrite !in_app_iff. right; left. apply in_map; auto.
    + exists (RName n a). split; auto. rewrite !in_app_iff. right; right.
      apply in_map_iff. exists (n, a). auto.
Qed.

Lemma in_rust_mods cs m l : let t := build cs in
  (exists leaves, In (m, leaves) (rust_mods t) /\ In l leaves) <->
  exists i, In i (uses t) /\ rust_asks mode i m l.
Proof.
  intros t. unfold rust_mods, rust_mods_of. split.
  - intros [leaves [H HL]]. apply filter_In in H as [H _]. apply in_map_iff in H as [[m' u] [E H]].
    injection E as -> <-. apply in_iter in HL as [e [H1 [-> H2]]].
    destruct (proj1 (in_rust_map t m e)) as (i & f & W & G & A); [eauto|].
    exists i. split; [apply walk_set; auto|]. unfold rust_asks, rust_grp, used_adds in *.
    destruct (ru_module i) as [md m'|m' a].
    + destruct (rust_effective mode md); injection G as -> _; subst e; split; auto. split; auto.
      specialize (H2 eq_refl). apply contains_spec in H2 as [p [r H2]]. eauto.
    + injection G as -> _. subst e. auto.
  - intros [i [Hi A]].
    assert (X : exists e, l = elem_leaf e /\ (e = ESelf -> contains rust_sep (content m) = true) /\
       exists f, rust_grp i = Some (m, f) /\ used_adds i e).
    { unfold rust_asks, rust_grp, used_adds in *. destruct (ru_module i) as [md m'|m' a].
      - destruct A as [-> A]. destruct (rust_effective mode md).
        + exists (EName (ru_name i, ru_alias i)). split; auto. split; [discriminate|]. eauto.
        + destruct A as [-> [p [r A]]]. exists ESelf. split; auto. split; [|eauto]. intros _.
          apply contains_spec. exists p, r. exact A.
      - destruct A as [-> ->]. exists (EAlias a). split; auto. split; [discriminate|]. eauto. }
    destruct X as (e & -> & C & f & G & AD).
    destruct (proj2 (in_rust_map t m e)) as (u & H1 & H2).
    { exists i, f. split; [apply walk_set; auto|auto]. }
    assert (IN : In (elem_leaf e) (map leaf_of (rust_iter m u))) by (apply in_iter; eauto).
    exists (map leaf_of (rust_iter m u)). split; [|exact IN]. apply filter_In. split.
    + apply in_map_iff. exists (m, u). auto.
    + cbn [snd]. destruct (map leaf_of (rust_iter m u)); [destruct IN|reflexivity].
Qed.

Lemma filter_sorted {A} (R : A -> A -> Prop) p l : StronglySorted R l -> StronglySorted R (filter p l).
Proof.
  induction 1 as [|x l S IH F]; cbn; [constructor|]. destruct (p x); auto. constructor; auto.
  apply Forall_forall. intros y Hy. apply filter_In in Hy as [Hy _]. rewrite Forall_forall in F; auto.
Qed.
Lemma rust_mods_sorted t : increasing cmp_item_str (map fst (rust_mods t)).
Proof.
  pose proof (rust_map_sorted t) as S. unfold rust_mods, rust_mods_of, keys in *.
  induction (rust_map t) as [|[m u] l IH]; cbn; [constructor|]. inversion S as [|? ? S' F]; subst.
  destruct (map leaf_of (rust_iter m u)) eqn:E; cbn; [apply IH; auto|]. constructor; [apply IH; auto|].
  apply Forall_forall. intros y Hy. rewrite Forall_forall in F. apply F.
  apply in_map_iff in Hy as [[y' ls] [<- Hy]]. apply filter_In in Hy as [Hy _].
  apply in_map_iff in Hy as [[m' u'] [[= <- _] Hy]]. apply in_map_iff. exists (m', u'). auto.
Qed.
Lemma map_sorted {A B} (R : A -> A -> Prop) (Q : B -> B -> Prop) (f : A -> B) l :
  (forall x y, R x y -> Q (f x) (f y)) -> StronglySorted R l -> StronglySorted Q (map f l).
Proof.
  intros H. induction 1 as [|x l S IH F]; cbn; constructor; auto.
  apply Forall_forall. intros y Hy. apply in_map_iff in Hy as [z [<- Hz]]. rewrite Forall_forall in F; auto.
Qed.
Lemma app_sorted {A} (R : A -> A -> Prop) l1 l2 : StronglySorted R l1 -> StronglySorted R l2 ->
  (forall x y, In x l1 -> In y l2 -> R x y) -> StronglySorted R (l1 ++ l2).
Proof.
  induction 1 as [|x l S IH F]; cbn; intros S2 H; auto. constructor.
  - apply IH; auto.
  - apply Forall_app. split; auto. apply Forall_forall. intros; apply H; auto.
Qed.
Lemma iter_sorted m u : used_ok u ->
  StronglySorted (rust_leaf_before name_before) (map leaf_of (rust_iter m u)).
Proof.
  intros [S1 S2]. unfold rust_iter. rewrite !map_app. apply app_sorted; [|apply app_sorted|].
  - destruct (u_self u && contains rust_sep (content m)); repeat constructor.
  - rewrite map_map. eapply map_sorted; [|exact S1]. intros x y H. cbn. apply name_before_cmp; auto.
  - rewrite map_map. eapply map_sorted; [|exact S2]. intros [n x] [n2 y] H. cbn.
    assert (HB : pair_before name_before (opt_before name_before) (n, x) (n2, y)).
    { eapply pair_before_cmp; eauto using name_before_cmp, item_str_order, opt_before_cmp. }
    clear H. destruct HB as [H|[E H]]; cbn in *; auto.
  - intros x y Hx Hy. apply in_map_iff in Hx as [a [<- Hx]], Hy as [b [<- Hy]].
    apply in_map_iff in Hx as [a' [<- Hx]]. apply in_map_iff in Hy as [[n b'] [<- Hy]]. exact I.
  - intros x y Hx Hy. apply in_map_iff in Hx as [a [<- Hx]].
    destruct (u_self u && contains rust_sep (content m)); [destruct Hx as [<-|[]]|destruct Hx].
    apply in_app_or in Hy as [Hy|Hy]; apply in_map_iff in Hy as [b [<- Hy]];
      apply in_map_iff in Hy as [b' [<- Hy]]; try destruct b'; exact I.
Qed.
Lemma rust_leaves_ok t m leaves : In (m, leaves) (rust_mods t) ->
  leaves <> [] /\ StronglySorted (rust_leaf_before name_before) leaves.
Proof.
  unfold rust_mods, rust_mods_of. intros H. apply filter_In in H as [H NE]. split.
  - cbn in NE. destruct leaves; discriminate.
  - apply in_map_iff in H as [[m' u] [[= -> <-] H]]. apply iter_sorted. eapply rust_map_ok; eauto.
Qed.

Definition rust_named (i : rust_import) : Prop :=
  named (ru_name i) /\ opt_named (ru_alias i) /\
  match ru_module i with RModule _ m => named m | RAliased m a => named m /\ named a end.

Lemma rust_placed cs body body' : let t := build cs in
  Forall rust_named (uses t) ->
  renders rust_lang cfg mode tt t body -> carried (rust_format_item mode) (c_indentation cfg) t body body' ->
  file_renders rust_lang cfg mode t (placed_file (c_newline cfg) (map rust_use_line (rust_mods t)) body body').
Proof.
  intros t N R CS. rewrite Forall_forall in N.
  eapply file_before with (acts := rust_line_acts); try eassumption; try reflexivity; try open_quote; [|apply rust_header].
  apply Forall_forall. intros [m leaves] H. apply rust_line_ok.
  destruct (rust_leaves_ok t m leaves H) as [NE _].
  assert (NK : forall l, In l leaves -> named m /\ leaf_named l).
  { intros l Hl. destruct (proj1 (in_rust_mods cs m l)) as (i & Hi & A); [eauto|].
    specialize (N i Hi). destruct N as [N1 [N2 N3]]. unfold rust_asks in A.
    destruct (ru_module i) as [md m'|m' a].
    - destruct A as [-> A]. destruct (rust_effective mode md); [subst l; cbn; auto|].
      destruct A as [-> _]. cbn. auto.
    - destruct A as [-> ->]. cbn. tauto. }
  split; [|split; auto].
  - destruct leaves as [|l ls]; [congruence|]. apply (NK l). left; auto.
  - apply Forall_forall. intros l Hl. apply NK; auto.
Qed.
Lemma rust_file cs body : let t := build cs in
  Forall rust_named (uses t) ->
  renders rust_lang cfg mode tt t body -> (body <> [] -> clean_start (rust_format_item mode) t) ->
  file_renders rust_lang cfg mode t (file_text (c_newline cfg) (map rust_use_line (rust_mods t)) body).
Proof.
  intros t N R CS. rewrite <- placed_same. apply rust_placed; auto.
  apply (carried_clean rust_lang cfg mode tt t body); auto. open_quote.
Qed.
End Rust.
