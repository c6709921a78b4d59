(** * Exactly when the order of uses changes a JavaScript header (C46). *)
From Verif Require Import Str SpecStr StrFacts Quote SpecLex LexFacts QuoteFacts AlphabetFacts Tokens SpecTokens TokensRun Values Fmt SpecFmt
  StringFacts Order OrderFacts SpecOrder SpecFile SpecHeader SpecLang HeaderFacts FileFacts GroupFacts LangBase LangJs SpecJs JsFacts PropsNames PropsJs PropsHeader.

(** Names on one line. *)
Definition one_line_name (s : item_str) : Prop := ~ In 10%N (content s) /\ ~ In 13%N (content s).
Definition one_line_import (i : js_import) : Prop :=
  one_line_name (js_name i) /\ match js_alias i with Some a => one_line_name a | None => True end.

(** ** Lines *)
Definition unbroken (s : str) : Prop := ~ In 10%N s /\ ~ In 13%N s.
Lemma unbroken_app a b : unbroken a -> unbroken b -> unbroken (a ++ b).
Proof. intros [A1 A2] [B1 B2]. split; rewrite in_app_iff; tauto. Qed.
Lemma unbroken_char c : unbroken (js_char c).
Proof.
  assert (F : Forall (fun x => x <> 10%N /\ x <> 13%N) (js_char c)).
  { apply (form_chars no_control); [unfold no_control; intros; lia|unfold printable; intros; lia|].
    unfold js_char. esc_named. destruct (is_control c) eqn:Ct; cbn [negb].
    - destruct (N.ltb_spec c 256).
      + apply (qf_esc _ 120 (hex_pad 2 c)); [unfold printable; lia|apply hex_pad_plain].
      + apply (qf_esc _ 117 ($"{" ++ hex c ++ $"}")); [unfold printable; lia|plain_list].
    - apply not_control in Ct. apply qf_raw; unfold no_control; lia. }
  rewrite Forall_forall in F. split; intros H; destruct (F _ H); congruence.
Qed.
Lemma unbroken_literal s : unbroken (quoted_text js_ops s).
Proof.
  unfold quoted_text. apply (unbroken_app [34%N]); [split; intros [|[]]; discriminate|]. apply unbroken_app; [|split; intros [|[]]; discriminate].
  cbn [l_write_quoted js_ops]. unfold js_write_quoted. induction s as [|c s IH]; [split; intros []|]. cbn [map concat]. apply unbroken_app; [apply unbroken_char|exact IH].
Qed.
Lemma unbroken_join l : Forall unbroken l -> unbroken (join $", " l).
Proof.
  induction 1 as [|a l H F IH]; [split; intros []|]. destruct l as [|b l]; [exact H|]. change (join $", " (a :: b :: l)) with (a ++ $", " ++ join $", " (b :: l)).
  apply unbroken_app; [exact H|]. apply unbroken_app; [|exact IH]. split; cbn; intuition discriminate.
Qed.
Ltac fixed := split; cbn; intuition discriminate.
Lemma unbroken_wild from k : one_line_name (snd k) -> unbroken (js_wildcard_line (quoted_text js_ops) from k).
Proof. intros H. unfold js_wildcard_line. repeat apply unbroken_app; try exact H; try apply unbroken_literal; fixed. Qed.
Lemma unbroken_module from m d es : match d with Some d => one_line_name d | None => True end ->
  Forall (fun e => match e with EPlain n => one_line_name n | EAliased n a => one_line_name n /\ one_line_name a end) es ->
  unbroken (js_module_line (quoted_text js_ops) from (m, (d, es))).
Proof.
  intros H F. unfold js_module_line. repeat apply unbroken_app; try apply unbroken_literal; try fixed.
  - destruct d; [exact H|fixed].
  - destruct d, es; fixed.
  - destruct es as [|e es]; [fixed|]. repeat apply unbroken_app; try fixed. apply unbroken_join. apply Forall_map. eapply Forall_impl; [|exact F].
    intros [n|n a] X; cbn [js_element_text]; [exact X|]. destruct X. repeat apply unbroken_app; try assumption; fixed.
Qed.
Lemma split_char {A} (c : A) a : forall x b y, ~ In c a -> ~ In c b -> a ++ c :: x = b ++ c :: y -> a = b /\ x = y.
Proof.
  induction a as [|e a IH]; intros x [|e' b] y H1 H2 E; cbn in *.
  - injection E as E. auto.
  - injection E as <- _. tauto.
  - injection E as -> _. tauto.
  - injection E as <- E. destruct (IH x b y) as [-> ->]; auto.
Qed.
Lemma stack_inj c nl l1 : forall l2, length l1 = length l2 -> Forall (fun l => ~ In c l) l1 -> Forall (fun l => ~ In c l) l2 ->
  stack (c :: nl) l1 = stack (c :: nl) l2 -> l1 = l2.
Proof.
  induction l1 as [|a l1 IH]; intros [|b l2] L F1 F2 E; try discriminate; [reflexivity|]. injection L as L. apply Forall_cons_iff in F1 as [A1 F1], F2 as [B1 F2].
  destruct l1 as [|a' l1], l2 as [|b' l2]; try discriminate; [cbn in E; congruence|].
  change (a ++ c :: (nl ++ stack (c :: nl) (a' :: l1)) = b ++ c :: (nl ++ stack (c :: nl) (b' :: l2))) in E. apply split_char in E as [-> E]; auto.
  apply app_inv_head in E. rewrite (IH _ L F1 F2 E). reflexivity.
Qed.
Lemma file_text_inj nl h1 h2 body : nl <> [] -> Forall (fun l => l <> []) h2 -> file_text nl h1 body = file_text nl h2 body -> h2 <> [] -> h1 <> [] /\ stack nl h1 = stack nl h2.
Proof.
  intros NN F E H2. unfold file_text in E. apply app_inv_tail in E.
  assert (S2 : stack nl h2 <> []).
  { destruct h2 as [|a [|b h2]]; [congruence| |]; apply Forall_inv in F; cbn; [exact F|]. destruct a; [congruence|discriminate]. }
  destruct h1 as [|a h1].
  - exfalso. destruct h2 as [|b h2]; [congruence|]. destruct body as [|x body]; [congruence|]. apply (f_equal (@length N)) in E. rewrite !app_length in E. destruct nl; [congruence|]. cbn [length] in E. lia.
  - split; [discriminate|]. destruct h2 as [|b h2]; [congruence|]. destruct body as [|x body]; [exact E|]. apply app_inv_tail in E. exact E.
Qed.

(** ** Lists with the same keys *)
Lemma by_key {K V B} (f : K * V -> B) (l1 : list (K * V)) : forall l2, map fst l1 = map fst l2 -> NoDup (map fst l1) ->
  (map f l1 = map f l2 <-> forall k x y, In (k, x) l1 -> In (k, y) l2 -> f (k, x) = f (k, y)).
Proof.
  induction l1 as [|[k x] l1 IH]; intros [|[k' y] l2] E D; try discriminate; [split; [intros _ ? ? ? []|reflexivity]|].
  cbn [map fst] in E, D. injection E as <- E. apply NoDup_cons_iff in D as [D1 D2]. cbn [map]. split.
  - intros H. injection H as H H3. intros k2 x2 y2 [E1|H1] [E2|H2].
    + injection E1 as <- <-. injection E2 as <-. exact H.
    + injection E1 as <- <-. exfalso. apply D1. rewrite E. apply in_map_iff. exists (k, y2). auto.
    + injection E2 as <- <-. exfalso. apply D1. apply in_map_iff. exists (k, x2). auto.
    + apply (proj1 (IH l2 E D2) H3); assumption.
  - intros H. f_equal; [apply H; left; reflexivity|]. apply (IH l2 E D2). intros k2 x2 y2 H1 H2. apply H; right; assumption.
Qed.

Section Same.
Context (cs1 cs2 : list (call js_import)).
Notation t1 := (build cs1). Notation t2 := (build cs2).
Hypothesis S : same_set (uses t1) (uses t2).
Lemma keys_same : map fst (js_mods t1) = map fst (js_mods t2).
Proof.
  apply (increasing_unique module_order); [apply js_mods_sorted|apply js_mods_sorted|]. intros m.
  pose proof (js_mods_keys cs1 m) as E1. pose proof (js_mods_keys cs2 m) as E2. cbv zeta in E1, E2. rewrite E1, E2.
  split; intros (i & H & R); exists i; (split; [apply S; auto|auto]).
Qed.
Lemma elements_same m r1 r2 : In (m, r1) (js_mods t1) -> In (m, r2) (js_mods t2) -> r_set r1 = r_set r2.
Proof.
  intros I1 I2. apply (increasing_unique element_order); eauto using js_elements_sorted. intros e.
  assert (X : forall cs r (H : In (m, r) (js_mods (build cs))), In e (r_set r) <->
     exists i, In i (uses (build cs)) /\ js_import_kind i = KNamed /\ js_import_module i = m /\ js_asks i = e).
  { intros cs r H. rewrite <- (in_js_elements cs m e). split; [eauto|]. intros (r' & I' & H').
    apply (get_in module_order) in H, I'; try apply js_mods_sorted. congruence. }
  rewrite (X cs1 r1 I1), (X cs2 r2 I2). split; intros (i & H & R); exists i; (split; [apply S; auto|auto]).
Qed.
Lemma first_in us m d : first_default us m d -> exists i, In i us /\ js_import_kind i = KDefault /\ js_import_module i = m /\ js_name i = d.
Proof. intros (b & i & a & -> & H1 & H2 & H3 & _). exists i. split; [apply in_elt|auto]. Qed.
Lemma first_unique us m d1 d2 : first_default us m d1 -> first_default us m d2 -> d1 = d2.
Proof.
  intros (b & i & a & -> & H1 & H2 & H3 & H4) (b' & i' & a' & E & G1 & G2 & G3 & G4). revert b' E G4 H4. induction b as [|x b IH]; intros [|x' b'] E G4 H4.
  - injection E as -> _. congruence.
  - injection E as -> _. exfalso. apply (G4 x'); [left; reflexivity|assumption|assumption].
  - injection E as <- _. exfalso. apply (H4 x); [left; reflexivity|assumption|assumption].
  - injection E as _ E. apply (IH b' E); intros j Hj; [apply G4|apply H4]; right; exact Hj.
Qed.
Lemma defaults_same : (forall m r1 r2, In (m, r1) (js_mods t1) -> In (m, r2) (js_mods t2) ->
    option_map content (r_default r1) = option_map content (r_default r2)) <->
  (forall m d1 d2, first_default (uses t1) m d1 -> first_default (uses t2) m d2 -> content d1 = content d2).
Proof.
  split.
  - intros H m d1 d2 F1 F2.
    assert (IN : forall cs d, first_default (uses (build cs)) m d -> exists r, In (m, r) (js_mods (build cs)) /\ r_default r = Some d).
    { clear. intros cs d F. assert (K : In m (map fst (js_mods (build cs)))).
      { apply js_mods_keys. apply first_in in F as (i & H1 & H2 & H3 & _). exists i. rewrite H2. repeat split; auto. discriminate. }
      apply in_map_iff in K as [[m' r] [E K]]. cbn in E. subst m'. exists r. split; [exact K|]. pose proof (js_default_in cs m r K) as D. cbv zeta in D.
      destruct (r_default r) as [d'|]; [f_equal; eauto using first_unique|]. exfalso. apply first_in in F as (i & H1 & H2 & H3 & _). apply (D i); assumption. }
    destruct (IN cs1 d1 F1) as (r1 & I1 & D1), (IN cs2 d2 F2) as (r2 & I2 & D2). specialize (H m r1 r2 I1 I2). rewrite D1, D2 in H. cbn in H. congruence.
  - intros H m r1 r2 I1 I2. pose proof (js_default_in cs1 m r1 I1) as D1. pose proof (js_default_in cs2 m r2 I2) as D2. cbv zeta in D1, D2.
    destruct (r_default r1) as [d1|], (r_default r2) as [d2|]; cbn [option_map]; auto.
    + f_equal. eauto.
    + apply first_in in D1 as (i & A1 & A2 & A3 & _). exfalso. apply (D2 i); auto. apply S; auto.
    + apply first_in in D2 as (i & A1 & A2 & A3 & _). exfalso. apply (D1 i); auto. apply S; auto.
Qed.
End Same.

(** The headers of two streams with the same uses have the same text exactly if for
    each module the first default import is called the same in both. *)
Theorem C46_js_exact : forall relative cfg module_path cs1 cs2 body1 body2, let t1 := build cs1 in let t2 := build cs2 in
  same_set (uses t1) (uses t2) -> Forall js_named (uses t1) -> Forall one_line_import (uses t1) ->
  c_newline cfg = [10%N] \/ c_newline cfg = [13; 10]%N ->
  body_of (js_lang relative) cfg module_path tt t1 body1 -> body_of (js_lang relative) cfg module_path tt t2 body2 ->
  (same_header_text (js_lang relative) cfg module_path t1 t2 <->
   forall m d1 d2, first_default (uses t1) m d1 -> first_default (uses t2) m d2 -> content d1 = content d2).
Proof.
  intros relative cfg mp cs1 cs2 body1 body2 t1 t2 S N O NL B1 B2.
  pose proof (forall_same _ _ _ S N) as N2. pose proof (forall_same _ _ _ S O) as O2.
  assert (KW : js_wilds t1 = js_wilds t2) by (apply (collect_same wildcard_order), walk_same, S).
  pose proof (keys_same cs1 cs2 S) as KM. fold t1 t2 in KM.
  set (lit := quoted_text js_ops). set (from := js_specifier relative mp).
  set (line := fun k => js_module_line lit from (module_view k)).
  assert (ND : NoDup (map fst (js_mods t1))) by (apply (increasing_nodup cmp_js_module _ module_order), js_mods_sorted).
  assert (EQ : map line (js_mods t1) = map line (js_mods t2) <->
    (forall m d1 d2, first_default (uses t1) m d1 -> first_default (uses t2) m d2 -> content d1 = content d2)).
  { rewrite (by_key line _ _ KM ND). etransitivity; [|exact (defaults_same cs1 cs2 S)]. fold t1 t2. split; intros H m r1 r2 I1 I2; specialize (H m r1 r2 I1 I2); pose proof (elements_same cs1 cs2 S m r1 r2 I1 I2) as ES.
    - unfold line, module_view, js_module_line in H. cbn [fst snd] in H. rewrite ES in H. apply app_inv_head in H. rewrite !app_assoc in H. apply app_inv_tail in H. apply app_inv_tail in H.
      apply app_inv_tail in H. apply app_inv_tail in H.
      pose proof (js_default_in cs1 m r1 I1) as D1. pose proof (js_default_in cs2 m r2 I2) as D2. cbv zeta in D1, D2. fold t1 in D1. fold t2 in D2.
      destruct (r_default r1) as [d1|], (r_default r2) as [d2|]; cbn [option_map]; auto.
      + f_equal. destruct (r_set r2); [rewrite !app_nil_r in H; exact H|apply app_inv_tail in H; exact H].
      + apply first_in in D1 as (i & A1 & A2 & A3 & _). exfalso. apply (D2 i); auto. apply S; auto.
      + apply first_in in D2 as (i & A1 & A2 & A3 & _). exfalso. apply (D1 i); auto. apply S; auto.
    - unfold line, module_view, js_module_line. cbn [fst snd]. rewrite ES. destruct (r_default r1) as [d1|], (r_default r2) as [d2|]; try discriminate; [|reflexivity].
      cbn [option_map] in H. assert (E : content d1 = content d2) by congruence. rewrite E. reflexivity. }
  rewrite <- EQ. clear EQ.
  assert (FF : forall cs body, Forall js_named (uses (build cs)) -> body_of (js_lang relative) cfg mp tt (build cs) body ->
    file_renders (js_lang relative) cfg mp (build cs) (file_text (c_newline cfg) (map (js_wildcard_line lit from) (js_wilds (build cs)) ++ map line (js_mods (build cs))) body)).
  { intros cs body NA [R C]. unfold line. rewrite <- (map_map module_view). apply js_file; assumption. }
  assert (UB : forall cs, Forall one_line_import (uses (build cs)) -> Forall unbroken (map (js_wildcard_line lit from) (js_wilds (build cs)) ++ map line (js_mods (build cs)))).
  { clear. intros cs O. rewrite Forall_forall in O. apply Forall_app. split; apply Forall_map, Forall_forall.
    - intros [m n] H. apply unbroken_wild. apply in_js_wilds in H as (i & Hi & _ & _ & <-). apply O. exact Hi.
    - intros [m r] H. unfold line, module_view. cbn [fst snd]. apply unbroken_module.
      + pose proof (js_default_in cs m r H) as D. cbv zeta in D. destruct (r_default r) as [d|]; [|exact I]. apply first_in in D as (i & Hi & _ & _ & <-). apply O. exact Hi.
      + apply Forall_forall. intros e He. destruct (proj1 (in_js_elements cs m e)) as (i & Hi & _ & _ & <-); [eauto|]. destruct (O i Hi) as [O1 O2]. unfold js_asks. destruct (js_alias i); auto. }
  split.
  - intros (h & [] & H). destruct (H body1 body2 B1 B2) as [H1 H2]. unfold file_renders in H1, H2.
    pose proof (FF cs1 body1 N B1) as R1. pose proof (FF cs2 body2 N2 B2) as R2. unfold file_renders in R1, R2. fold t1 in R1. fold t2 in R2. rewrite H1 in R1. rewrite H2 in R2.
    assert (SI : forall a b : str, (a, true) = (b, true) -> a = b) by congruence. apply SI in R1, R2. rewrite <- KW in R2.
    destruct (js_mods t1) as [|k1 l1] eqn:M1; [destruct (js_mods t2); [reflexivity|discriminate]|]. destruct (js_mods t2) as [|k2 l2] eqn:M2; [discriminate|]. rewrite <- M1, <- M2 in *. 
    assert (NE : forall cs, Forall js_named (uses (build cs)) -> Forall (fun l => l <> []) (map (js_wildcard_line lit from) (js_wilds (build cs)) ++ map line (js_mods (build cs)))).
    { intros cs _. apply Forall_app. split; apply Forall_map, Forall_forall; intros k _; [discriminate|]. unfold line, module_view. discriminate. }
    assert (NN : c_newline cfg <> []) by (destruct NL as [->| ->]; discriminate).
    assert (X1 : map (js_wildcard_line lit from) (js_wilds t1) ++ map line (js_mods t1) <> []) by (intros E; apply app_eq_nil in E as [_ E]; rewrite M1 in E; discriminate).
    assert (X2 : map (js_wildcard_line lit from) (js_wilds t1) ++ map line (js_mods t2) <> []) by (intros E; apply app_eq_nil in E as [_ E]; rewrite M2 in E; discriminate).
    apply file_text_inj in R1 as [_ R1]; [|exact NN|apply (NE cs1 N)|exact X1].
    apply file_text_inj in R2 as [_ R2]; [|exact NN|rewrite KW; apply (NE cs2 N2)|exact X2].
    rewrite R1 in R2.
    assert (LL : length (map (js_wildcard_line lit from) (js_wilds t1) ++ map line (js_mods t1)) = length (map (js_wildcard_line lit from) (js_wilds t1) ++ map line (js_mods t2))).
    { rewrite !app_length, !map_length. apply (f_equal (@length _)) in KM. rewrite !map_length in KM. lia. }
    pose proof (UB cs1 O) as U1. pose proof (UB cs2 O2) as U2. fold t1 in U1. fold t2 in U2. rewrite <- KW in U2.
    assert (E : map (js_wildcard_line lit from) (js_wilds t1) ++ map line (js_mods t1) = map (js_wildcard_line lit from) (js_wilds t1) ++ map line (js_mods t2)).
    { destruct NL as [NL|NL]; rewrite NL in R2; eapply stack_inj; try exact R2; try exact LL; (eapply Forall_impl; [|first [exact U1|exact U2]]; intros l [Ul Ul2]; assumption). }
    apply app_inv_head in E. exact E.
  - intros E. exists (map (js_wildcard_line lit from) (js_wilds t1) ++ map line (js_mods t1)), tt. intros b1 b2 C1 C2. split; [apply (FF cs1); assumption|].
    rewrite E, KW. apply (FF cs2); assumption.
Qed.
Print Assumptions C46_js_exact.

Example C46_js_exact_example : let t1 := build (ex_calls ex_js_defaults) in let t2 := build (ex_calls (rev ex_js_defaults)) in
  same_set (uses t1) (uses t2) /\ Forall js_named (uses t1) /\ Forall one_line_import (uses t1) /\
  body_of (js_lang no_relative) ex_cfg None tt t1 ($"a" ++ [10%N] ++ $"b") /\
  body_of (js_lang no_relative) ex_cfg None tt t2 ($"b" ++ [10%N] ++ $"a") /\
  ~ (forall m d1 d2, first_default (uses t1) m d1 -> first_default (uses t2) m d2 -> content d1 = content d2).
Proof.
  split; [vm_compute; intuition congruence|]. split; [repeat constructor; discriminate|].
  split; [repeat constructor; vm_compute; intuition discriminate|].
  split; [split; [vm_compute; reflexivity|plain_start]|]. split; [split; [vm_compute; reflexivity|plain_start]|].
  intros H. assert (X : content (Static $"a") = content (Static $"b")); [|discriminate X].
  apply (H (MGlobal (Static $"m"))).
  - eexists [], _, _. split; [vm_compute; reflexivity|]. repeat split. intros j [].
  - eexists [], _, _. split; [vm_compute; reflexivity|]. repeat split. intros j [].
Qed.
