(** * The parser of quotes accepts the grammar. *)
From Verif Require Import Str StrFacts Tokens SpecTokens TokensRun Values Macro Parse SpecParse.

Lemma str_eqb_refl : forall s, str_eqb s s = true.
Proof. intros s. apply str_eqb_eq. reflexivity. Qed.
Lemma keyword_false : forall s, keyword s = false <-> ~ In s keywords.
Proof.
  intros s. unfold keyword. split.
  - intros H I. assert (existsb (str_eqb s) keywords = true); [|congruence].
    apply existsb_exists. exists s. split; [exact I|]. apply str_eqb_refl.
  - intros N. destruct (existsb _ _) eqn:H; [|reflexivity]. apply existsb_exists in H.
    destruct H as (w & I & H). apply str_eqb_eq in H. subst. contradiction.
Qed.

Lemma bind_some : forall {A B} (o : option A) (f : A -> option B) r,
  bind o f = Some r <-> exists x, o = Some x /\ f x = Some r.
Proof.
  intros A B [x|] f r; cbn [bind]; split; intros H; [|destruct H as (y & H & F); injection H as <-; exact F|discriminate|].
  - exists x. auto.
  - destruct H as (y & H & _). discriminate.
Qed.
Ltac unbind H :=
  repeat match type of H with
  | bind ?o ?f = Some ?r =>
      let x := fresh "x" in let H1 := fresh "B" in
      apply bind_some in H; destruct H as (x & H1 & H); try (destruct x as [? ?])
  end.

Scheme reads_min := Minimality for reads Sort Prop
  with reads_form_min := Minimality for reads_form Sort Prop
  with reads_join_min := Minimality for reads_join Sort Prop
  with reads_block_min := Minimality for reads_block Sort Prop
  with reads_arms_min := Minimality for reads_arms Sort Prop
  with reads_more_min := Minimality for reads_more Sort Prop
  with reads_head_min := Minimality for reads_head Sort Prop
  with reads_text_min := Minimality for reads_text Sort Prop.

(** Patterns on a dollar sign. *)
Ltac bits ch :=
  destruct ch as [|p]; [reflexivity|]; do 6 (try (destruct p as [p|p|]; try reflexivity)); congruence.

Section Parse.
Context {LI E P X : Type} (R : rust LI E P X).
Local Notation quoted := (quoted_item LI E).
Local Notation strung := (string_item LI E).

(** ** Soundness *)

Lemma word_some : forall w ts rest, word w ts = Some rest <-> exists c, ts = TIdent c w :: rest.
Proof.
  intros w ts rest. split.
  - destruct ts as [|[]]; cbn; try discriminate. destruct (str_eqb _ _) eqn:S; [|discriminate].
    apply str_eqb_eq in S. intros H. injection H as <-. subst. eauto.
  - intros (c & ->). cbn. rewrite str_eqb_refl. reflexivity.
Qed.
Lemma arrow_some : forall ts rest, arrow ts = Some rest <->
  exists c1 c2 j, ts = TPunct c1 61 true :: TPunct c2 62 j :: rest.
Proof.
  intros ts rest. split.
  - intros H. unfold arrow in H.
    repeat match type of H with match ?x with _ => _ end = _ => destruct x; try discriminate end.
    injection H as <-. eauto.
  - intros (c1 & c2 & j & ->). reflexivity.
Qed.
Lemma comma_some : forall ts rest, comma ts = Some rest <-> exists c j, ts = TPunct c 44 j :: rest.
Proof.
  intros ts rest. split.
  - intros H. unfold comma in H.
    repeat match type of H with match ?x with _ => _ end = _ => destruct x; try discriminate end.
    injection H as <-. eauto.
  - intros (c1 & j & ->). reflexivity.
Qed.
Lemma comma_none : forall ts, comma ts = None <-> match ts with t :: _ => ~ a_comma t | [] => True end.
Proof.
  intros ts. destruct (comma ts) eqn:H.
  - apply comma_some in H. destruct H as (c & j & ->). cbn. split; [discriminate|]. intros N. exfalso. apply N. reflexivity.
  - split; [intros _|auto]. destruct ts as [|[]]; auto; cbn; try tauto.
    intros ->. cbn in H. discriminate.
Qed.

(** What a parser of elements returns. *)
Definition sound (items : bool -> list tree -> option (list quoted * list tree)) : Prop :=
  forall b ts qs rest, items b ts = Some (qs, rest) ->
  exists block, ts = block ++ rest /\ reads R block qs /\
  (b = false -> rest = []) /\
  (b = true -> Forall (fun t => ~ a_comma t) block /\ match rest with t :: _ => a_comma t | [] => True end).

Section Sound.
Variable items : bool -> list tree -> option (list quoted * list tree).
Hypothesis S : sound items.

Lemma whole_sound : forall ts qs, whole items ts = Some qs -> reads R ts qs.
Proof.
  intros ts qs H. unfold whole in H. destruct (items false ts) as [[qs' rest]|] eqn:I; [|discriminate].
  destruct rest; [|discriminate]. injection H as <-. destruct (S _ _ _ _ I) as (b & -> & W & _).
  rewrite app_nil_r. exact W.
Qed.

Lemma condition_sound : forall c k ts q, parse_condition R items c ts = Some q ->
  reads_form R c (TIdent k $"if" :: ts) q.
Proof.
  intros c k ts q H. unfold parse_condition in H. unbind H.
  destruct (arrow l) eqn:A.
  - unbind H. injection H as <-. apply arrow_some in A. destruct A as (c1 & c2 & j & ->).
    eapply form_if; [exact B|]. apply whole_sound. exact B0.
  - destruct l as [|[] l]; try discriminate. destruct d; try discriminate. unbind H. apply whole_sound in B0.
    destruct (word _ l) eqn:W.
    + apply word_some in W. destruct W as (e & ->).
      destruct l0 as [|[] [|]]; try discriminate; destruct d; try discriminate. unbind H. injection H as <-.
      eapply form_if_else; [exact B|exact B0|]. apply whole_sound. assumption.
    + destruct l; [|discriminate]. injection H as <-. eapply form_if_block; eassumption.
Qed.

Lemma loop_sound : forall c k ts q, parse_loop R items c ts = Some q ->
  reads_form R c (TIdent k $"for" :: ts) q.
Proof.
  intros c k ts q H. unfold parse_loop in H. unbind H.
  apply word_some in B0. destruct B0 as (i & ->).
  assert (J : reads_join R l0 o l1). {
    destruct (word $"join" l0) as [w|] eqn:W.
    - apply word_some in W. destruct W as (kk & ->). destruct w as [|[] w]; try discriminate. destruct d; try discriminate.
      unbind B2. injection B2 as <- <-. constructor. apply whole_sound. assumption.
    - injection B2 as <- <-. apply join_none. destruct l0 as [|[]]; auto.
      intros ->. cbn in W. discriminate. }
  assert (K : exists body, reads_block R l1 body /\ q = QLoop c (r_each R p x0) o body). {
    destruct (arrow l1) eqn:A.
    - apply arrow_some in A. destruct A as (c1 & c2 & j & ->). unbind H. injection H as <-.
      eexists. split; [|reflexivity]. apply (block_arrow R c1 c2 j). apply whole_sound. assumption.
    - destruct l1 as [|[] [|]]; try discriminate; destruct d; try discriminate. unbind H. injection H as <-.
      eexists. split; [|reflexivity]. apply block_braces. apply whole_sound. assumption. }
  destruct K as (body & K & ->). eapply form_for; eassumption.
Qed.

Lemma head_sound : forall ts head rest, parse_arm_head R ts = Some (head, rest) -> reads_head R ts head rest.
Proof.
  intros ts head rest H. unfold parse_arm_head in H. unbind H.
  apply arrow_some in B1. destruct B1 as (c1 & c2 & j & ->). injection H as <- <-.
  destruct (word $"if" l) as [w|] eqn:W.
  - apply word_some in W. destruct W as (k & ->). unbind B0. injection B0 as <- ->.
    apply (head_guard R ts p k w x0 c1 c2 j); assumption.
  - injection B0 as <- ->. apply (head_bare R ts p c1 c2 j). assumption.
Qed.
Lemma arms_sound : forall n ts arms, parse_arms R items n ts = Some arms -> reads_arms R ts arms.
Proof.
  intros n. induction n as [|n IH]; intros ts arms H; destruct ts as [|t ts]; try discriminate;
    try (injection H as <-; constructor).
  cbn [parse_arms] in H. unbind H. injection H as <-. apply head_sound in B.
  assert (M : reads_more R l0 x). {
    destruct (comma l0) as [w|] eqn:C.
    - apply comma_some in C. destruct C as (c & j & ->). constructor. apply IH. assumption.
    - apply comma_none in C. apply more_none; [exact C|]. apply IH. assumption. }
  assert (NE : t :: ts <> []) by discriminate.
  rename p into head. destruct p0 as [o b]. unfold parse_arm_block in B0.
  assert (Bare : match l with TGroup _ Brace _ :: _ | TGroup _ Parenthesis _ :: _ => False | _ => True end ->
    bind (items true l) (fun '(b, ts) => Some ((None, b), ts)) = Some ((o, b), l0) ->
    reads_arms R (t :: ts) ((head, (o, b)) :: x)). {
    intros N I. unbind I. injection I as <- <- <-. destruct (S _ _ _ _ B2) as (block & -> & W & _ & Y).
    destruct (Y eq_refl) as [Y1 Y2]. eapply arms_bare; eassumption. }
  destruct l as [|[] l]; try (apply Bare; [exact I|exact B0]).
  destruct d.
  - unbind B0. injection B0 as <- <- <-. eapply arms_parens; try eassumption. apply whole_sound. assumption.
  - unbind B0. injection B0 as <- <- <-. eapply arms_braces; try eassumption. apply whole_sound. assumption.
  - apply Bare; [exact I|exact B0].
Qed.
Lemma match_sound : forall c k ts q, parse_match R items c ts = Some q ->
  reads_form R c (TIdent k $"match" :: ts) q.
Proof.
  intros c k ts q H. unfold parse_match in H. unbind H.
  destruct l as [|[] [|]]; try discriminate; destruct d; try discriminate. unbind H. injection H as <-.
  eapply form_match; [exact B|]. eapply arms_sound. eassumption.
Qed.
Lemma let_sound : forall c k ts q, parse_let R c ts = Some q ->
  reads_form R c (TIdent k $"let" :: ts) q.
Proof.
  intros c k ts q H. unfold parse_let in H. unbind H.
  destruct l as [|[] l]; try discriminate.
  repeat match type of H with match ?x with _ => _ end = _ => is_var x; destruct x; try discriminate end.
  destruct (r_head R l) as [[x [|]]|] eqn:T; try discriminate. injection H as <-.
  eapply form_let; eassumption.
Qed.
Lemma scope_sound : forall c k ts q, parse_scope R c ts = Some q ->
  reads_form R c (TIdent k $"ref" :: ts) q.
Proof.
  intros c k ts q H. unfold parse_scope in H. destruct ts as [|[] ts]; try discriminate. unbind H.
  assert (K : (exists b, ts = [TGroup b Brace x]) \/ arrow ts = Some x). {
    destruct ts as [|[] ts']; try (right; exact B). destruct d; try (right; exact B).
    left. destruct ts'; [|discriminate]. injection B as <-. eauto. }
  destruct (str_eqb s $"_") eqn:U.
  - apply str_eqb_eq in U. subst. injection H as <-. destruct K as [[b ->]|K].
    + constructor.
    + apply arrow_some in K. destruct K as (c1 & c2 & j & ->). apply (form_ref_none R c k c0 c1 c2 j).
  - destruct (keyword s) eqn:K0; [discriminate|]. apply keyword_false in K0. injection H as <-. destruct K as [[b ->]|K].
    + constructor. exact K0.
    + apply arrow_some in K. destruct K as (c1 & c2 & j & ->). apply (form_ref R c k c0 s c1 c2 j). exact K0.
Qed.

Lemma paren_sound : forall c scope q, parse_paren R items c scope = Some q -> reads_form R c scope q.
Proof.
  intros c scope q H. unfold parse_paren in H.
  destruct (word $"if" scope) as [w|] eqn:W1; [apply word_some in W1; destruct W1 as (k & ->); apply condition_sound; exact H|].
  destruct (word $"for" scope) as [w|] eqn:W2; [apply word_some in W2; destruct W2 as (k & ->); apply loop_sound; exact H|].
  destruct (word $"match" scope) as [w|] eqn:W3; [apply word_some in W3; destruct W3 as (k & ->); apply match_sound; exact H|].
  destruct (word $"let" scope) as [w|] eqn:W4; [apply word_some in W4; destruct W4 as (k & ->); apply let_sound; exact H|].
  destruct (word $"ref" scope) as [w|] eqn:W5; [apply word_some in W5; destruct W5 as (k & ->); apply scope_sound; exact H|].
  assert (K : match scope with [TStr _ _ _] => False | _ => True end ->
    match r_expr R scope with Some (x, []) => Some (QEval c (r_value R x)) | _ => None end = Some q ->
    reads_form R c scope q). {
    intros N H'. destruct (r_expr R scope) as [[x [|]]|] eqn:T; try discriminate. injection H' as <-.
    apply form_expression; [|exact T]. destruct scope as [|[] scope]; auto.
    intros I. cbn [In] in I.
    decompose [or] I; subst; cbn in *; rewrite ?str_eqb_refl in *; try discriminate; assumption. }
  destruct scope as [|[] [|]]; try (apply K; [exact I|exact H]).
  injection H as <-. constructor.
Qed.

Lemma string_sound : forall n ts ps, length ts <= n -> parse_string R items ts = Some ps -> reads_text R ts ps.
Proof.
  intros n. induction n as [|n IH]; intros ts ps LE H; destruct ts as [|t ts]; try (cbn [length] in LE; lia);
    try (injection H as <-; constructor). cbn [length] in LE.
  assert (Plain : ~ dollar t -> parse_string R items (t :: ts) =
    bind (parse_string R items ts) (fun ps => Some (PText (tree_cursor t) (tree_text R t) :: ps))). {
    intros N. destruct t; try reflexivity. cbn [dollar] in N. cbn [parse_string].
    bits ch. }
  assert (DD : dollar t \/ ~ dollar t) by (destruct t; cbn; try tauto; destruct (N.eq_dec ch 36); tauto).
  destruct DD as [DD|DD].
  2:{ rewrite Plain in H by exact DD. unbind H. injection H as <-. apply text_plain; [exact DD|]. apply IH; [lia|assumption]. }
  destruct t; try contradiction. cbn [dollar] in DD. subst ch. clear Plain. cbn [parse_string] in H.
  destruct ts as [|[] ts]; try discriminate; cbn [length] in LE.
  - destruct (keyword s) eqn:K; [discriminate|]. apply keyword_false in K. unbind H. injection H as <-.
    apply text_variable; [exact K|]. apply IH; [lia|assumption].
  - repeat match type of H with match ?x with _ => _ end = _ => is_var x; destruct x; try discriminate end.
    unbind H. injection H as <-. apply text_dollar. apply IH; [lia|assumption].
  - destruct d; try discriminate.
    + unbind H. injection H as <-. apply text_eval; [apply whole_sound; assumption|]. apply IH; [lia|assumption].
    + destruct ts0 as [|[] [|]]; try discriminate; destruct ts as [|[] ts]; try discriminate; destruct d; try discriminate.
      destruct (str_eqb _ _) eqn:U; [|discriminate]. apply str_eqb_eq in U. subst s. cbn [length] in LE. unbind H. injection H as <-.
      assert (T : reads_text R ts x0) by (apply IH; [lia|assumption]).
      assert (K : match ts0 with [TStr _ _ _] => False | _ => True end ->
        match r_expr R ts0 with Some (y, []) => Some (PConst (join_cursor c c2) (r_value R y)) | _ => None end = Some x ->
        reads_text R (TPunct c 36 joint :: TGroup c0 Bracket [TIdent c1 $"const"] :: TGroup c2 Parenthesis ts0 :: ts) (x :: x0)). {
        intros N H'. destruct (r_expr R ts0) as [[y [|]]|] eqn:Y; try discriminate. injection H' as <-. apply text_const; assumption. }
      destruct ts0 as [|[] [|]]; try (apply K; [exact I|exact B]).
      injection B as <-. apply text_const_literal. exact T.
Qed.

Lemma control_sound : forall ch k, control_of ch = Some k ->
  In (ch, k) [(32%N, KSpace); (10%N, KLine); (13%N, KPush)].
Proof.
  intros ch k H. unfold control_of in H.
  destruct (N.eqb_spec ch 32); [injection H as <-; subst; cbn; auto|].
  destruct (N.eqb_spec ch 10); [injection H as <-; subst; cbn; auto|].
  destruct (N.eqb_spec ch 13); [injection H as <-; subst; cbn; auto|]. discriminate.
Qed.

(** One element, and what it takes of the input. *)
Lemma item_sound : forall t ts q rest, parse_item R items t ts = Some (q, rest) ->
  exists used, ts = used ++ rest /\ Forall (fun t => ~ a_comma t) used /\
  (a_comma t -> used = []) /\
  forall rest' qs, (exists more, rest = rest' ++ more) -> reads R rest' qs -> reads R ((t :: used) ++ rest') (q :: qs).
Proof.
  intros t ts q rest H.
  assert (Plain : plain t -> (dollar t -> match ts with t' :: _ => ~ opens t' | [] => True end) ->
    Some (QText (tree_cursor t) (tree_text R t), ts) = Some (q, rest) ->
    exists used, ts = used ++ rest /\ Forall (fun t => ~ a_comma t) used /\
    (a_comma t -> used = []) /\
    forall rest' qs, (exists more, rest = rest' ++ more) -> reads R rest' qs -> reads R ((t :: used) ++ rest') (q :: qs)). {
    intros N D Q. injection Q as <- <-. exists []. split; [reflexivity|]. split; [constructor|]. split; [reflexivity|].
    intros rest' qs (more & ->) W. apply reads_plain; [exact N| |exact W].
    intros T. specialize (D T). destruct rest'; [exact I|exact D]. }
  assert (DD : dollar t \/ ~ dollar t) by (destruct t; cbn; try tauto; destruct (N.eq_dec ch 36); tauto).
  destruct DD as [DD|DD].
  - destruct t; try contradiction. cbn [dollar] in DD. subst ch. cbn [parse_item] in H.
    assert (NC : forall Q : Prop, a_comma (TPunct c 36 joint) -> Q) by (intros Q; cbn; discriminate).
    destruct ts as [|t ts]; [apply Plain; [exact I|auto|exact H]|].
    destruct t; try (apply Plain; [exact I|intros _; cbn; tauto|exact H]).
    + destruct (keyword s) eqn:K.
      * apply Plain; [exact I| |exact H]. intros _. cbn [opens]. intros N. apply keyword_false in N. congruence.
      * apply keyword_false in K. injection H as <- <-. exists [TIdent c0 s]. split; [reflexivity|].
        split; [repeat constructor; cbn; tauto|]. split; [apply NC|]. intros rest' qs _ W. apply reads_variable; assumption.
    + destruct (N.eq_dec ch 36) as [->|NE].
      * injection H as <- <-. exists [TPunct c0 36 joint0]. split; [reflexivity|].
        split; [repeat constructor; cbn; discriminate|]. split; [apply NC|]. intros rest' qs _ W. apply reads_dollar; assumption.
      * apply Plain; [exact I|intros _; exact NE|]. rewrite <- H.
        bits ch.
    + destruct d.
      * unbind H. injection H as <- <-. exists [TGroup c0 Parenthesis ts0]. split; [reflexivity|].
        split; [repeat constructor; cbn; tauto|]. split; [apply NC|]. intros rest' qs _ W.
        apply reads_paren; [|exact W]. apply paren_sound. assumption.
      * apply Plain; [exact I|intros _; cbn; tauto|exact H].
      * unfold parse_function in H. destruct ts0 as [|[] [|]]; try discriminate.
        -- destruct ts as [|[] ts]; try discriminate. destruct d; try discriminate.
           destruct (str_eqb _ _) eqn:U; [|discriminate]. apply str_eqb_eq in U. subst s. unbind H. injection H as <- <-.
           exists [TGroup c0 Bracket [TIdent c1 $"str"]; TGroup c2 Parenthesis ts0]. split; [reflexivity|].
           split; [repeat constructor; cbn; tauto|]. split; [apply NC|]. intros rest' qs _ W.
           apply reads_string; [|exact W]. eapply string_sound; [|eassumption]. apply Nat.le_refl.
        -- assert (K : match ts with TGroup _ Parenthesis _ :: _ => False | _ => True end ->
             bind (control_of value) (fun k => Some (@QControl LI E (join_cursor c c0) k, ts)) = Some (q, rest) ->
             exists used, TGroup c0 Bracket [TChar c1 s value] :: ts = used ++ rest /\ Forall (fun t => ~ a_comma t) used /\
             (a_comma (TPunct c 36 joint) -> used = []) /\
             forall rest' qs, (exists more, rest = rest' ++ more) -> reads R rest' qs ->
             reads R ((TPunct c 36 joint :: used) ++ rest') (q :: qs)). {
             intros N H'. unbind H'. injection H' as <- <-. exists [TGroup c0 Bracket [TChar c1 s value]]. split; [reflexivity|].
             split; [repeat constructor; cbn; tauto|]. split; [apply NC|]. intros rest' qs (more & ->) W.
             apply reads_control; [apply control_sound; assumption| |exact W]. destruct rest'; [exact I|exact N]. }
           destruct ts as [|[] ts]; try (apply K; [exact I|exact H]).
           destruct d; try discriminate; (apply K; [exact I|exact H]).
  - destruct t; cbn [parse_item] in H; try (apply Plain; [exact I|contradiction|exact H]).
    + cbn [dollar] in DD. apply Plain; [exact I|contradiction|]. rewrite <- H.
      bits ch.
    + injection H as <- <-. exists []. split; [reflexivity|]. split; [constructor|]. split; [reflexivity|]. intros. apply reads_quoted. assumption.
    + unbind H. injection H as <- <-. exists []. split; [reflexivity|]. split; [constructor|]. split; [reflexivity|].
      intros. apply reads_group; [|assumption]. apply whole_sound. assumption.
Qed.
End Sound.

Lemma items_sound : forall n, sound (parse_items R n).
Proof.
  intros n. induction n as [|n IH]; intros b ts qs rest H; [discriminate|]. cbn [parse_items] in H.
  destruct ts as [|t ts].
  { injection H as <- <-. exists []. split; [reflexivity|]. split; [constructor|]. split; [reflexivity|]. intros _. split; [constructor|exact I]. }
  destruct (b && _) eqn:C.
  - injection H as <- <-. apply andb_prop in C. destruct C as [-> C]. exists []. split; [reflexivity|]. split; [constructor|].
    split; [discriminate|]. intros _. split; [constructor|]. destruct (comma (t :: ts)) as [w|] eqn:Y; [|discriminate].
    apply comma_some in Y. destruct Y as (c & j & Y). injection Y as -> _. reflexivity.
  - unbind H. injection H as <- <-. destruct (item_sound _ IH _ _ _ _ B) as (used & -> & F & NC & W).
    destruct (IH _ _ _ _ B0) as (block & -> & W' & Y1 & Y2). exists ((t :: used) ++ block).
    split; [rewrite <- app_assoc; reflexivity|]. split; [apply W; [eauto|exact W']|]. split; [exact Y1|].
    intros ->. destruct (Y2 eq_refl) as [Y3 Y4]. split; [|exact Y4]. cbn [app]. constructor.
    + cbn [andb] in C. intros N. destruct t; try contradiction. cbn [a_comma] in N. subst. discriminate.
    + apply Forall_app. split; assumption.
Qed.

Theorem parse_sound : forall ts qs, parse R ts = Some qs -> reads R ts qs.
Proof. intros ts qs H. eapply whole_sound; [|exact H]. apply items_sound. Qed.

(** ** Fuel *)

Lemma size_cons : forall t ts, size (t :: ts) = tree_size t + size ts.
Proof. reflexivity. Qed.
Lemma size_app : forall a b, size (a ++ b) = size a + size b.
Proof. intros a b. unfold size. rewrite map_app, list_sum_app. reflexivity. Qed.
Lemma size_group : forall c d ts, tree_size (TGroup c d ts) = S (size ts).
Proof. reflexivity. Qed.
Lemma tree_size_pos : forall t, 1 <= tree_size t.
Proof. intros []; cbn; lia. Qed.
Lemma consumes_size : forall {A} (f : list tree -> option (A * list tree)) ts x rest,
  consumes f -> f ts = Some (x, rest) -> size rest <= size ts.
Proof. intros A f ts x rest C H. destruct (C _ _ _ H) as (used & ->). rewrite size_app. lia. Qed.

Section More.
Hypothesis C : consuming R.
Variables items items' : bool -> list tree -> option (list quoted * list tree).
Variable K : nat.
Hypothesis L : forall b ts r, size ts < K -> items b ts = Some r -> items' b ts = Some r.

Let C_pat : forall ts x rest, r_pat R ts = Some (x, rest) -> size rest <= size ts.
Proof. destruct C as (C1 & C2 & C3 & C4). intros ts x rest H. exact (consumes_size _ _ _ _ C1 H). Qed.
Let C_pats : forall ts x rest, r_pats R ts = Some (x, rest) -> size rest <= size ts.
Proof. destruct C as (C1 & C2 & C3 & C4). intros ts x rest H. exact (consumes_size _ _ _ _ C2 H). Qed.
Let C_expr : forall ts x rest, r_expr R ts = Some (x, rest) -> size rest <= size ts.
Proof. destruct C as (C1 & C2 & C3 & C4). intros ts x rest H. exact (consumes_size _ _ _ _ C3 H). Qed.
Let C_head : forall ts x rest, r_head R ts = Some (x, rest) -> size rest <= size ts.
Proof. destruct C as (C1 & C2 & C3 & C4). intros ts x rest H. exact (consumes_size _ _ _ _ C4 H). Qed.
Ltac sizes :=
  repeat match goal with
  | H : r_pat R _ = Some (_, _) |- _ => apply C_pat in H
  | H : r_pats R _ = Some (_, _) |- _ => apply C_pats in H
  | H : r_expr R _ = Some (_, _) |- _ => apply C_expr in H
  | H : r_head R _ = Some (_, _) |- _ => apply C_head in H
  | H : reads_head _ _ _ _ |- _ => clear H
  end;
  repeat (rewrite ?size_cons, ?size_group, ?size_app in *); lia.

Lemma whole_more : forall ts qs, size ts < K -> whole items ts = Some qs -> whole items' ts = Some qs.
Proof.
  intros ts qs B H. unfold whole in *. destruct (items false ts) as [[qs' rest]|] eqn:I; [|discriminate].
  rewrite (L _ _ _ B I). exact H.
Qed.
Lemma condition_more : forall c ts q, size ts < K ->
  parse_condition R items c ts = Some q -> parse_condition R items' c ts = Some q.
Proof.
  intros c ts q B H. unfold parse_condition in *. unbind H. rewrite B0. cbn [bind].
  destruct (arrow l) as [w|] eqn:A.
  - unbind H. apply arrow_some in A. destruct A as (c1 & c2 & j & ->). rewrite (whole_more w x0); [exact H|sizes|exact B1].
  - destruct l as [|[] l]; try discriminate. destruct d; try discriminate. unbind H. rewrite (whole_more ts0 x0); [|sizes|exact B1]. cbn [bind].
    destruct (word _ l) as [w|] eqn:W; [|exact H]. apply word_some in W. destruct W as (e & ->).
    destruct w as [|[] [|]]; try discriminate; destruct d; try discriminate. unbind H. rewrite (whole_more ts1 x1); [exact H|sizes|assumption].
Qed.
Lemma loop_more : forall c ts q, size ts < K ->
  parse_loop R items c ts = Some q -> parse_loop R items' c ts = Some q.
Proof.
  intros c ts q B H. unfold parse_loop in *. unbind H. rewrite B0. cbn [bind]. rewrite B1. cbn [bind].
  rewrite B2. cbn [bind]. apply word_some in B1. destruct B1 as (i & ->).
  assert (S2 : size l1 <= size l0 /\ match word $"join" l0 with
        | Some (TGroup paren Parenthesis js :: ts) => bind (whole items' js) (fun js => Some (Some (paren, js), ts))
        | Some _ => None
        | None => Some (None, l0)
        end = Some (o, l1)). {
    destruct (word $"join" l0) as [w|] eqn:W.
    - apply word_some in W. destruct W as (kk & ->). destruct w as [|[] w]; try discriminate. destruct d; try discriminate.
      unbind B3. rewrite (whole_more ts0 x1); [|sizes|assumption]. split; [injection B3 as _ <-; sizes|exact B3].
    - injection B3 as <- <-. auto. }
  destruct S2 as [S2 S3]. rewrite S3. cbn [bind].
  destruct (arrow l1) as [w|] eqn:A.
  - apply arrow_some in A. destruct A as (c1 & c2 & j & ->). unbind H. rewrite (whole_more w x1); [exact H|sizes|assumption].
  - destruct l1 as [|[] [|]]; try discriminate; destruct d; try discriminate. unbind H. rewrite (whole_more ts0 x1); [exact H|sizes|assumption].
Qed.
Lemma head_size : forall ts head rest, parse_arm_head R ts = Some (head, rest) -> size rest < size ts.
Proof.
  intros ts head rest H. unfold parse_arm_head in H. unbind H. apply arrow_some in B1. destruct B1 as (c1 & c2 & j & ->).
  injection H as <- <-. destruct (word $"if" l) as [w|] eqn:W.
  - apply word_some in W. destruct W as (k & ->). unbind B0. injection B0 as <- ->.
    apply C_pats in B. apply C_expr in B1. rewrite !size_cons in *. cbn [tree_size] in *. lia.
  - injection B0 as <- ->. apply C_pats in B. rewrite !size_cons in *. cbn [tree_size] in *. lia.
Qed.
(** The rest after a block is part of the input. *)
Hypothesis Z : forall b ts qs rest, items b ts = Some (qs, rest) -> size rest <= size ts.
Lemma arms_more : forall n ts arms, size ts < K ->
  parse_arms R items n ts = Some arms -> parse_arms R items' n ts = Some arms.
Proof.
  intros n. induction n as [|n IH]; intros ts arms B H; destruct ts as [|t ts]; try exact H; try discriminate.
  cbn [parse_arms] in *. unbind H. rewrite B0. cbn [bind]. injection H as <-. apply head_size in B0.
  assert (S2 : size l0 <= size l /\ parse_arm_block items' l = Some (p0, l0)). {
    unfold parse_arm_block in *.
    assert (Bare : bind (items true l) (fun '(b, ts) => Some ((None, b), ts)) = Some (p0, l0) ->
      size l0 <= size l /\ bind (items' true l) (fun '(b, ts) => Some ((None, b), ts)) = Some (p0, l0)). {
      intros I. unbind I. assert (SL : size l < K) by lia. rewrite (L _ _ _ SL B3). split; [|exact I]. injection I as _ <-. eapply Z. eassumption. }
    destruct l as [|[] l]; try exact (Bare B1). destruct d; try exact (Bare B1); unbind B1; (rewrite (whole_more ts0 x0); [|sizes|assumption]); (split; [injection B1 as _ <-; sizes|exact B1]). }
  destruct S2 as [S2 S3]. rewrite S3. cbn [bind]. rewrite (IH _ x); [reflexivity| |exact B2].
  destruct (comma l0) as [w|] eqn:Y; [|lia]. apply comma_some in Y. destruct Y as (? & ? & ->). sizes.
Qed.
Lemma match_more : forall c ts q, size ts < K ->
  parse_match R items c ts = Some q -> parse_match R items' c ts = Some q.
Proof.
  intros c ts q B H. unfold parse_match in *. unbind H. rewrite B0. cbn [bind].
  destruct l as [|[] [|]]; try discriminate; destruct d; try discriminate. unbind H.
  rewrite (arms_more _ _ x0); [exact H|sizes|assumption].
Qed.
Lemma paren_more : forall c scope q, size scope < K ->
  parse_paren R items c scope = Some q -> parse_paren R items' c scope = Some q.
Proof.
  intros c scope q B H. unfold parse_paren in *.
  destruct (word $"if" scope) as [w|] eqn:W1; [apply word_some in W1; destruct W1 as (k & ->); apply condition_more; [sizes|exact H]|].
  destruct (word $"for" scope) as [w|] eqn:W2; [apply word_some in W2; destruct W2 as (k & ->); apply loop_more; [sizes|exact H]|].
  destruct (word $"match" scope) as [w|] eqn:W3; [apply word_some in W3; destruct W3 as (k & ->); apply match_more; [sizes|exact H]|].
  exact H.
Qed.
Lemma string_more : forall n ts ps, length ts <= n -> size ts < K ->
  parse_string R items ts = Some ps -> parse_string R items' ts = Some ps.
Proof.
  intros n. induction n as [|n IH]; intros ts ps LE B H; destruct ts as [|t ts]; try exact H; cbn [length] in LE; [lia|].
  assert (Plain : forall its, ~ dollar t -> parse_string R its (t :: ts) =
    bind (parse_string R its ts) (fun ps => Some (PText (tree_cursor t) (tree_text R t) :: ps))). {
    intros its N. destruct t; try reflexivity. cbn [dollar] in N. cbn [parse_string]. bits ch. }
  assert (DD : dollar t \/ ~ dollar t) by (destruct t; cbn; try tauto; destruct (N.eq_dec ch 36); tauto).
  destruct DD as [DD|DD].
  2:{ rewrite Plain in * by exact DD. unbind H. rewrite (IH ts x); [exact H|lia|sizes|assumption]. }
  destruct t; try contradiction. cbn [dollar] in DD. subst ch. clear Plain. cbn [parse_string] in *.
  destruct ts as [|[] ts]; try discriminate; cbn [length] in LE.
  - destruct (keyword s); [discriminate|]. unbind H. rewrite (IH ts x); [exact H|lia|sizes|assumption].
  - repeat match type of H with match ?x with _ => _ end = _ => is_var x; destruct x; try discriminate end.
    unbind H. rewrite (IH ts x); [exact H|lia|sizes|assumption].
  - destruct d; try discriminate.
    + unbind H. rewrite (whole_more ts0 x); [|sizes|assumption]. cbn [bind]. rewrite (IH ts x0); [exact H|lia|sizes|assumption].
    + destruct ts0 as [|[] [|]]; try discriminate; destruct ts as [|[] ts]; try discriminate; destruct d; try discriminate.
      destruct (str_eqb _ _); [|discriminate]. cbn [length] in LE. unbind H. rewrite B0. cbn [bind].
      rewrite (IH ts x0); [exact H|lia|sizes|assumption].
Qed.
Lemma item_more : forall t ts r, size (t :: ts) <= K ->
  parse_item R items t ts = Some r -> parse_item R items' t ts = Some r.
Proof.
  intros t ts r B H. pose proof (tree_size_pos t) as T1.
  assert (DD : dollar t \/ ~ dollar t) by (destruct t; cbn; try tauto; destruct (N.eq_dec ch 36); tauto).
  destruct DD as [DD|DD].
  - destruct t; try contradiction. cbn [dollar] in DD. subst ch. cbn [parse_item] in *.
    destruct ts as [|t ts]; [exact H|]. destruct t; try exact H. destruct d; try exact H.
    + unbind H. rewrite (paren_more _ ts0 x); [exact H|sizes|assumption].
    + unfold parse_function in *. destruct ts0 as [|[] [|]]; try discriminate; try exact H.
      destruct ts as [|[] ts]; try discriminate. destruct d; try discriminate.
      destruct (str_eqb _ _); [|discriminate]. unbind H. rewrite (string_more _ ts0 x (Nat.le_refl _)); [exact H|sizes|assumption].
  - destruct t; cbn [parse_item] in *; try exact H.
    + cbn [dollar] in DD. rewrite <- H. bits ch.
    + unbind H. rewrite (whole_more ts0 x); [exact H|sizes|assumption].
Qed.
End More.

Lemma items_size : forall n b ts qs rest, parse_items R n b ts = Some (qs, rest) -> size rest <= size ts.
Proof.
  intros n b ts qs rest H. destruct (items_sound _ _ _ _ _ H) as (block & -> & _). rewrite size_app. lia.
Qed.
Lemma items_fuel : consuming R -> forall n m b ts r, size ts < n ->
  parse_items R m b ts = Some r -> parse_items R n b ts = Some r.
Proof.
  intros C n. induction n as [|n IH]; intros m b ts r LT H; [lia|]. destruct m as [|m]; [discriminate|].
  cbn [parse_items] in *. destruct ts as [|t ts]; [exact H|]. destruct (b && _); [exact H|]. unbind H.
  rewrite (item_more C (parse_items R m) (parse_items R n) n) with (r := (q, l)); [| |apply items_size|lia|exact B].
  2:{ intros b' ts' r' LT' H'. eapply IH; eassumption. }
  cbn [bind]. destruct (item_sound _ (items_sound m) _ _ _ _ B) as (used & -> & _).
  rewrite size_cons, size_app in LT. pose proof (tree_size_pos t).
  rewrite (IH m b l (l0, l1)); [exact H|lia|exact B0].
Qed.
Lemma items_mono : consuming R -> forall n m b ts r, n <= m ->
  parse_items R n b ts = Some r -> parse_items R m b ts = Some r.
Proof.
  intros C n. induction n as [|n IH]; intros m b ts r LE H; [discriminate|]. destruct m as [|m]; [lia|].
  cbn [parse_items] in *. destruct ts as [|t ts]; [exact H|]. destruct (b && _); [exact H|]. unbind H.
  rewrite (item_more C (parse_items R n) (parse_items R m) (size (t :: ts))) with (r := (q, l)); [| |apply items_size|lia|exact B].
  2:{ intros b' ts' r' LT' H'. apply IH; [lia|exact H']. }
  cbn [bind]. rewrite (IH m b l (l0, l1)); [exact H|lia|exact B0].
Qed.

(** ** Completeness *)

Lemma item_plain : forall its t ts, plain t ->
  (dollar t -> match ts with t' :: _ => ~ opens t' | [] => True end) ->
  parse_item R its t ts = Some (QText (tree_cursor t) (tree_text R t), ts).
Proof.
  intros its t ts N D.
  assert (DD : dollar t \/ ~ dollar t) by (destruct t; cbn; try tauto; destruct (N.eq_dec ch 36); tauto).
  destruct DD as [DD|DD].
  - specialize (D DD). destruct t; try contradiction. cbn [dollar] in DD. subst ch. cbn [parse_item].
    destruct ts as [|t ts]; [reflexivity|]. destruct t; try reflexivity.
    + cbn [opens] in D. destruct (keyword s) eqn:K; [reflexivity|]. apply keyword_false in K. contradiction.
    + cbn [opens] in D. bits ch.
    + destruct d; cbn in D; try tauto; try (exfalso; apply D; exact I); reflexivity.
  - destruct t; try contradiction; try reflexivity. cbn [dollar] in DD. cbn [parse_item]. bits ch.
Qed.
Lemma control_complete : forall ch k, In (ch, k) [(32%N, KSpace); (10%N, KLine); (13%N, KPush)] -> control_of ch = Some k.
Proof.
  intros ch k H. cbn [In] in H. decompose [or] H; try contradiction;
    match goal with H : (_, _) = (_, _) |- _ => injection H as <- <- end; reflexivity.
Qed.

(** Elements do not look beyond a comma. *)
Lemma item_app : forall its t ts q r rest, parse_item R its t ts = Some (q, r) ->
  match rest with t :: _ => a_comma t | [] => True end ->
  parse_item R its t (ts ++ rest) = Some (q, r ++ rest).
Proof.
  intros its t ts q r rest H A.
  assert (DD : dollar t \/ ~ dollar t) by (destruct t; cbn; try tauto; destruct (N.eq_dec ch 36); tauto).
  destruct DD as [DD|DD].
  2:{ destruct t; try contradiction; cbn [parse_item] in *; try (injection H as <- <-; reflexivity).
      - cbn [dollar] in DD. assert (H' : Some (@QText LI E c [ch], ts) = Some (q, r)) by (rewrite <- H; bits ch).
        injection H' as <- <-. bits ch.
      - unbind H. injection H as <- <-. rewrite B. reflexivity. }
  destruct t; try contradiction. cbn [dollar] in DD. subst ch. cbn [parse_item] in *.
  destruct ts as [|t ts]; cbn [app].
  - injection H as <- <-. cbn [app]. destruct rest as [|[] rest]; try contradiction; try reflexivity. cbn [a_comma] in A. subst. reflexivity.
  - destruct t; try (injection H as <- <-; reflexivity).
    + destruct (keyword s); injection H as <- <-; reflexivity.
    + destruct (N.eq_dec ch 36) as [->|NE]; [injection H as <- <-; reflexivity|].
      assert (H' : Some (@QText LI E c [36%N], TPunct c0 ch joint0 :: ts) = Some (q, r)) by (rewrite <- H; bits ch).
      injection H' as <- <-. cbn [app]. bits ch.
    + destruct d; try (injection H as <- <-; reflexivity).
      * unbind H. injection H as <- <-. rewrite B. reflexivity.
      * unfold parse_function in *. destruct ts0 as [|[] [|]]; try discriminate.
        -- destruct ts as [|[] ts]; try discriminate. destruct d; try discriminate. cbn [app].
           destruct (str_eqb _ _); [|discriminate]. unbind H. injection H as <- <-. rewrite B. reflexivity.
        -- destruct ts as [|t ts]; cbn [app].
           ++ unbind H. injection H as <- <-. destruct rest as [|[] rest]; try contradiction; rewrite B; reflexivity.
           ++ destruct t; try (unbind H; injection H as <- <-; rewrite B; reflexivity).
              destruct d; try discriminate; unbind H; injection H as <- <-; rewrite B; reflexivity.
Qed.
Lemma items_until : forall n block qs rest, parse_items R n false block = Some (qs, []) ->
  Forall (fun t => ~ a_comma t) block -> match rest with t :: _ => a_comma t | [] => True end ->
  parse_items R n true (block ++ rest) = Some (qs, rest).
Proof.
  intros n. induction n as [|n IH]; intros block qs rest H F A; [discriminate|]. cbn [parse_items] in *.
  destruct block as [|t block]; cbn [app].
  - injection H as <-. destruct rest as [|t rest]; [reflexivity|].
    destruct t; try contradiction. cbn [a_comma] in A. subst ch. reflexivity.
  - apply Forall_inv in F as F1. apply Forall_inv_tail in F as F2. cbn [andb] in *.
    assert (CN : comma (t :: block ++ rest) = None) by (apply comma_none; exact F1). rewrite CN.
    unbind H. injection H as <- ->. rewrite (item_app _ _ _ _ _ rest B A). cbn [bind].
    destruct (item_sound _ (items_sound n) _ _ _ _ B) as (used & -> & _). apply Forall_app in F2. destruct F2 as [_ F2].
    rewrite (IH _ _ rest B0 F2 A). reflexivity.
Qed.

Definition ev (Q : nat -> Prop) : Prop := exists n, forall m, n <= m -> Q m.
Lemma ev_and : forall Q1 Q2, ev Q1 -> ev Q2 -> ev (fun m => Q1 m /\ Q2 m).
Proof. intros Q1 Q2 (a & A) (b & B). exists (a + b). intros m LE. split; [apply A|apply B]; lia. Qed.
Lemma ev_imp : forall (Q1 Q2 : nat -> Prop), ev Q1 -> (forall m, Q1 m -> Q2 m) -> ev Q2.
Proof. intros Q1 Q2 (a & A) H. exists a. intros m LE. auto. Qed.
Lemma ev_S : forall (Q1 Q2 : nat -> Prop), ev Q1 -> (forall m, Q1 m -> Q2 (S m)) -> ev Q2.
Proof. intros Q1 Q2 (a & A) H. exists (S a). intros [|m] LE; [lia|]. apply H, A. lia. Qed.
Lemma ev_now : forall (Q : nat -> Prop), (forall m, Q m) -> ev Q.
Proof. intros Q H. exists 0. auto. Qed.
Lemma whole_items : forall m ts qs, parse_items R m false ts = Some (qs, []) -> whole (parse_items R m) ts = Some qs.
Proof. intros m ts qs H. unfold whole. rewrite H. reflexivity. Qed.

Hypothesis C : consuming R.
Let C_len : forall {A} (f : list tree -> option (A * list tree)) ts x rest,
  consumes f -> f ts = Some (x, rest) -> length rest <= length ts.
Proof. intros A f ts x rest Y H. destruct (Y _ _ _ H) as (used & ->). rewrite app_length. lia. Qed.

Let Pr ts qs := ev (fun m => parse_items R m false ts = Some (qs, [])).
Let Pf c scope q := ev (fun m => parse_paren R (parse_items R m) c scope = Some q).
Let Pj ts j rest := ev (fun m =>
  match word $"join" ts with
  | Some (TGroup paren Parenthesis js :: ts) => bind (whole (parse_items R m) js) (fun js => Some (Some (paren, js), ts))
  | Some _ => None
  | None => Some (None, ts)
  end = Some (j, rest)).
Let Pb ts body := ev (fun m => forall c it join,
    match arrow ts with
    | Some ts => bind (whole (parse_items R m) ts) (fun body => Some (QLoop c it join body))
    | None =>
        match ts with
        | [TGroup _ Brace body] => bind (whole (parse_items R m) body) (fun body => Some (QLoop c it join body))
        | _ => None
        end
    end = Some (@QLoop LI E c it join body)).
Let Pa ts arms := ev (fun m => forall k, length ts <= k -> parse_arms R (parse_items R m) k ts = Some arms).
Let Pm ts arms := ev (fun m => forall k, length ts <= k ->
  parse_arms R (parse_items R m) k match comma ts with Some ts => ts | None => ts end = Some arms).
Let Ph ts head rest := parse_arm_head R ts = Some (head, rest) /\ length rest < length ts.
Let Pt ts ps := ev (fun m => parse_string R (parse_items R m) ts = Some ps).

Lemma reads_complete : forall ts qs, reads R ts qs -> Pr ts qs.
Proof.
  apply (reads_min LI E P X R Pr Pf Pj Pb Pa Pm Ph Pt); unfold Pr, Pf, Pj, Pb, Pa, Pm, Ph, Pt; clear Pr Pf Pj Pb Pa Pm Ph Pt.
  - exists 1. intros [|m] LE; [lia|reflexivity].
  - intros a i b j ts qs _ IH. eapply ev_S; [exact IH|]. cbn beta. intros m H. cbn [parse_items andb parse_item bind]. rewrite H. reflexivity.
  - intros a i b name ts qs N _ IH. apply keyword_false in N. eapply ev_S; [exact IH|]. cbn beta. intros m H.
    cbn [parse_items andb parse_item]. rewrite N. cbn [bind]. rewrite H. reflexivity.
  - intros a i p scope q ts qs _ IHf _ IH. eapply ev_S; [exact (ev_and _ _ IHf IH)|]. cbn beta. intros m [H1 H2].
    cbn [parse_items andb parse_item]. change (join_cursor a p) with (spanning a p). rewrite H1. cbn [bind]. rewrite H2. reflexivity.
  - intros a i c b p content ps ts qs _ IHt _ IH. eapply ev_S; [exact (ev_and _ _ IHt IH)|]. cbn beta. intros m [H1 H2].
    cbn [parse_items andb parse_item parse_function]. rewrite str_eqb_refl, H1. cbn [bind]. rewrite H2. reflexivity.
  - intros a i c b s ch k ts qs I N _ IH. apply control_complete in I. eapply ev_S; [exact IH|]. cbn beta. intros m H.
    cbn [parse_items andb parse_item parse_function].
    assert (Y : match ts with TGroup _ Parenthesis _ :: _ => None
      | _ => bind (control_of ch) (fun k => Some (@QControl LI E (join_cursor a c) k, ts)) end = Some (QControl (join_cursor a c) k, ts)). {
      rewrite I. destruct ts as [|[] ts]; try reflexivity. destruct d; try reflexivity. contradiction. }
    rewrite Y. cbn [bind]. rewrite H. reflexivity.
  - intros c s v ts qs _ IH. eapply ev_S; [exact IH|]. cbn beta. intros m H. cbn [parse_items andb parse_item bind]. rewrite H. reflexivity.
  - intros c d content inner ts qs _ IH1 _ IH2. eapply ev_S; [exact (ev_and _ _ IH1 IH2)|]. cbn beta. intros m [H1 H2].
    cbn [parse_items andb parse_item]. rewrite (whole_items _ _ _ H1). cbn [bind]. rewrite H2. reflexivity.
  - intros t ts qs N D _ IH. eapply ev_S; [exact IH|]. cbn beta. intros m H. cbn [parse_items andb].
    rewrite (item_plain _ _ _ N D). cbn [bind]. rewrite H. reflexivity.
  - intros c k ts x a1 a2 j rest body H _ IH. eapply ev_imp; [exact IH|]. cbn beta. intros m B.
    unfold parse_paren. cbn [word]. rewrite str_eqb_refl. unfold parse_condition. rewrite H. cbn [bind app arrow].
    rewrite (whole_items _ _ _ B). reflexivity.
  - intros c k ts x b block body H _ IH. eapply ev_imp; [exact IH|]. cbn beta. intros m B.
    unfold parse_paren. cbn [word]. rewrite str_eqb_refl. unfold parse_condition. rewrite H. cbn [bind arrow].
    rewrite (whole_items _ _ _ B). reflexivity.
  - intros c k ts x b block e b' block' body body' H _ IH1 _ IH2. eapply ev_imp; [exact (ev_and _ _ IH1 IH2)|]. cbn beta. intros m [B1 B2].
    unfold parse_paren. cbn [word]. rewrite str_eqb_refl. unfold parse_condition. rewrite H. cbn [bind arrow].
    rewrite (whole_items _ _ _ B1). cbn [bind word]. rewrite str_eqb_refl, (whole_items _ _ _ B2). reflexivity.
  - intros c k ts p i ts' x ts'' join rest body HP HX _ IHj _ IHb. eapply ev_imp; [exact (ev_and _ _ IHj IHb)|]. cbn beta. intros m [B1 B2].
    unfold parse_paren. replace (word $"if" (TIdent k $"for" :: ts)) with (@None (list tree)) by reflexivity.
    cbn [word]. rewrite str_eqb_refl. unfold parse_loop. rewrite HP. cbn [bind word]. rewrite str_eqb_refl. cbn [bind]. rewrite HX. cbn [bind].
    rewrite B1. cbn [bind]. apply B2.
  - intros c k ts x b block arms H _ IH. eapply ev_imp; [exact IH|]. cbn beta. intros m B.
    unfold parse_paren. replace (word $"if" (TIdent k $"match" :: ts)) with (@None (list tree)) by reflexivity.
    replace (word $"for" (TIdent k $"match" :: ts)) with (@None (list tree)) by reflexivity.
    cbn [word]. rewrite str_eqb_refl. unfold parse_match. rewrite H. cbn [bind]. rewrite (B _ (Nat.le_refl _)). reflexivity.
  - intros c k ts p i j ts' x HP HX. apply ev_now. intros m.
    unfold parse_paren. replace (word $"if" (TIdent k $"let" :: ts)) with (@None (list tree)) by reflexivity.
    replace (word $"for" (TIdent k $"let" :: ts)) with (@None (list tree)) by reflexivity.
    replace (word $"match" (TIdent k $"let" :: ts)) with (@None (list tree)) by reflexivity.
    cbn [word]. rewrite str_eqb_refl. unfold parse_let. rewrite HP. cbn [bind]. rewrite HX. reflexivity.
  - intros c k n name a1 a2 j code N. apply ev_now. intros m. apply keyword_false in N as K.
    assert (U : str_eqb name $"_" = false). { destruct (str_eqb name $"_") eqn:U; [|reflexivity]. apply str_eqb_eq in U. subst. exfalso. apply N. left. reflexivity. }
    change (parse_scope R c (TIdent n name :: TPunct a1 61 true :: TPunct a2 62 j :: code) = Some (QScope c (r_code R name code))).
    cbn [parse_scope arrow bind]. rewrite U, K. reflexivity.
  - intros c k n name b code N. apply ev_now. intros m. apply keyword_false in N as K.
    assert (U : str_eqb name $"_" = false). { destruct (str_eqb name $"_") eqn:U; [|reflexivity]. apply str_eqb_eq in U. subst. exfalso. apply N. left. reflexivity. }
    change (parse_scope R c [TIdent n name; TGroup b Brace code] = Some (QScope c (r_code R name code))).
    cbn [parse_scope bind]. rewrite U, K. reflexivity.
  - intros c k n a1 a2 j code. apply ev_now. reflexivity.
  - intros c k n b code. apply ev_now. reflexivity.
  - intros c b s v. apply ev_now. reflexivity.
  - intros c ts x N H. apply ev_now. intros m. unfold parse_paren.
    assert (W : forall w, In w [$"if"; $"for"; $"match"; $"let"; $"ref"] -> word w ts = None). {
      intros w I. destruct (word w ts) as [r|] eqn:W; [|reflexivity]. apply word_some in W. destruct W as (k & ->). contradiction. }
    rewrite !W by (cbn [In]; tauto). rewrite H. destruct ts as [|[] [|]]; try reflexivity. contradiction.
  - intros k p content qs ts _ IH. eapply ev_imp; [exact IH|]. cbn beta. intros m H. cbn [word]. rewrite str_eqb_refl, (whole_items _ _ _ H). reflexivity.
  - intros ts N. apply ev_now. intros m. destruct (word $"join" ts) as [w|] eqn:W; [|reflexivity].
    apply word_some in W. destruct W as (k & ->). congruence.
  - intros a1 a2 j ts qs _ IH. eapply ev_imp; [exact IH|]. cbn beta. intros m H c it join. cbn [app arrow]. rewrite (whole_items _ _ _ H). reflexivity.
  - intros b ts qs _ IH. eapply ev_imp; [exact IH|]. cbn beta. intros m H c it join. cbn [arrow]. rewrite (whole_items _ _ _ H). reflexivity.
  - apply ev_now. intros m k _. destruct k; reflexivity.
  - intros ts head b block body rest arms NE _ [H1 H2] _ IH1 _ IH2. eapply ev_imp; [exact (ev_and _ _ IH1 IH2)|]. cbn beta. intros m [B1 B2] k LE.
    cbn [length] in H2. destruct ts as [|t ts]; [congruence|]. destruct k as [|k]; [cbn [length] in LE; lia|]. cbn [parse_arms]. rewrite H1. cbn [bind parse_arm_block].
    rewrite (whole_items _ _ _ B1). cbn [bind]. rewrite B2 by lia. reflexivity.
  - intros ts head b block body rest arms NE _ [H1 H2] _ IH1 _ IH2. eapply ev_imp; [exact (ev_and _ _ IH1 IH2)|]. cbn beta. intros m [B1 B2] k LE.
    cbn [length] in H2. destruct ts as [|t ts]; [congruence|]. destruct k as [|k]; [cbn [length] in LE; lia|]. cbn [parse_arms]. rewrite H1. cbn [bind parse_arm_block].
    rewrite (whole_items _ _ _ B1). cbn [bind]. rewrite B2 by lia. reflexivity.
  - intros ts head block rest body arms NE _ [H1 H2] N F A _ IH1 _ IH2. eapply ev_imp; [exact (ev_and _ _ IH1 IH2)|]. cbn beta. intros m [B1 B2] k LE.
    rewrite app_length in H2. destruct ts as [|t ts]; [congruence|]. destruct k as [|k]; [cbn [length] in LE; lia|]. cbn [parse_arms]. rewrite H1. cbn [bind].
    assert (Y : parse_arm_block (parse_items R m) (block ++ rest) = Some ((None, body), rest)). {
      unfold parse_arm_block. rewrite (items_until _ _ _ _ B1 F A).
      destruct (block ++ rest) as [|[] l]; try reflexivity. destruct d; try contradiction; reflexivity. }
    rewrite Y. cbn [bind]. rewrite B2 by lia. reflexivity.
  - intros c j ts arms _ IH. eapply ev_imp; [exact IH|]. cbn beta. intros m H k LE. cbn [comma length] in *. apply H. lia.
  - intros ts arms N _ IH. apply comma_none in N. eapply ev_imp; [exact IH|]. cbn beta. intros m H k LE. rewrite N. apply H. exact LE.
  - intros ts p a1 a2 j rest H. split.
    + unfold parse_arm_head. rewrite H. reflexivity.
    + destruct C as (_ & C2 & _). apply (C_len _ _ _ _ C2) in H. cbn [app length] in H. lia.
  - intros ts p k ts' x a1 a2 j rest HP HX. split.
    + unfold parse_arm_head. rewrite HP. cbn [bind word]. rewrite str_eqb_refl, HX. reflexivity.
    + destruct C as (_ & C2 & C3 & _). apply (C_len _ _ _ _ C2) in HP. apply (C_len _ _ _ _ C3) in HX. cbn [app length] in *. lia.
  - apply ev_now. reflexivity.
  - intros a i b j ts ps _ IH. eapply ev_imp; [exact IH|]. cbn beta. intros m H. cbn [parse_string]. rewrite H. reflexivity.
  - intros a i b name ts ps N _ IH. apply keyword_false in N. eapply ev_imp; [exact IH|]. cbn beta. intros m H. cbn [parse_string]. rewrite N, H. reflexivity.
  - intros a i p content qs ts ps _ IH1 _ IH2. eapply ev_imp; [exact (ev_and _ _ IH1 IH2)|]. cbn beta. intros m [H1 H2].
    cbn [parse_string]. rewrite (whole_items _ _ _ H1). cbn [bind]. rewrite H2. reflexivity.
  - intros a i c k p b s v ts ps _ IH. eapply ev_imp; [exact IH|]. cbn beta. intros m H. cbn [parse_string]. rewrite str_eqb_refl. cbn [bind]. rewrite H. reflexivity.
  - intros a i c k p content x ts ps N HX _ IH. eapply ev_imp; [exact IH|]. cbn beta. intros m H. cbn [parse_string]. rewrite str_eqb_refl, HX.
    destruct content as [|[] [|]]; try contradiction; cbn [bind]; rewrite H; reflexivity.
  - intros t ts ps N _ IH. eapply ev_imp; [exact IH|]. cbn beta. intros m H. rewrite <- (f_equal (fun o => bind o (fun ps => Some (PText (tree_cursor t) (tree_text R t) :: ps))) H) at 1.
    destruct t; try reflexivity. cbn [dollar] in N. cbn [parse_string]. bits ch.
Qed.

Theorem parse_complete : forall ts qs, reads R ts qs -> parse R ts = Some qs.
Proof.
  intros ts qs H. destruct (reads_complete ts qs H) as (n & N). specialize (N n (Nat.le_refl _)).
  unfold parse. apply whole_items. eapply items_fuel; [exact C|lia|exact N].
Qed.
End Parse.
