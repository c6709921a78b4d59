(** * Comparison of streams (C71).

    Vocabulary: [SpecOrder.v] (orders); the items of a stream without links. *)
From Verif Require Import Str StrFacts Tokens SpecTokens TokensRun TokensFacts Values Fmt SpecFmt Order SpecOrder OrderFacts Compare
  LangBase LangRust Macro SpecMacro PropsLang PropsMacro.

(** The items of a stream as a user appended them: without the links between
    language items. *)
Definition unlinked {LI} (x : item LI) : item LI :=
  match x with
  | Lang _ l => Lang 0 l
  | Register _ l => Register 0 l
  | x => x
  end.
Definition contents {LI} (t : tokens LI) : list (item LI) := map unlinked (items t).

Section Facts.
Context {LI : Type} (li_eqb : LI -> LI -> bool) (li_cmp : LI -> LI -> comparison).
Context (EQ : forall a b, li_eqb a b = true <-> a = b) (ORD : order li_cmp).

Lemma str_eqb_iff a b : str_eqb a b = true <-> a = b.
Proof. unfold str_eqb. rewrite <- str_cmp_eq. destruct (str_cmp a b); split; congruence. Qed.
Lemma item_eqb_iff a b : item_eqb li_eqb a b = true <-> a = b.
Proof.
  destruct a as [s|p l|p l| | | |m|e| | |], b as [s'|p' l'|p' l'| | | |m'|e'| | |]; cbn [item_eqb]; try (split; congruence).
  - destruct s, s'; cbn [item_str_eqb]; rewrite ?str_eqb_iff; split; congruence.
  - rewrite andb_true_iff, Nat.eqb_eq, EQ. split; [intros [-> ->]; reflexivity|intros [= -> ->]; auto].
  - rewrite andb_true_iff, Nat.eqb_eq, EQ. split; [intros [-> ->]; reflexivity|intros [= -> ->]; auto].
  - rewrite Z.eqb_eq. split; congruence.
  - destruct e, e'; cbn; split; congruence.
Qed.
Lemma items_eqb_iff a : forall b, items_eqb li_eqb a b = true <-> a = b.
Proof.
  induction a as [|x a IH]; intros [|y b]; cbn [items_eqb]; try (split; congruence).
  rewrite andb_true_iff, item_eqb_iff, IH. split; [intros [-> ->]; reflexivity|intros [= -> ->]; auto].
Qed.
Lemma tokens_eqb_iff a b : tokens_eqb li_eqb a b = true <-> a = b.
Proof.
  unfold tokens_eqb. rewrite andb_true_iff, items_eqb_iff, Nat.eqb_eq. destruct a as [r1 l1], b as [r2 l2]. unfold items. cbn [ritems last_lang_item].
  split; [intros [H ->]|intros [= -> ->]; auto]. rewrite <- (rev_involutive r1), H, rev_involutive. reflexivity.
Qed.

Lemma item_order : order (cmp_item li_cmp).
Proof.
  pose proof (pair_order_full _ _ nat_order ORD) as PO.
  pose proof item_str_order as IO. pose proof Z_order as ZO. pose proof bool_order as BO. pose proof nat_order as NO.
  assert (NE : forall a b : item LI, rank a <> rank b -> cmp_item li_cmp a b = cmp_nat (rank a) (rank b)).
  { intros a b N. destruct a, b; try reflexivity; cbn [rank] in N; congruence. }
  assert (SA : forall a b c : item LI, rank a < rank b -> rank b < rank c -> rank a < rank c) by (intros; lia).
  assert (LT : forall a b : item LI, cmp_item li_cmp a b = Lt -> rank a <= rank b).
  { intros a b H. destruct (Nat.eq_dec (rank a) (rank b)); [lia|]. rewrite NE in H by auto. apply Nat.compare_lt_iff in H. lia. }
  assert (RL : forall a b : item LI, rank a < rank b -> cmp_item li_cmp a b = Lt).
  { intros a b H. rewrite NE by lia. apply Nat.compare_lt_iff. exact H. }
  split; [|split].
  - intros a b _ _. destruct (Nat.eq_dec (rank a) (rank b)) as [R|R].
    + destruct a as [s|p l|p l| | | |m|e| | |], b as [s'|p' l'|p' l'| | | |m'|e'| | |]; try discriminate R; cbn [cmp_item]; try (split; reflexivity).
      * rewrite (proj1 IO s s' I I). split; congruence.
      * pose proof (proj1 PO (p, l) (p', l') I I) as H. unfold cmp_pair in H. cbn [fst snd] in H. rewrite H. split; congruence.
      * pose proof (proj1 PO (p, l) (p', l') I I) as H. unfold cmp_pair in H. cbn [fst snd] in H. rewrite H. split; congruence.
      * rewrite (proj1 ZO m m' I I). split; congruence.
      * rewrite (proj1 BO e e' I I). split; congruence.
    + rewrite NE by exact R. split; [intros H; apply Nat.compare_eq in H; congruence|congruence].
  - intros a b _ _. destruct (Nat.eq_dec (rank a) (rank b)) as [R|R].
    + destruct a as [s|p l|p l| | | |m|e| | |], b as [s'|p' l'|p' l'| | | |m'|e'| | |]; try discriminate R; cbn [cmp_item]; try reflexivity.
      * apply (proj1 (proj2 IO)); exact I.
      * exact (proj1 (proj2 PO) (p, l) (p', l') I I).
      * exact (proj1 (proj2 PO) (p, l) (p', l') I I).
      * apply (proj1 (proj2 ZO)); exact I.
      * apply (proj1 (proj2 BO)); exact I.
    + rewrite !NE by congruence. apply (proj1 (proj2 NO)); exact I.
  - intros a b c _ _ _ H1 H2. pose proof (LT a b H1) as L1. pose proof (LT b c H2) as L2.
    destruct (Nat.eq_dec (rank a) (rank b)) as [R|R]; [destruct (Nat.eq_dec (rank b) (rank c)) as [R2|R2]|].
    + destruct a as [s|p l|p l| | | |m|e| | |], b as [s'|p' l'|p' l'| | | |m'|e'| | |]; try discriminate R;
      destruct c as [s2|p2 l2|p2 l2| | | |m2|e2| | |]; try discriminate R2; cbn [cmp_item] in *; try discriminate.
      * exact (proj2 (proj2 IO) _ _ _ I I I H1 H2).
      * exact (proj2 (proj2 PO) (p, l) (p', l') (p2, l2) I I I H1 H2).
      * exact (proj2 (proj2 PO) (p, l) (p', l') (p2, l2) I I I H1 H2).
      * exact (proj2 (proj2 ZO) _ _ _ I I I H1 H2).
      * exact (proj2 (proj2 BO) _ _ _ I I I H1 H2).
    + apply RL. lia.
    + apply RL. lia.
Qed.
End Facts.

(** ** Links *)
Section Links.
Context {LI : Type}.
Implicit Types (t : tokens LI) (r : list (item LI)).

Lemma last_unlinked r : last_of (map unlinked r) = last_of r.
Proof. induction r as [|[] r IH]; cbn [map unlinked last_of length]; rewrite ?map_length; auto. Qed.
(** Links are determined by what precedes them. *)
Lemma relinked r1 : forall r2, links_ok r1 -> links_ok r2 -> map unlinked r1 = map unlinked r2 -> r1 = r2.
Proof.
  induction r1 as [|x r1 IH]; intros [|y r2] L1 L2 H; try discriminate; [reflexivity|]. cbn [map] in H.
  pose proof (f_equal (@hd _ x) H) as HX. pose proof (f_equal (@tl _) H) as HT. cbn [hd tl] in HX, HT.
  assert (T1 : links_ok r1) by (destruct x; cbn in L1; tauto). assert (T2 : links_ok r2) by (destruct y; cbn in L2; tauto).
  rewrite (IH r2 T1 T2 HT) in *. f_equal. destruct x, y; cbn [unlinked] in HX; try discriminate; try congruence; cbn [links_ok] in L1, L2; destruct L1 as [-> _], L2 as [-> _]; congruence.
Qed.
Lemma contents_wf t1 t2 : wf t1 -> wf t2 -> contents t1 = contents t2 -> t1 = t2.
Proof.
  intros [W1 L1] [W2 L2] H. unfold contents, items in H. rewrite !map_rev in H. apply (f_equal (@rev _)) in H. rewrite !rev_involutive in H.
  pose proof (relinked _ _ L1 L2 H) as R. destruct t1 as [q1 n1], t2 as [q2 n2]. cbn [ritems last_lang_item] in *. congruence.
Qed.

(** The order of streams is that of their contents. *)
Context (li_cmp : LI -> LI -> comparison).
Lemma links_prefix r x : links_ok (x :: r) -> links_ok r.
Proof. destruct x; cbn; tauto. Qed.
Lemma links_app (a b : list (item LI)) : links_ok (a ++ b) -> links_ok b.
Proof. induction a as [|x a IH]; [auto|]. intros H. apply IH. exact (links_prefix _ _ H). Qed.
Lemma cmp_unlinked_item r x y : links_ok (x :: r) -> links_ok (y :: r) ->
  cmp_item li_cmp x y = cmp_item li_cmp (unlinked x) (unlinked y).
Proof.
  intros L1 L2. destruct x, y; try reflexivity; cbn [links_ok unlinked cmp_item] in *; destruct L1 as [-> _], L2 as [-> _]; unfold cmp_nat; rewrite !Nat.compare_refl; reflexivity.
Qed.
Lemma cmp_unlinked (ORD : order li_cmp) a : forall b r, links_ok (rev a ++ r) -> links_ok (rev b ++ r) ->
  cmp_list (cmp_item li_cmp) a b = cmp_list (cmp_item li_cmp) (map unlinked a) (map unlinked b).
Proof.
  induction a as [|x a IH]; intros [|y b] r L1 L2; try reflexivity. cbn [map cmp_list rev] in *. rewrite <- app_assoc in L1, L2. cbn [app] in L1, L2.
  rewrite <- (cmp_unlinked_item r x y (links_app _ _ L1) (links_app _ _ L2)).
  destruct (cmp_item li_cmp x y) eqn:C; try reflexivity. cbn [then_cmp]. apply (proj1 (item_order li_cmp ORD) x y I I) in C. subst y. exact (IH b (x :: r) L1 L2).
Qed.
End Links.

(** ** Streams that were built *)

(** Two streams are equal exactly if they have the same items, links aside. *)
Theorem C71_equal : forall LI (li_eqb : LI -> LI -> bool) cs1 cs2,
  (forall a b, li_eqb a b = true <-> a = b) ->
  tokens_eqb li_eqb (build cs1) (build cs2) = true <-> contents (build cs1) = contents (build cs2).
Proof.
  intros LI li_eqb cs1 cs2 EQ. rewrite tokens_eqb_iff by exact EQ. split; [congruence|]. apply contents_wf; apply build_wf.
Qed.
Print Assumptions C71_equal.

(** Equal streams are interchangeable: whatever is computed from them is equal. *)
Theorem C71_interchangeable : forall LI (li_eqb : LI -> LI -> bool) cs1 cs2,
  (forall a b, li_eqb a b = true <-> a = b) ->
  tokens_eqb li_eqb (build cs1) (build cs2) = true -> forall A (f : tokens LI -> A), f (build cs1) = f (build cs2).
Proof. intros LI li_eqb cs1 cs2 EQ H A f. apply tokens_eqb_iff in H; [congruence|exact EQ]. Qed.
Print Assumptions C71_interchangeable.

(** Comparison with vectors and slices, from both sides, compares the items, with
    their links. *)
Theorem C71_vectors : forall LI (li_eqb : LI -> LI -> bool) t v,
  (forall a b, li_eqb a b = true <-> a = b) ->
  (tokens_eq_items li_eqb t v = true <-> items t = v) /\
  (items_eq_tokens li_eqb v t = true <-> items t = v).
Proof.
  intros LI li_eqb t v EQ. unfold tokens_eq_items, items_eq_tokens. rewrite !items_eqb_iff by exact EQ. split; [reflexivity|]. split; congruence.
Qed.
Print Assumptions C71_vectors.
(** It agrees with the comparison of streams. *)
Theorem C71_agrees : forall LI (li_eqb : LI -> LI -> bool) cs1 cs2,
  (forall a b, li_eqb a b = true <-> a = b) ->
  tokens_eqb li_eqb (build cs1) (build cs2) = tokens_eq_items li_eqb (build cs1) (items (build cs2)).
Proof.
  intros LI li_eqb cs1 cs2 EQ. destruct (tokens_eqb li_eqb (build cs1) (build cs2)) eqn:H; symmetry.
  - apply tokens_eqb_iff in H; [|exact EQ]. rewrite H. apply items_eqb_iff; auto.
  - destruct (tokens_eq_items li_eqb (build cs1) (items (build cs2))) eqn:K; [|reflexivity].
    apply items_eqb_iff in K; [|exact EQ]. rewrite <- H. symmetry. apply C71_equal; [exact EQ|]. unfold contents. rewrite K. reflexivity.
Qed.
Print Assumptions C71_agrees.

(** ** Order *)

(** Streams are totally ordered, in agreement with equality. *)
Theorem C71_order : forall LI (li_cmp : LI -> LI -> comparison), order li_cmp -> order (cmp_tokens li_cmp).
Proof.
  intros LI li_cmp ORD. pose proof (pair_order_full _ _ (list_order_full _ (item_order li_cmp ORD)) nat_order) as PO.
  set (key := fun t : tokens LI => (items t, last_lang_item t)).
  assert (INJ : forall a b, key a = key b -> a = b).
  { intros [r1 l1] [r2 l2] H. unfold key, items in H. cbn [ritems last_lang_item] in H. injection H as H ->. rewrite <- (rev_involutive r1), H, rev_involutive. reflexivity. }
  assert (K : forall a b, cmp_tokens li_cmp a b = cmp_pair (cmp_list (cmp_item li_cmp)) cmp_nat (key a) (key b)) by reflexivity.
  split; [|split].
  - intros a b _ _. rewrite K, (proj1 PO (key a) (key b) I I). split; [apply INJ|congruence].
  - intros a b _ _. rewrite !K. apply (proj1 (proj2 PO)); exact I.
  - intros a b c _ _ _. rewrite !K. apply (proj2 (proj2 PO)); exact I.
Qed.
Print Assumptions C71_order.

(** The order is lexicographic on the contents; the links play no part. *)
Theorem C71_lexicographic : forall LI (li_cmp : LI -> LI -> comparison) cs1 cs2, order li_cmp ->
  cmp_tokens li_cmp (build cs1) (build cs2) = cmp_list (cmp_item li_cmp) (contents (build cs1)) (contents (build cs2)).
Proof.
  intros LI li_cmp cs1 cs2 ORD. destruct (@build_wf LI cs1) as [W1 L1]. destruct (@build_wf LI cs2) as [W2 L2].
  set (t1 := build cs1) in *. set (t2 := build cs2) in *. unfold cmp_tokens.
  assert (C : cmp_list (cmp_item li_cmp) (items t1) (items t2) = cmp_list (cmp_item li_cmp) (contents t1) (contents t2)).
  { apply (cmp_unlinked li_cmp ORD (items t1) (items t2) []); unfold items; rewrite rev_involutive, app_nil_r; assumption. }
  rewrite <- C. destruct (cmp_list (cmp_item li_cmp) (items t1) (items t2)) eqn:Q; try reflexivity. cbn [then_cmp].
  apply (proj1 (list_order_full _ (item_order li_cmp ORD)) _ _ I I) in Q. rewrite W1, W2. unfold items in Q.
  apply (f_equal (@rev _)) in Q. rewrite !rev_involutive in Q. rewrite Q. apply Nat.compare_refl.
Qed.
Print Assumptions C71_lexicographic.

(** ** Where text comes from *)

(** Streams that cannot be told apart in any output are unequal if one was made
    from a constant, as by quoting text, and the other from a string. *)
Theorem C71_origin : forall LI (li_eqb : LI -> LI -> bool) s, s <> [] ->
  let t1 := build [CItem (Literal (Static s))] : tokens LI in
  let t2 := build [CItem (Literal (Box s))] in
  tokens_eqb li_eqb t1 t2 = false /\
  forall (ops : lang_ops LI) W (w : writer W) cfg fm,
    format_items ops cfg w (items t1) fm = format_items ops cfg w (items t2) fm.
Proof. intros LI li_eqb s N t1 t2. split; [reflexivity|]. intros ops W w cfg fm. reflexivity. Qed.
Print Assumptions C71_origin.

(** ** Examples *)
Definition cmp_ex (xs : list (item nat)) : tokens nat := build (map CItem xs).
Example C71_example :
  items (cmp_ex [Lang 7 3; Space; Register 5 4; Lang 0 3]) = [Lang 0 3; Space; Register 1 4; Lang 3 3] /\
  tokens_eqb Nat.eqb (cmp_ex [Lang 7 3; Space; Space; Lang 0 3]) (cmp_ex [Lang 1 3; Space; Lang 9 3]) = true /\
  tokens_eqb Nat.eqb (cmp_ex [Lang 0 3; Lang 0 3]) (cmp_ex [Lang 0 3; Lang 0 4]) = false /\
  cmp_tokens Nat.compare (cmp_ex [Lang 0 3; Space; Lang 0 4]) (cmp_ex [Lang 0 3; Push]) = Gt /\
  cmp_tokens Nat.compare (cmp_ex [Push; Literal (Static $"a"); Lang 0 3]) (cmp_ex [Push; Literal (Static $"a"); Lang 0 4]) = Lt /\
  (forall a b, Nat.eqb a b = true <-> a = b) /\ order Nat.compare.
Proof. repeat (split; [reflexivity|]). split; [apply Nat.eqb_eq|exact nat_order]. Qed.
