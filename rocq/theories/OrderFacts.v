(** * Lemmas: the orders, sets and maps of [Order.v]. *)
From Verif Require Import Str StrFacts Tokens Order SpecOrder.
From Coq Require Import ZifyBool ZifyNat ZifyN.

(** ** Orders *)

Section Laws.
Context {A : Type} {P : A -> Prop} {c : A -> A -> comparison} (O : order_on P c).
Lemma o_eq x y : P x -> P y -> c x y = Eq -> x = y.
Proof. intros. apply (proj1 O); auto. Qed.
Lemma o_refl x : P x -> c x x = Eq.
Proof. intros. apply (proj1 O); auto. Qed.
Lemma o_flip x y : P x -> P y -> c y x = CompOpp (c x y).
Proof. apply (proj1 (proj2 O)). Qed.
Lemma o_trans x y z : P x -> P y -> P z -> c x y = Lt -> c y z = Lt -> c x z = Lt.
Proof. apply (proj2 (proj2 O)). Qed.
End Laws.

Lemma order_sub {A} (P Q : A -> Prop) c : (forall x, Q x -> P x) -> order_on P c -> order_on Q c.
Proof. intros H [O1 [O2 O3]]. split; [|split]; [intros x y ? ?; apply O1; auto|intros x y ? ?; apply O2; auto|intros x y z ? ? ?; apply O3; auto]. Qed.
Lemma order_all {A} (P : A -> Prop) c : order c -> order_on P c.
Proof. apply order_sub; auto. Qed.

(** Orders carried along an injective function. *)
Lemma order_map {A B} (f : A -> B) (P : A -> Prop) c :
  (forall x y, P x -> P y -> f x = f y -> x = y) ->
  order_on (fun b => exists a, P a /\ b = f a) c -> order_on P (fun x y => c (f x) (f y)).
Proof.
  intros I O. repeat split.
  - intros E. apply I; auto. eapply (o_eq O); eauto.
  - intros ->. eapply (o_refl O); eauto.
  - intros x y Px Py. eapply (o_flip O); eauto.
  - intros x y z Px Py Pz H1 H2. apply (o_trans O) with (f y); eauto.
Qed.

Lemma pair_order {A B} (P : A -> Prop) (Q : B -> Prop) ca cb : order_on P ca -> order_on Q cb ->
  order_on (fun x => P (fst x) /\ Q (snd x)) (cmp_pair ca cb).
Proof.
  intros OA OB. unfold cmp_pair, then_cmp. repeat split.
  - destruct x as [a b], y as [a' b']. destruct H, H0. cbn in *.
    destruct (ca a a') eqn:E; try discriminate.
    intros E2. f_equal; [eapply (o_eq OA)|eapply (o_eq OB)]; eauto.
  - intros <-. destruct H. rewrite (o_refl OA), (o_refl OB); auto.
  - intros [a b] [a' b'] [H1 H2] [H3 H4]; cbn in *. rewrite (o_flip OA a a'); auto.
    destruct (ca a a'); cbn; auto. rewrite (o_flip OB b b'); auto.
  - intros [a b] [a' b'] [a'' b''] [H1 H2] [H3 H4] [H5 H6]; cbn in *.
    destruct (ca a a') eqn:E1; try discriminate; destruct (ca a' a'') eqn:E2; try discriminate.
    + apply (o_eq OA) in E1, E2; auto. subst. rewrite (o_refl OA); auto.
      intros. eapply (o_trans OB b b' b''); eauto.
    + apply (o_eq OA) in E1; auto. subst. rewrite E2. auto.
    + apply (o_eq OA) in E2; auto. subst. rewrite E1. auto.
    + rewrite (o_trans OA a a' a''); auto.
Qed.
Lemma pair_order_full {A B} (ca : A -> A -> comparison) (cb : B -> B -> comparison) :
  order ca -> order cb -> order (cmp_pair ca cb).
Proof. intros OA OB. eapply order_sub; [|apply (pair_order _ _ _ _ OA OB)]. cbn; auto. Qed.

Lemma option_order {A} (P : A -> Prop) c : order_on P c ->
  order_on (fun o => match o with Some x => P x | None => True end) (cmp_option c).
Proof.
  intros O. repeat split.
  - destruct x, y; cbn in *; try discriminate; auto. intros E. f_equal. apply (o_eq O); auto.
  - intros <-. destruct x; cbn in *; auto. apply (o_refl O); auto.
  - intros [x|] [y|]; cbn; auto. apply (o_flip O).
  - intros [x|] [y|] [z|]; cbn; try discriminate; auto. apply (o_trans O).
Qed.
Lemma option_order_full {A} (c : A -> A -> comparison) : order c -> order (cmp_option c).
Proof. intros O. eapply order_sub; [|apply (option_order _ _ O)]. intros []; auto. Qed.

Lemma bool_order : order cmp_bool.
Proof.
  split; [|split].
  - intros [] []; cbn; split; congruence.
  - intros [] []; auto.
  - intros [] [] []; cbn; congruence.
Qed.
Lemma nat_order : order cmp_nat.
Proof.
  unfold cmp_nat. repeat split.
  - apply Nat.compare_eq_iff. - apply Nat.compare_eq_iff.
  - intros x y _ _. apply Nat.compare_antisym.
  - intros x y z _ _ _. rewrite !Nat.compare_lt_iff. lia.
Qed.
Lemma Z_order : order Z.compare.
Proof.
  repeat split.
  - apply Z.compare_eq_iff. - apply Z.compare_eq_iff.
  - intros x y _ _. apply Z.compare_antisym.
  - intros x y z _ _ _. rewrite !Z.compare_lt_iff. lia.
Qed.
Lemma str_order : order str_cmp.
Proof.
  repeat split.
  - apply str_cmp_eq. - apply str_cmp_eq.
  - intros x y _ _. apply str_cmp_antisym.
  - intros x y z _ _ _. apply str_cmp_trans.
Qed.
Lemma item_str_order : order cmp_item_str.
Proof.
  repeat split.
  - destruct x, y; cbn; try discriminate; intros E; f_equal; apply str_cmp_eq; auto.
  - intros <-. destruct x; cbn; apply str_cmp_eq; auto.
  - intros [x|x] [y|y] _ _; cbn; auto using str_cmp_antisym.
  - intros [x|x] [y|y] [z|z] _ _ _; cbn; try discriminate; eauto using str_cmp_trans.
Qed.
Lemma list_order {A} (P : A -> Prop) c : order_on P c -> order_on (Forall P) (cmp_list c).
Proof.
  intros O. unfold order_on. split; [|split].
  - intros x y Hx. revert y. induction Hx as [|a x Ha Hx IH]; intros [|b y] Hy; cbn; split;
      try congruence; inversion Hy as [|? ? Hb Hy']; subst.
    + unfold then_cmp. destruct (c a b) eqn:E; try discriminate. intros E2.
      f_equal; [apply (o_eq O); auto|apply IH; auto].
    + intros E. injection E as -> ->. rewrite (o_refl O); auto. cbn. apply IH; auto.
  - intros x y Hx. revert y. induction Hx as [|a x Ha Hx IH]; intros [|b y] Hy; cbn; auto.
    inversion Hy as [|? ? Hb Hy']; subst. rewrite (o_flip O a b); auto.
    destruct (c a b); cbn; auto.
  - intros x y z Hx. revert y z. induction Hx as [|a x Ha Hx IH]; intros [|b y] [|d z] Hy Hz; cbn;
      try discriminate; auto.
    inversion Hy as [|? ? Hb Hy']; inversion Hz as [|? ? Hd Hz']; subst.
    destruct (c a b) eqn:E1; try discriminate; destruct (c b d) eqn:E2; try discriminate; cbn.
    + apply (o_eq O) in E1, E2; auto. subst. rewrite (o_refl O); auto. cbn. eauto.
    + apply (o_eq O) in E1; auto. subst. rewrite E2. auto.
    + apply (o_eq O) in E2; auto. subst. rewrite E1. auto.
    + rewrite (o_trans O a b d); auto.
Qed.
Lemma list_order_full {A} (c : A -> A -> comparison) : order c -> order (cmp_list c).
Proof.
  intros O. eapply order_sub; [|apply (list_order _ _ O)]. intros x _. induction x; auto.
Qed.

(** ** Sets *)

Section Sets.
Context {K : Type} {c : K -> K -> comparison} (O : order c).
Local Lemma T (x : K) : True. Proof. exact I. Qed.

Lemma in_insert x k l : In x (set_insert c k l) <-> x = k \/ In x l.
Proof.
  induction l as [|y l IH]; cbn; [intuition|].
  destruct (c k y) eqn:E; cbn.
  - apply (o_eq O) in E; auto. subst. intuition.
  - intuition.
  - rewrite IH. intuition.
Qed.
Lemma insert_increasing k l : increasing c l -> increasing c (set_insert c k l).
Proof.
  unfold increasing. induction 1 as [|y l S IH F]; cbn; [repeat constructor|].
  destruct (c k y) eqn:E.
  - constructor; auto.
  - constructor; [constructor; auto|]. constructor; auto.
    eapply Forall_impl; [|exact F]. intros z Hz. apply (o_trans O k y z); auto.
  - constructor; auto. apply Forall_forall. intros z Hz. apply in_insert in Hz as [->|Hz].
    + rewrite (o_flip O k y), E; auto.
    + rewrite Forall_forall in F; auto.
Qed.
Lemma increasing_unique l1 : forall l2, increasing c l1 -> increasing c l2 -> same_set l1 l2 -> l1 = l2.
Proof.
  assert (IRR : forall x, c x x = Lt -> False) by (intros x E; rewrite (o_refl O) in E; [discriminate|auto]).
  induction l1 as [|a l1 IH]; intros l2 S1 S2 E.
  - destruct l2 as [|b l2]; auto. destruct (proj2 (E b)); left; auto.
  - destruct l2 as [|b l2]; [destruct (proj1 (E a)); left; auto|].
    inversion S1 as [|? ? S1' F1]; inversion S2 as [|? ? S2' F2]; subst.
    rewrite Forall_forall in F1, F2.
    assert (a = b).
    { destruct (proj1 (E a)) as [|H1]; [left; auto|auto|].
      destruct (proj2 (E b)) as [|H2]; [left; auto|auto|].
      exfalso. apply (IRR a). apply (o_trans O a b a); auto. }
    subst b. f_equal. apply IH; auto. intros x. split; intros Hx.
    + destruct (proj1 (E x)) as [<-|]; [right; auto| |auto]. exfalso. apply (IRR a); auto.
    + destruct (proj2 (E x)) as [<-|]; [right; auto| |auto]. exfalso. apply (IRR a); auto.
Qed.

(** Collecting keys. *)
Definition collect {I} (key : I -> option K) (is : list I) (s : list K) : list K :=
  fold_left (fun s i => match key i with Some k => set_insert c k s | None => s end) is s.
Lemma collect_increasing {I} (key : I -> option K) is : forall s,
  increasing c s -> increasing c (collect key is s).
Proof.
  induction is as [|i is IH]; cbn; auto. intros s S. apply IH.
  destruct (key i); auto using insert_increasing.
Qed.
Lemma in_collect {I} (key : I -> option K) is : forall s x,
  In x (collect key is s) <-> In x s \/ exists i, In i is /\ key i = Some x.
Proof.
  induction is as [|i is IH]; intros s x; cbn.
  - split; [auto|]. intros [|[i [[] _]]]; auto.
  - fold (collect key is (match key i with Some k => set_insert c k s | None => s end)).
    rewrite IH. split.
    + intros [H|[j [H1 H2]]]; [|right; exists j; auto].
      destruct (key i) eqn:E; auto. apply in_insert in H as [->|H]; auto. right. exists i; auto.
    + intros [H|[j [[->|H1] H2]]].
      * left. destruct (key i); auto. apply in_insert; auto.
      * left. rewrite H2. apply in_insert; auto.
      * right. exists j; auto.
Qed.
Lemma collect_same {I} (key : I -> option K) is1 is2 : same_set is1 is2 ->
  collect key is1 [] = collect key is2 [].
Proof.
  intros E. apply increasing_unique; try (apply collect_increasing; constructor).
  intros x. rewrite !in_collect. split; intros [[]|[i [H1 H2]]]; right; exists i; split; auto;
    apply E; auto.
Qed.
Lemma set_mem_in x l : set_mem c x l = true <-> In x l.
Proof.
  unfold set_mem. rewrite existsb_exists. split.
  - intros [y [H E]]. destruct (c x y) eqn:Ec; try discriminate. apply (o_eq O) in Ec; auto. subst; auto.
  - intros H. exists x. rewrite (o_refl O); auto.
Qed.
End Sets.

(** ** Maps *)

Section Maps.
Context {K V : Type} {c : K -> K -> comparison} (O : order c).
Notation map_t := (list (K * V)).
Definition keys (m : map_t) : list K := map fst m.

Lemma get_update k' k d f (m : map_t) :
  increasing c (keys m) ->
  map_get c k' (map_update c k d f m) =
  (if match c k' k with Eq => true | _ => false end
   then Some (f (match map_get c k m with Some v => v | None => d end))
   else map_get c k' m).
Proof.
  induction m as [|[k1 v] m IH]; intros S; cbn.
  - destruct (c k' k); auto.
  - inversion S as [|? ? S' F]; subst. destruct (c k k1) eqn:E; cbn.
    + apply (o_eq O) in E; auto. subst. destruct (c k' k1); auto.
    + destruct (c k' k) eqn:E2; auto.
      apply (o_eq O) in E2; auto. subst k'.
      assert (G : map_get c k m = None).
      { clear -F E O. induction m as [|[k2 v2] m IH]; cbn; auto. inversion F; subst.
        rewrite (o_trans O k k1 k2); auto. }
      rewrite G. auto.
    + rewrite IH by auto. destruct (c k' k1) eqn:E1; auto.
      destruct (c k' k) eqn:E2; auto. apply (o_eq O) in E1, E2; auto. subst.
      rewrite (o_refl O) in E; [discriminate|auto].
Qed.
Lemma in_keys_update x k d f (m : map_t) : In x (keys (map_update c k d f m)) <-> x = k \/ In x (keys m).
Proof.
  unfold keys. induction m as [|[k1 v] m IH]; cbn; [intuition|].
  destruct (c k k1) eqn:E; cbn.
  - apply (o_eq O) in E; auto. subst. intuition.
  - intuition.
  - rewrite IH. intuition.
Qed.
Lemma update_increasing k d f (m : map_t) :
  increasing c (keys m) -> increasing c (keys (map_update c k d f m)).
Proof.
  unfold increasing. induction m as [|[k1 v] m IH]; cbn; intros S; [repeat constructor|].
  inversion S as [|? ? S' F]; subst. destruct (c k k1) eqn:E; cbn.
  - constructor; auto.
  - constructor; auto. constructor; auto. eapply Forall_impl; [|exact F].
    intros z Hz. apply (o_trans O k k1 z); auto.
  - constructor; auto. apply Forall_forall. intros z Hz. apply in_keys_update in Hz as [->|Hz].
    + rewrite (o_flip O k k1), E; auto.
    + rewrite Forall_forall in F; auto.
Qed.
Lemma get_in k v (m : map_t) : increasing c (keys m) -> (map_get c k m = Some v <-> In (k, v) m).
Proof.
  induction m as [|[k1 v1] m IH]; intros S; cbn; [split; [discriminate|tauto]|].
  inversion S as [|? ? S' F]; subst. destruct (c k k1) eqn:E.
  - apply (o_eq O) in E; auto. subst k1. split.
    + intros [= ->]; auto.
    + intros [[= ->]|H]; auto. exfalso. rewrite Forall_forall in F.
      specialize (F k (in_map fst _ _ H)). rewrite (o_refl O) in F; [discriminate|auto].
  - rewrite IH by auto. split; auto. intros [[= -> ->]|H]; auto.
    rewrite (o_refl O) in E; [discriminate|auto].
  - rewrite IH by auto. split; auto. intros [[= -> ->]|H]; auto.
    rewrite (o_refl O) in E; [discriminate|auto].
Qed.
Lemma get_none k (m : map_t) : map_get c k m = None <-> ~ In k (keys m).
Proof.
  induction m as [|[k1 v1] m IH]; cbn; [tauto|]. destruct (c k k1) eqn:E.
  - apply (o_eq O) in E; auto. subst. split; [discriminate|tauto].
  - rewrite IH. split; [|tauto]. intros H [<-|H2]; auto. rewrite (o_refl O) in E; [discriminate|auto].
  - rewrite IH. split; [|tauto]. intros H [<-|H2]; auto. rewrite (o_refl O) in E; [discriminate|auto].
Qed.
Lemma map_ext_get (m1 m2 : map_t) : increasing c (keys m1) -> increasing c (keys m2) ->
  (forall k, map_get c k m1 = map_get c k m2) -> m1 = m2.
Proof.
  intros S1 S2 E.
  assert (EK : keys m1 = keys m2).
  { apply (increasing_unique O); auto. intros x. split; intros H.
    - destruct (map_get c x m2) eqn:G; [|].
      + apply get_in in G; auto. apply (in_map fst) in G. auto.
      + rewrite <- E in G. apply get_none in G. tauto.
    - destruct (map_get c x m1) eqn:G; [|].
      + apply get_in in G; auto. apply (in_map fst) in G. auto.
      + rewrite E in G. apply get_none in G. tauto. }
  assert (L : forall k v, In (k, v) m1 <-> In (k, v) m2).
  { intros k v. rewrite <- (get_in k v m1), <- (get_in k v m2), E by auto. tauto. }
  clear E. revert m2 S2 EK L. induction m1 as [|[k v] m1 IH]; intros [|[k2 v2] m2] S2 EK L;
    try discriminate; auto.
  cbn in EK. injection EK as <- EK. inversion S1 as [|? ? S1' F1]; inversion S2 as [|? ? S2' F2]; subst.
  rewrite Forall_forall in F1, F2.
  assert (NI1 : ~ In k (keys m1)).
  { intros H. apply F1 in H. rewrite (o_refl O) in H; [discriminate|auto]. }
  assert (NI2 : ~ In k (keys m2)) by (unfold keys in *; rewrite <- EK; auto).
  assert (v = v2).
  { destruct (proj1 (L k v)) as [[= ->]|H]; [left; auto|auto|].
    exfalso. apply NI2. apply (in_map fst) in H; auto. }
  subst v2. f_equal. apply IH; auto. intros k' v'. split; intros H.
  - destruct (proj1 (L k' v')) as [[= <- <-]|]; [right; auto| |auto].
    exfalso. apply NI1. apply (in_map fst) in H; auto.
  - destruct (proj2 (L k' v')) as [[= <- <-]|]; [right; auto| |auto].
    exfalso. apply NI2. apply (in_map fst) in H; auto.
Qed.
End Maps.
