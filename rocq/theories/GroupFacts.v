(** * Lemmas: maps of groups.

    The headers of Python, JavaScript and Rust collect imports per module in a
    map whose entries are updated one import at a time. *)
From Verif Require Import Str Order OrderFacts SpecOrder.

Section Group.
Context {K V I : Type} {c : K -> K -> comparison} (O : order c).
(** The entry an import belongs to, and how it changes it. *)
Context (d : V) (grp : I -> option (K * (V -> V))).

Definition group_one (m : list (K * V)) (i : I) : list (K * V) :=
  match grp i with Some (k, f) => map_update c k d f m | None => m end.
Definition group (is : list I) (m : list (K * V)) : list (K * V) := fold_left group_one is m.

Lemma group_increasing is : forall m, increasing c (keys m) -> increasing c (keys (group is m)).
Proof.
  induction is as [|i is IH]; intros m S; cbn; auto. apply IH. unfold group_one.
  destruct (grp i) as [[k f]|]; auto. apply (update_increasing O); auto.
Qed.
Lemma group_keys is : forall m k, In k (keys (group is m)) <->
  In k (keys m) \/ exists i f, In i is /\ grp i = Some (k, f).
Proof.
  induction is as [|i is IH]; intros m k.
  - cbn. split; auto. intros [H|[i [f [[] _]]]]; auto.
  - change (group (i :: is) m) with (group is (group_one m i)). rewrite IH. cbn [In]. unfold group_one. destruct (grp i) as [[k1 f1]|] eqn:E.
    + rewrite (in_keys_update O). split.
      * intros [[->|H]|[j [g [H1 H2]]]]; eauto 7.
      * intros [H|[j [g [[->|H1] H2]]]]; eauto 7. rewrite E in H2. injection H2 as -> ->. auto.
    + split.
      * intros [H|[j [g [H1 H2]]]]; eauto 7.
      * intros [H|[j [g [[->|H1] H2]]]]; eauto 7. congruence.
Qed.

(** What holds of the default and is kept by the updates. *)
Lemma group_inv (P : V -> Prop) is : P d ->
  (forall i k f v, In i is -> grp i = Some (k, f) -> P v -> P (f v)) ->
  forall m, (forall k v, In (k, v) m -> P v) -> forall k v, In (k, v) (group is m) -> P v.
Proof.
  intros D. induction is as [|i is IH]; intros U m M k v H; cbn in H; [eauto|].
  eapply IH; [| |exact H].
  - intros; eapply U; eauto. right; auto.
  - clear k v H. unfold group_one. destruct (grp i) as [[k1 f]|] eqn:E; auto.
    assert (F : forall v, P v -> P (f v)) by (intros v; apply (U i k1 f v); auto; left; auto).
    clear - D F M. induction m as [|[k2 v2] m IH]; cbn; intros k v.
    + intros [[= <- <-]|[]]. auto.
    + destruct (c k1 k2); cbn.
      * intros [[= <- <-]|H]; [apply F; eapply M; left; reflexivity|eapply M; right; eauto].
      * intros [[= <- <-]|[H|H]]; [auto|eapply M; left; eauto|eapply M; right; eauto].
      * intros [[= <- <-]|H]; [eapply M; left; reflexivity|].
        apply (IH (fun k v X => M k v (or_intror X)) k v H).
Qed.
(** What every update establishes. *)
Lemma group_post (P : V -> Prop) is :
  (forall i k f v, In i is -> grp i = Some (k, f) -> P (f v)) ->
  forall m, (forall k v, In (k, v) m -> P v) -> forall k v, In (k, v) (group is m) -> P v.
Proof.
  induction is as [|i is IH]; intros U m M k v H; cbn in H; [eauto|].
  eapply IH; [| |exact H].
  - intros; eapply U; eauto. right; auto.
  - clear k v H. unfold group_one. destruct (grp i) as [[k1 f]|] eqn:E; auto.
    assert (F : forall v, P (f v)) by (intros v; apply (U i k1 f v); auto; left; auto).
    clear - F M. induction m as [|[k2 v2] m IH]; cbn; intros k v.
    + intros [[= <- <-]|[]]. auto.
    + destruct (c k1 k2); cbn.
      * intros [[= <- <-]|H]; [apply F|eapply M; right; eauto].
      * intros [[= <- <-]|[H|H]]; [auto|eapply M; left; eauto|eapply M; right; eauto].
      * intros [[= <- <-]|H]; [eapply M; left; reflexivity|].
        apply (IH (fun k v X => M k v (or_intror X)) k v H).
Qed.

(** Entries as sets of elements. *)
Section Members.
Context {E : Type} (mem : V -> E -> Prop) (adds : I -> E -> Prop).
Hypothesis D : forall e, ~ mem d e.
Hypothesis A : forall i k f v e, grp i = Some (k, f) -> (mem (f v) e <-> adds i e \/ mem v e).

Lemma group_mem is : forall m, increasing c (keys m) -> forall k e,
  (exists v, In (k, v) (group is m) /\ mem v e) <->
  (exists v, In (k, v) m /\ mem v e) \/ exists i f, In i is /\ grp i = Some (k, f) /\ adds i e.
Proof.
  induction is as [|i is IH]; intros m S k e.
  - cbn. split; auto. intros [H|[i [f [[] _]]]]; auto.
  - change (group (i :: is) m) with (group is (group_one m i)). cbn [In]. assert (S1 : increasing c (keys (group_one m i))).
    { unfold group_one. destruct (grp i) as [[? ?]|]; auto. apply (update_increasing O); auto. }
    rewrite IH by auto.
    assert (ST : (exists v, In (k, v) (group_one m i) /\ mem v e) <->
      (exists v, In (k, v) m /\ mem v e) \/ exists f, grp i = Some (k, f) /\ adds i e).
    { unfold group_one in *. destruct (grp i) as [[k1 f]|] eqn:G.
      2: { split; auto. intros [H|[f [H _]]]; auto. discriminate. }
      assert (GE : forall v, In (k, v) (map_update c k1 d f m) <->
                   map_get c k (map_update c k1 d f m) = Some v) by (intros; symmetry; apply (get_in O); auto).
      setoid_rewrite GE. setoid_rewrite (get_update O); auto.
      destruct (c k k1) eqn:EC.
      - apply (o_eq O) in EC; auto. subst k1. split.
        + intros [v [[= <-] H]]. rewrite (A i k f _ e G) in H. destruct H as [H|H]; [eauto|].
          left. destruct (map_get c k m) eqn:GM; [|destruct (D e H)].
          apply (get_in O) in GM; eauto.
        + intros H. eexists. split; [reflexivity|]. rewrite (A i k f _ e G).
          destruct H as [[v [H1 H2]]|[g [_ H]]]; auto. right.
          apply (get_in O) in H1; auto. rewrite H1. auto.
      - setoid_rewrite (get_in O); auto. split; auto. intros [H|[g [[= -> _] H]]]; auto.
        rewrite (o_refl O) in EC; [discriminate|auto].
      - setoid_rewrite (get_in O); auto. split; auto. intros [H|[g [[= -> _] H]]]; auto.
        rewrite (o_refl O) in EC; [discriminate|auto]. }
    rewrite ST. split.
    + intros [[H|[f [H1 H2]]]|[j [f [H1 [H2 H3]]]]]; eauto 9.
    + intros [H|[j [f [[->|H1] [H2 H3]]]]]; eauto 9.
Qed.
End Members.

(** Equal maps from the same imports in another order: entries with the same
    elements are the same. *)
Lemma group_same {E} (mem : V -> E -> Prop) (adds : I -> E -> Prop) (P : V -> Prop) is1 is2 :
  (forall e, ~ mem d e) ->
  (forall i k f v e, grp i = Some (k, f) -> (mem (f v) e <-> adds i e \/ mem v e)) ->
  P d -> (forall i k f v, grp i = Some (k, f) -> P v -> P (f v)) ->
  (forall v w, P v -> P w -> (forall e, mem v e <-> mem w e) -> v = w) ->
  same_set is1 is2 -> group is1 [] = group is2 [].
Proof.
  intros D A PD PF EX SS.
  assert (S0 : increasing c (keys (@nil (K * V)))) by constructor.
  assert (S1 := group_increasing is1 [] S0). assert (S2 := group_increasing is2 [] S0).
  assert (K12 : forall k, In k (keys (group is1 [])) <-> In k (keys (group is2 []))).
  { intros k. rewrite !group_keys. cbn. split; intros [[]|[i [f [H G]]]]; right; exists i, f; split; auto; apply SS; auto. }
  assert (M12 : forall k e, (exists v, In (k, v) (group is1 []) /\ mem v e) <->
                            (exists v, In (k, v) (group is2 []) /\ mem v e)).
  { intros k e. rewrite !(group_mem mem adds D A) by auto. cbn.
    split; (intros [[v [[] _]]|[i [f [H G]]]]; right; exists i, f; split; auto; apply SS; auto). }
  apply (map_ext_get O); auto. intros k.
  destruct (map_get c k (group is1 [])) as [v|] eqn:G1, (map_get c k (group is2 [])) as [w|] eqn:G2.
  - f_equal. apply (get_in O) in G1, G2; auto. apply EX.
    + eapply (group_inv P is1); eauto. intros ? ? [].
    + eapply (group_inv P is2); eauto. intros ? ? [].
    + intros e. assert (U : forall is v, In (k, v) (group is []) -> increasing c (keys (group is [])) ->
        (mem v e <-> exists v, In (k, v) (group is []) /\ mem v e)).
      { intros is v0 H S. split; [eauto|]. intros [v1 [H1 H2]].
        apply (get_in O) in H, H1; auto. congruence. }
      rewrite (U is1 v G1 S1), (U is2 w G2 S2). apply M12.
  - exfalso. apply (get_none O) in G2. apply G2, K12. apply (get_in O) in G1; auto.
    apply (in_map fst) in G1. exact G1.
  - exfalso. apply (get_none O) in G1. apply G1, K12. apply (get_in O) in G2; auto.
    apply (in_map fst) in G2. exact G2.
  - reflexivity.
Qed.
End Group.
