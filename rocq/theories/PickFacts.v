(** * Lemmas: choosing one element per name. *)
From Verif Require Import Str StrFacts Tokens Order OrderFacts SpecFile TokensRun.

Section Pick.
Context {K : Type} {c : K -> K -> comparison} (O : order c).
Context (elig : K -> bool) (nm : K -> str).

Fixpoint picks (seen : list str) (ks : list K) : list K :=
  match ks with
  | [] => []
  | k :: ks' =>
      if elig k && negb (existsb (str_eqb (nm k)) seen) then k :: picks (nm k :: seen) ks'
      else picks seen ks'
  end.

Lemma mem_true n seen : existsb (str_eqb n) seen = true <-> In n seen.
Proof.
  rewrite existsb_exists. split.
  - intros [x [H E]]. apply str_eqb_eq in E. subst; auto.
  - intros H. exists n. split; auto. apply str_eqb_eq; auto.
Qed.
Lemma mem_false n seen : existsb (str_eqb n) seen = false <-> ~ In n seen.
Proof. rewrite <- mem_true. destruct (existsb _ _); split; congruence. Qed.

Lemma picks_in seen ks k : In k (picks seen ks) -> In k ks.
Proof.
  revert seen. induction ks as [|x ks IH]; intros seen; cbn; auto.
  destruct (elig x && negb (existsb (str_eqb (nm x)) seen)); cbn; intuition eauto.
Qed.
Lemma picks_increasing ks : forall seen, increasing c ks -> increasing c (picks seen ks).
Proof.
  induction ks as [|k ks IH]; intros seen S; cbn; [constructor|].
  inversion S as [|? ? S' F]; subst.
  destruct (elig k && negb (existsb (str_eqb (nm k)) seen)); [|apply IH; auto].
  constructor; [apply IH; auto|]. rewrite Forall_forall in *. intros x Hx. apply F, (picks_in _ _ _ Hx).
Qed.
Lemma picks_spec ks : forall seen, increasing c ks -> forall k,
  In k (picks seen ks) <->
  ~ In (nm k) seen /\
  first_named (fun a b => c a b = Lt) (fun k => elig k = true) nm (fun k => In k ks) k.
Proof.
  unfold first_named.
  assert (IRR : forall x, c x x = Lt -> False) by (intros x E; rewrite (o_refl O) in E; [discriminate|auto]).
  induction ks as [|x ks IH]; intros seen S k; cbn; [tauto|].
  inversion S as [|? ? S' F]; subst. rewrite Forall_forall in F.
  destruct (elig x) eqn:EL; cbn.
  - destruct (existsb (str_eqb (nm x)) seen) eqn:M; cbn.
    + rewrite IH by auto. apply mem_true in M. split.
      * intros [N [H1 [H2 H3]]]. split; [auto|]. split; [auto|]. split; [auto|].
        intros k' [<-|H] E1 E2; auto. rewrite E2 in M. tauto.
      * intros [N [[<-|H1] [H2 H3]]]; [tauto|]. split; [auto|]. split; [auto|]. split; auto.
    + rewrite IH by auto. apply mem_false in M. split.
      * intros [<-|[N [H1 [H2 H3]]]].
        -- split; [auto|]. split; [auto|]. split; [auto|]. intros k' [<-|H] E1 E2; auto.
        -- cbn in N. split; [tauto|]. split; [auto|]. split; [auto|].
           intros k' [<-|H] E1 E2; auto; tauto.
      * intros [N [H1 [H2 H3]]]. destruct (list_eq_dec N.eq_dec (nm x) (nm k)) as [E|NE].
        -- left. destruct (H3 x) as [|L]; auto. exfalso.
           destruct H1 as [->|H1]; eauto. apply (IRR x). apply (o_trans O x k x); auto.
        -- right. split; [cbn; intuition|]. destruct H1 as [->|H1]; [tauto|]. auto.
  - rewrite IH by auto. split.
    + intros [N [H1 [H2 H3]]]. split; [auto|]. split; [auto|]. split; [auto|].
      intros k' [<-|H] E1 E2; [congruence|auto].
    + intros [N [[<-|H1] [H2 H3]]]; [congruence|]. split; auto.
Qed.
(** Every eligible element has a picked one with its name. *)
Lemma picks_complete ks : forall seen k, In k ks -> elig k = true -> ~ In (nm k) seen ->
  exists k', In k' (picks seen ks) /\ nm k' = nm k.
Proof.
  induction ks as [|x ks IH]; intros seen k Hk El N; cbn; [destruct Hk|].
  destruct Hk as [->|Hk].
  - rewrite El. apply mem_false in N. rewrite N. cbn. exists k. auto.
  - destruct (elig x && negb (existsb (str_eqb (nm x)) seen)) eqn:C; [|eauto].
    destruct (list_eq_dec N.eq_dec (nm x) (nm k)) as [E|NE].
    + exists x. cbn. auto.
    + destruct (IH (nm x :: seen) k) as [k' [H1 H2]]; auto; [cbn; intuition|].
      exists k'. cbn. auto.
Qed.
Lemma picks_names ks : forall seen, NoDup (map nm (picks seen ks)).
Proof.
  assert (D : forall ks seen k, In k (picks seen ks) -> ~ In (nm k) seen).
  { clear. induction ks as [|x ks IH]; intros seen k; cbn; [tauto|].
    destruct (elig x && negb (existsb (str_eqb (nm x)) seen)) eqn:C; [|apply IH].
    intros [<-|H].
    - apply andb_prop in C as [_ C]. apply mem_false. destruct (existsb _ _); auto; discriminate.
    - specialize (IH _ _ H). cbn in IH. tauto. }
  induction ks as [|x ks IH]; intros seen; cbn; [constructor|].
  destruct (elig x && negb (existsb (str_eqb (nm x)) seen)) eqn:C; [|apply IH].
  cbn. constructor; [|apply IH]. intros H. apply in_map_iff in H as [k [E H]].
  specialize (D _ _ _ H). rewrite E in D. apply D. left. auto.
Qed.
End Pick.

(** The map from names to values of picked elements. *)
Section PickMap.
Context {K : Type} (nm val : K -> str).
Definition pick_map (ks : list K) (m : list (str * str)) : list (str * str) :=
  fold_left (fun m k => map_insert str_cmp (nm k) (val k) m) ks m.
Lemma pick_map_get ks : forall m, NoDup (map nm ks) -> increasing str_cmp (keys m) ->
  (forall k, In k ks -> map_get str_cmp (nm k) m = None) -> forall n v,
  map_get str_cmp n (pick_map ks m) = Some v <->
  map_get str_cmp n m = Some v \/ exists k, In k ks /\ nm k = n /\ val k = v.
Proof.
  induction ks as [|k ks IH]; intros m ND S N n v; cbn.
  - split; auto. intros [|[? [[] _]]]; auto.
  - inversion ND as [|? ? ND1 ND2]; subst. fold (pick_map ks (map_insert str_cmp (nm k) (val k) m)).
    rewrite IH; auto.
    + unfold map_insert. rewrite (get_update str_order) by auto.
      destruct (str_cmp n (nm k)) eqn:E.
      * apply str_cmp_eq in E. subst n. rewrite (N k) by (left; auto). split.
        -- intros [[= <-]|[k' [H1 [H2 H3]]]]; right; [exists k; cbn; auto|exists k'; cbn; auto].
        -- intros [|[k' [[<-|H1] [H2 H3]]]]; [discriminate|left; congruence|].
           right. exists k'. auto.
      * split; intros [H|[k' [H1 [H2 H3]]]]; auto; right; [exists k'; cbn; auto|].
        destruct H1 as [<-|H1]; [|exists k'; auto].
        subst n. rewrite str_cmp_refl in E. discriminate.
      * split; intros [H|[k' [H1 [H2 H3]]]]; auto; right; [exists k'; cbn; auto|].
        destruct H1 as [<-|H1]; [|exists k'; auto].
        subst n. rewrite str_cmp_refl in E. discriminate.
    + apply (update_increasing str_order); auto.
    + intros k' Hk'. unfold map_insert. rewrite (get_update str_order) by auto.
      destruct (str_cmp (nm k') (nm k)) eqn:E.
      * apply str_cmp_eq in E. exfalso. apply ND1. rewrite <- E. apply in_map; auto.
      * apply N. right; auto.
      * apply N. right; auto.
Qed.
End PickMap.
