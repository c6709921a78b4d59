(** * Facts about relative paths. *)
From Verif Require Import Str StrFacts LangBase LangJs SpecJs RelPath SpecPath.

Definition part_named (c : component) : Prop :=
  match c with Normal s => path_name s | _ => True end.
Definition go (at_ : place) (c : component) : place :=
  match c with
  | CurDir => at_
  | ParentDir => up at_
  | Normal s => (fst at_, snd at_ ++ [s])
  end.
Definition gos (at_ : place) (p : path) : place := fold_left go p at_.

(** ** Text and components *)

Lemma segments_nonempty s : segments s <> [].
Proof. destruct s as [|c s]; cbn; [discriminate|]. destruct (N.eqb c 47); [discriminate|]. destruct (segments s); discriminate. Qed.
Lemma segments_plain s : ~ In 47%N s -> segments s = [s].
Proof.
  induction s as [|c s IH]; intros H; [reflexivity|]. cbn [segments].
  destruct (N.eqb_spec c 47) as [->|N]; [elim H; left; reflexivity|].
  rewrite IH; auto. intros X. apply H. right. exact X.
Qed.
Lemma segments_app s r : ~ In 47%N s -> segments (s ++ 47%N :: r) = s :: segments r.
Proof.
  induction s as [|c s IH]; intros H; [reflexivity|]. cbn [segments app].
  destruct (N.eqb_spec c 47) as [->|N]; [elim H; left; reflexivity|].
  rewrite IH; auto. intros X. apply H. right. exact X.
Qed.
Lemma text_no_slash c : part_named c -> ~ In 47%N (component_text c).
Proof.
  destruct c as [| |s]; cbn.
  - intros _ [H|[]]; discriminate.
  - intros _ [H|[H|[]]]; discriminate.
  - intros (_ & _ & _ & H). exact H.
Qed.
Lemma segments_join c p : Forall part_named (c :: p) ->
  segments (join $"/" (map component_text (c :: p))) = map component_text (c :: p).
Proof.
  revert c. induction p as [|d p IH]; intros c F; inversion_clear F.
  - cbn. apply segments_plain, text_no_slash; auto.
  - change (segments (component_text c ++ 47%N :: join $"/" (map component_text (d :: p))) =
            component_text c :: map component_text (d :: p)).
    rewrite segments_app by (apply text_no_slash; auto). rewrite IH; auto.
Qed.
Lemma step_go at_ c : part_named c -> step at_ (component_text c) = go at_ c.
Proof.
  destruct c as [| |s]; cbn; auto. intros (H1 & H2 & H3 & _). unfold step.
  destruct (str_eqb s []) eqn:E1; [apply str_eqb_eq in E1; contradiction|].
  destruct (str_eqb s $".") eqn:E2; [apply str_eqb_eq in E2; contradiction|].
  destruct (str_eqb s $"..") eqn:E3; [apply str_eqb_eq in E3; contradiction|]. reflexivity.
Qed.
Lemma follow_gos at_ p : Forall part_named p -> follow at_ (path_text p) = gos at_ p.
Proof.
  intros F. unfold follow, path_text. destruct p as [|c p]; [reflexivity|].
  rewrite segments_join by exact F. clear - F. revert at_.
  generalize (c :: p) F. clear. induction l as [|c p IH]; intros F at_; [reflexivity|].
  inversion_clear F. cbn [map fold_left gos]. rewrite step_go by assumption. apply IH; auto.
Qed.

(** ** Canonical paths *)

Definition canon (l : place) : path := repeat ParentDir (fst l) ++ map Normal (snd l).
Lemma gos_app at_ p q : gos at_ (p ++ q) = gos (gos at_ p) q.
Proof. apply fold_left_app. Qed.
Lemma gos_down at_ names : gos at_ (map Normal names) = (fst at_, snd at_ ++ names).
Proof.
  revert at_. induction names as [|n names IH]; intros at_; cbn.
  - rewrite app_nil_r. destruct at_; reflexivity.
  - change (gos (go at_ (Normal n)) (map Normal names) = (fst at_, snd at_ ++ n :: names)).
    rewrite IH. cbn. rewrite <- app_assoc. reflexivity.
Qed.
Lemma gos_top k n : gos (k, []) (repeat ParentDir n) = (k + n, []).
Proof.
  revert k. induction n as [|n IH]; intros k; cbn [repeat]; [rewrite Nat.add_0_r; reflexivity|].
  change (gos (S k, []) (repeat ParentDir n) = (k + S n, [])). rewrite IH. f_equal. lia.
Qed.
Lemma gos_canon l : gos (0, []) (canon l) = l.
Proof. unfold canon. rewrite gos_app, gos_top, gos_down. destruct l; reflexivity. Qed.
Lemma gos_ups l n names : gos (l, snd (l, names)) (map (fun _ : component => ParentDir) (map Normal n)) =
  gos (l, names) (repeat ParentDir (length n)).
Proof.
  f_equal. induction n; cbn; congruence.
Qed.
Lemma gos_back k names rest :
  gos (k, names ++ rest) (repeat ParentDir (length rest)) = (k, names).
Proof.
  revert names. induction rest as [|r rest IH] using rev_ind; intros names.
  - rewrite app_nil_r. reflexivity.
  - rewrite app_length, Nat.add_comm. cbn [length Nat.add repeat].
    change (gos (up (k, names ++ rest ++ [r])) (repeat ParentDir (length rest)) = (k, names)).
    unfold up. cbn [snd fst]. rewrite app_assoc. destruct ((names ++ rest) ++ [r]) eqn:E; [destruct (names ++ rest); discriminate|].
    rewrite <- E, removelast_last. apply IH.
Qed.

Lemma rev_repeat {A} (x : A) n : rev (repeat x n) = repeat x n.
Proof. induction n as [|n IH]; cbn [repeat rev]; [reflexivity|]. rewrite IH. symmetry. apply repeat_cons. Qed.
Lemma traverse_gos p : forall l, rev (traverse (rev (canon l)) p) = canon (gos l p).
Proof.
  induction p as [|c p IH]; intros [k names]; [apply rev_involutive|].
  destruct c as [| |s]; cbn [traverse].
  - apply IH.
  - change (gos (k, names) (ParentDir :: p)) with (gos (up (k, names)) p). rewrite <- IH.
    destruct names as [|n names] using rev_ind.
    + unfold canon, up. cbn [fst snd map]. rewrite !app_nil_r, !rev_repeat. destruct k; reflexivity.
    + unfold canon, up. cbn [fst snd]. rewrite map_app, app_assoc, rev_app_distr. cbn [map rev app].
      destruct (names ++ [n]) eqn:E; [destruct names; discriminate|]. rewrite <- E, removelast_last. reflexivity.
  - change (gos (k, names) (Normal s :: p)) with (gos (k, names ++ [s]) p). rewrite <- IH. f_equal. f_equal.
    unfold canon. cbn [fst snd]. rewrite map_app, app_assoc, (rev_app_distr _ (map Normal [s])). reflexivity.
Qed.
Lemma traverse_canon p : rev (traverse [] p) = canon (gos (0, []) p).
Proof. apply (traverse_gos p (0, [])). Qed.

Lemma component_eqb_eq a b : component_eqb a b = true <-> a = b.
Proof.
  destruct a, b; cbn; try (split; congruence). rewrite str_eqb_eq. split; congruence.
Qed.
Lemma strip_spec f : forall t, let '(f', t') := strip f t in
  exists c, f = c ++ f' /\ t = c ++ t' /\
    match f', t' with x :: _, y :: _ => x <> y | _, _ => True end.
Proof.
  induction f as [|x f IH]; intros t; cbn [strip].
  - exists []. auto.
  - destruct t as [|y t]; [exists []; auto|]. destruct (component_eqb x y) eqn:E.
    + apply component_eqb_eq in E. subst y. specialize (IH t). destruct (strip f t) as [f' t'].
      destruct IH as (c & -> & -> & H). exists (x :: c). auto.
    + exists []. split; [reflexivity|]. split; [reflexivity|]. intros H.
      apply component_eqb_eq in H. congruence.
Qed.

(** The relative path: up to the common place, down to the target. *)
Lemma repeat_split {A} (x : A) n c r l : repeat x n ++ l = c ++ r -> length c <= n ->
  c = repeat x (length c) /\ r = repeat x (n - length c) ++ l.
Proof.
  revert c. induction n as [|n IH]; intros [|d c] E L; cbn in *; auto; try lia.
  injection E as <- E. destruct (IH c E ltac:(lia)) as [E1 E2]. split; congruence.
Qed.
Lemma relative_shape mp p : let a := gos (0, []) mp in let b := gos (0, []) p in
  fst a <= fst b ->
  exists common back rest,
    canon a = common ++ map Normal back /\ canon b = common ++ rest /\
    relative_path mp p = repeat ParentDir (length back) ++ rest /\
    match back, rest with n :: _, x :: _ => Normal n <> x | _, _ => True end /\
    exists names, common = repeat ParentDir (fst a) ++ map Normal names /\ snd a = names ++ back.
Proof.
  intros a b L. unfold relative_path. rewrite !traverse_canon. fold a b.
  pose proof (strip_spec (canon a) (canon b)) as S. destruct (strip (canon a) (canon b)) as [f t].
  destruct S as (c & E1 & E2 & D).
  assert (C : fst a <= length c).
  { destruct (Nat.le_gt_cases (fst a) (length c)); auto. exfalso.
    unfold canon in E1, E2.
    destruct (repeat_split _ _ _ _ _ E1 ltac:(lia)) as [_ F1].
    destruct (repeat_split _ _ _ _ _ E2 ltac:(lia)) as [_ F2].
    replace (fst a - length c) with (S (fst a - length c - 1)) in F1 by lia.
    replace (fst b - length c) with (S (fst b - length c - 1)) in F2 by lia.
    subst f t. cbn in D. auto. }
  assert (N : exists names back, c = repeat ParentDir (fst a) ++ map Normal names /\ f = map Normal back /\ snd a = names ++ back).
  { clear - E1 C. unfold canon in E1. revert C E1. generalize (fst a) (snd a). intros n. revert c.
    induction n as [|n IH]; intros c names L E.
    - cbn in E. apply map_eq_app in E as (x & y & -> & <- & <-). exists x, y. auto.
    - destruct c as [|d c]; cbn in L; [lia|]. cbn in E. injection E as <- E.
      destruct (IH c names ltac:(lia) E) as (x & y & -> & -> & ->). exists x, y. auto. }
  destruct N as (names & back & -> & -> & EN).
  exists (repeat ParentDir (fst a) ++ map Normal names), back, t. split; [exact E1|]. split; [exact E2|].
  split; [|split; [|eauto]].
  - transitivity (map (fun _ : component => ParentDir) (map Normal back) ++ t).
    + destruct back; reflexivity.
    + f_equal. rewrite map_map. clear. induction back; cbn; congruence.
  - destruct back; exact D.
Qed.

Lemma relative_leads mp p : let a := gos (0, []) mp in let b := gos (0, []) p in
  fst a <= fst b -> gos a (relative_path mp p) = b.
Proof.
  intros a b L. destruct (relative_shape mp p L) as (common & back & rest & E1 & E2 & -> & _ & names & EC & EN).
  fold a b in E1, E2, EC, EN. rewrite gos_app.
  assert (A : a = (fst a, names ++ back)) by (rewrite <- EN; destruct a; reflexivity).
  rewrite A at 1. rewrite gos_back. rewrite <- (gos_canon b), E2, gos_app, EC. f_equal.
  rewrite gos_app, gos_top, gos_down. reflexivity.
Qed.

Lemma traverse_named buf p : Forall part_named buf -> Forall part_named p -> Forall part_named (traverse buf p).
Proof.
  revert buf. induction p as [|c p IH]; intros buf B F; auto. inversion_clear F. destruct c; cbn [traverse]; auto.
  destruct buf as [|[| |] buf]; try (apply IH; auto; fail); inversion_clear B; apply IH; auto.
Qed.
Lemma strip_named f t : Forall part_named f -> Forall part_named t ->
  Forall part_named (fst (strip f t)) /\ Forall part_named (snd (strip f t)).
Proof.
  intros F T. pose proof (strip_spec f t) as S. destruct (strip f t) as [f' t'].
  destruct S as (c & -> & -> & _). apply Forall_app in F, T. cbn. tauto.
Qed.
Lemma relative_named mp p : Forall part_named mp -> Forall part_named p -> Forall part_named (relative_path mp p).
Proof.
  intros M P. unfold relative_path.
  pose proof (strip_named (rev (traverse [] mp)) (rev (traverse [] p))
    (Forall_rev (traverse_named [] mp (Forall_nil _) M)) (Forall_rev (traverse_named [] p (Forall_nil _) P))) as [A B].
  destruct (strip _ _) as [f t]. cbn in A, B.
  assert (X : Forall part_named (map (fun _ => ParentDir) f ++ t)).
  { apply Forall_app. split; auto. clear. induction f; cbn; constructor; cbn; auto. }
  destruct f as [|[| |] f]; auto.
Qed.
