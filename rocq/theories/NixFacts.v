(** * Lemmas: the Nix header. *)
From Verif Require Import Str StrFacts Tokens SpecTokens TokensRun TokensFacts Values ValuesFacts AlgebraFacts Fmt SpecFmt FmtFacts
  RenderFacts LayoutFacts WriterFacts HistoryFacts OutputFacts Order OrderFacts SpecOrder SpecFile HeaderFacts FileFacts
  SpecLang ImportFacts PickFacts JavaFacts BlockFacts GroupFacts PythonFacts JsFacts LangBase LangNix SpecNix.

(** ** Orders *)
Definition item_code (x : item nix_import)
  : nat * (option item_str * (option (nat * nix_import) * (Z * bool))) :=
  (item_rank x,
   (match x with Literal s => Some s | _ => None end,
    (match x with Lang p l | Register p l => Some (p, l) | _ => None end,
     (match x with Indentation n => n | _ => 0%Z end,
      match x with OpenQuote e => e | _ => false end)))).
Definition item_in (P : nix_import -> Prop) (x : item nix_import) : Prop :=
  match x with Lang _ l | Register _ l => P l | _ => True end.
Lemma item_order c P : order_on P c -> order_on (item_in P) (cmp_item c).
Proof.
  intros O.
  apply (order_ext _ (fun x y => cmp_pair cmp_nat (cmp_pair (cmp_option cmp_item_str)
    (cmp_pair (cmp_option (cmp_pair cmp_nat c)) (cmp_pair Z.compare cmp_bool))) (item_code x) (item_code y))).
  - intros x y.
    destruct x, y; unfold cmp_pair, item_code; cbn; try reflexivity; unfold then_cmp, cmp_pair, then_cmp, cmp_nat; cbn.
    all: repeat match goal with |- context [match ?c with Eq => _ | _ => _ end] =>
      match c with context [match _ with Eq => _ | _ => _ end] => fail 1 | _ => destruct c end end; reflexivity.
  - apply (order_map item_code).
    + intros x y _ _ E. destruct x, y; try discriminate E; try reflexivity; injection E; intros; subst; reflexivity.
    + apply (order_sub (fun d => True /\ True /\ match fst (snd (snd d)) with Some q => True /\ P (snd q) | None => True end /\ True /\ True)).
      { intros d [x [H ->]]. destruct x; cbn in *; tauto. }
      apply (pair_order (fun _ => True) (fun b => True /\ match fst (snd b) with Some q => True /\ P (snd q) | None => True end /\ True /\ True));
        [apply nat_order|].
      apply (pair_order (fun _ => True) (fun b => match fst b with Some q => True /\ P (snd q) | None => True end /\ True /\ True));
        [apply option_order_full, item_str_order|].
      apply (pair_order (fun b => match b with Some q => True /\ P (snd q) | None => True end) (fun _ => True /\ True)).
      * apply (option_order (fun q => True /\ P (snd q))). apply (pair_order (fun _ => True) P); [apply nat_order|exact O].
      * apply (pair_order (fun _ => True) (fun _ => True)); [apply Z_order|apply bool_order].
Qed.
Fixpoint nix_size (i : nix_import) : nat :=
  match i with
  | NVariable _ v _ =>
      S ((fix go l := match l with
          | [] => 0
          | x :: l' => match x with Lang _ j | Register _ j => nix_size j | _ => 0 end + go l'
          end) v)
  | _ => 0
  end.
Lemma size_items n v l0 x : In x v -> item_in (fun j => nix_size j < nix_size (NVariable n v l0)) x.
Proof.
  cbn [nix_size]. intros H. induction v as [|y v IH]; [destruct H|].
  destruct H as [->|H].
  - destruct x; cbn; try exact I; lia.
  - specialize (IH H). destruct x; cbn in *; try exact I; destruct y; lia.
Qed.
Definition nix_code (i : nix_import)
  : nat * (item_str * (option item_str * (list (item nix_import) * nat))) :=
  match i with
  | NArgument n => (0, (n, (None, ([], 0))))
  | NInherit p n => (1, (p, (Some n, ([], 0))))
  | NVariable n v l => (2, (n, (None, (v, l))))
  | NWith p n => (3, (p, (Some n, ([], 0))))
  end.
Lemma nix_order_size n : order_on (fun i => nix_size i < n) cmp_nix.
Proof.
  induction n as [|n IH]; [split; [|split]; lia|].
  apply item_order, list_order in IH.
  apply (order_ext _ (fun x y => cmp_pair cmp_nat (cmp_pair cmp_item_str (cmp_pair (cmp_option cmp_item_str)
    (cmp_pair (cmp_list (cmp_item cmp_nix)) cmp_nat))) (nix_code x) (nix_code y))).
  - intros x y.
    destruct x, y; unfold cmp_pair, nix_code; cbn; try reflexivity; unfold then_cmp, cmp_pair, then_cmp, cmp_nat; cbn;
    repeat match goal with |- context [match ?c with Eq => _ | _ => _ end] =>
      match c with context [match _ with Eq => _ | _ => _ end] => fail 1 | _ => destruct c end end; reflexivity.
  - apply (order_map nix_code).
    + intros x y _ _ E. destruct x, y; try discriminate E; try reflexivity; injection E; intros; subst; reflexivity.
    + apply (order_sub (fun c => True /\ True /\ True /\ Forall (item_in (fun i => nix_size i < n)) (fst (snd (snd (snd c)))) /\ True)).
      { intros c [x [H ->]]. destruct x; cbn in H |- *; repeat split; auto.
        apply Forall_forall. intros x Hx. pose proof (size_items name value last x Hx) as S.
        cbn [nix_size] in S. destruct x; cbn in S |- *; auto; lia. }
      apply (pair_order (fun _ => True) (fun b : item_str * (option item_str * (list (item nix_import) * nat)) => True /\ True /\ Forall (item_in (fun i => nix_size i < n)) (fst (snd (snd b))) /\ True)); [apply nat_order|].
      apply (pair_order (fun _ => True) (fun b : option item_str * (list (item nix_import) * nat) => True /\ Forall (item_in (fun i => nix_size i < n)) (fst (snd b)) /\ True)); [apply item_str_order|].
      apply (pair_order (fun _ => True) (fun b : list (item nix_import) * nat => Forall (item_in (fun i => nix_size i < n)) (fst b) /\ True)); [apply option_order_full, item_str_order|].
      apply (pair_order (Forall (item_in (fun i => nix_size i < n))) (fun _ => True)); [exact IH|apply nat_order].
Qed.
Lemma nix_order : order cmp_nix.
Proof.
  split; [|split].
  - intros x y _ _. apply (nix_order_size (S (nix_size x + nix_size y))); lia.
  - intros x y _ _. apply (nix_order_size (S (nix_size x + nix_size y))); lia.
  - intros x y z _ _ _. apply (nix_order_size (S (nix_size x + nix_size y + nix_size z))); lia.
Qed.
Lemma nix_items_order : order (cmp_list (cmp_item cmp_nix)).
Proof.
  apply list_order_full. eapply order_sub; [|apply (item_order cmp_nix (fun _ => True)); exact nix_order].
  intros []; cbn; auto.
Qed.
Lemma nix_var_order : order cmp_nix_var.
Proof. repeat apply pair_order_full; auto using item_str_order, nix_items_order, nat_order. Qed.

(** ** Collecting *)
Section Inserts.
Context {K : Type} (c : K -> K -> comparison).
Definition inserts (xs : list K) (s : list K) : list K := fold_left (fun s x => set_insert c x s) xs s.
Lemma inserts_fold {I} (f : I -> list K) is : forall s,
  fold_left (fun s i => inserts (f i) s) is s = inserts (flat_map f is) s.
Proof.
  induction is as [|i is IH]; intros s; [reflexivity|]. cbn [fold_left flat_map].
  rewrite IH. unfold inserts. rewrite fold_left_app. reflexivity.
Qed.
Lemma inserts_collect xs s : inserts xs s = collect (c := c) Some xs s.
Proof. reflexivity. Qed.
Lemma in_inserts (O : order c) xs x : In x (inserts xs []) <-> In x xs.
Proof.
  rewrite inserts_collect, (in_collect O). split.
  - intros [[]|[i [H [= ->]]]]. auto.
  - intros H. right. exists x. auto.
Qed.
Lemma inserts_increasing (O : order c) xs : increasing c (inserts xs []).
Proof. rewrite inserts_collect. apply (collect_increasing O). constructor. Qed.
End Inserts.
Lemma fold_ext2 {A B} (f g : A -> B -> A) l : (forall a b, f a b = g a b) -> forall a, fold_left f l a = fold_left g l a.
Proof. intros H. induction l as [|b l IH]; intros a; [reflexivity|]. cbn. rewrite H. apply IH. Qed.

Definition inner_args (i : nix_import) : list str :=
  match i with NInherit p _ => [nix_root p] | NArgument n => [content n] | _ => [] end.
Definition args_of (i : nix_import) : list str :=
  match i with
  | NArgument n => [content n]
  | NInherit p _ | NWith p _ => [nix_root p]
  | NVariable _ v l => flat_map inner_args (walk_imports (nix_value v l))
  end.
Definition nix_args (t : tokens nix_import) : list str := inserts str_cmp (flat_map args_of (walk_imports t)) [].
Lemma nix_args_eq t : fold_left nix_argument_one (walk_imports t) [] = nix_args t.
Proof.
  unfold nix_args. rewrite <- inserts_fold. apply fold_ext2. intros s [n|p n|n v l|p n]; try reflexivity.
  cbn [nix_argument_one args_of]. rewrite <- inserts_fold. apply fold_ext2. intros s' []; reflexivity.
Qed.
Definition withs_of (i : nix_import) : list item_str := match i with NWith p _ => [p] | _ => [] end.
Definition nix_ws (t : tokens nix_import) : list item_str := inserts cmp_item_str (flat_map withs_of (walk_imports t)) [].
Lemma nix_ws_eq t : fold_left nix_with_one (walk_imports t) [] = nix_ws t.
Proof. unfold nix_ws. rewrite <- inserts_fold. apply fold_ext2. intros s []; reflexivity. Qed.
Definition inner_inherits (i : nix_import) : list (item_str * item_str) :=
  match i with NInherit p n => [(p, n)] | _ => [] end.
Definition inherits_of (i : nix_import) : list (item_str * item_str) :=
  match i with
  | NInherit p n => [(p, n)]
  | NVariable _ v l => flat_map inner_inherits (walk_imports (nix_value v l))
  | _ => []
  end.
Definition vars_of (i : nix_import) : list nix_var :=
  match i with NVariable n v l => [(n, (v, l))] | _ => [] end.
Definition nix_inherits (t : tokens nix_import) : list (item_str * item_str) :=
  inserts nix_inherit_cmp (flat_map inherits_of (walk_imports t)) [].
Definition nix_vars (t : tokens nix_import) : list nix_var :=
  inserts cmp_nix_var (flat_map vars_of (walk_imports t)) [].
Lemma nix_collect_eq is : forall a b, fold_left nix_collect_one is (a, b) =
  (inserts nix_inherit_cmp (flat_map inherits_of is) a, inserts cmp_nix_var (flat_map vars_of is) b).
Proof.
  induction is as [|i is IH]; intros a b; [reflexivity|]. cbn [fold_left flat_map].
  unfold inserts. rewrite !fold_left_app. fold (inserts nix_inherit_cmp (inherits_of i) a).
  fold (inserts cmp_nix_var (vars_of i) b). 
  assert (E : nix_collect_one (a, b) i = (inserts nix_inherit_cmp (inherits_of i) a, inserts cmp_nix_var (vars_of i) b)).
  { destruct i; try reflexivity. cbn [nix_collect_one inherits_of vars_of]. f_equal.
    rewrite <- inserts_fold. apply fold_ext2. intros s []; reflexivity. }
  rewrite E. apply IH.
Qed.
Lemma inherit_order : order nix_inherit_cmp.
Proof. apply pair_order_full; apply item_str_order. Qed.

Lemma root_spec s : nix_path_root s (before_char 46 s).
Proof.
  unfold nix_path_root. induction s as [|x s [I1 I2]]; cbn; [split; auto|].
  destruct (N.eqb_spec x 46) as [->|N].
  - split; auto. right. exists s. reflexivity.
  - split; [intros [E|E]; [congruence|tauto]|]. destruct I2 as [E|[r E]].
    + left. congruence.
    + right. exists r. cbn. congruence.
Qed.
Lemma root_unique s r : nix_path_root s r -> r = before_char 46 s.
Proof.
  intros [N H]. revert s H. induction r as [|x r IH]; intros s H.
  - destruct H as [->|[rest ->]]; reflexivity.
  - assert (X : N.eqb x 46 = false) by (apply N.eqb_neq; intros ->; apply N; left; auto).
    assert (N' : ~ In 46%N r) by (intros Y; apply N; right; auto).
    destruct H as [->|[rest ->]]; cbn; rewrite X; f_equal; apply IH; eauto.
Qed.

Lemma value_walk n v l : nix_made (NVariable n v l) ->
  same_set (walk_imports (nix_value v l)) (uses (nix_value v l)).
Proof. intros [cs ->]. apply walk_set. Qed.

Lemma in_nix_args cs a : let t := build cs in Forall nix_made (uses t) ->
  (In a (nix_args t) <-> exists i, nix_used t i /\ nix_needs_argument i a).
Proof.
  intros t M. rewrite Forall_forall in M. unfold nix_args. rewrite (in_inserts _ str_order), in_flat_map. split.
  - intros [i [Hi H]]. apply walk_set in Hi. destruct i as [n|p n|n v l|p n]; cbn in H.
    + destruct H as [<-|[]]. exists (NArgument n). split; [constructor; auto|reflexivity].
    + destruct H as [<-|[]]. exists (NInherit p n). split; [constructor; auto|apply root_spec].
    + apply in_flat_map in H as [j [Hj H]]. apply (value_walk n) in Hj; [|apply M; auto].
      destruct j as [n'|p' n'| |]; cbn in H; try tauto; destruct H as [<-|[]]; eexists;
        (split; [eapply used_in_value; [exact Hi|exact Hj|exact I]|]); [reflexivity|apply root_spec].
    + destruct H as [<-|[]]. exists (NWith p n). split; [constructor; auto|apply root_spec].
  - intros [i [[j Hj|n v l j Hv Hj K] H]].
    + exists j. split; [apply walk_set; auto|].
      destruct j; cbn in H |- *; try tauto; left; auto; symmetry; apply root_unique; auto.
    + exists (NVariable n v l). split; [apply walk_set; auto|]. cbn. apply in_flat_map.
      exists j. split; [apply (value_walk n); auto|].
      destruct j; cbn in H, K |- *; try tauto; left; auto; symmetry; apply root_unique; auto.
Qed.
Lemma in_nix_ws cs w : let t := build cs in In w (nix_ws t) <-> exists n, In (NWith w n) (uses t).
Proof.
  intros t. unfold nix_ws. rewrite (in_inserts _ item_str_order), in_flat_map. split.
  - intros [i [Hi H]]. apply walk_set in Hi. destruct i; cbn in H; try tauto. destruct H as [<-|[]]. eauto.
  - intros [n H]. eexists. split; [apply walk_set; exact H|]. left. reflexivity.
Qed.
Lemma in_nix_inherits cs p n : let t := build cs in Forall nix_made (uses t) ->
  (In (p, n) (nix_inherits t) <-> nix_used t (NInherit p n)).
Proof.
  intros t M. rewrite Forall_forall in M. unfold nix_inherits. rewrite (in_inserts _ inherit_order), in_flat_map. split.
  - intros [i [Hi H]]. apply walk_set in Hi. destruct i as [|p' n'|n' v l|]; cbn in H; try tauto.
    + destruct H as [[= -> ->]|[]]. constructor. auto.
    + apply in_flat_map in H as [j [Hj H]]. apply (value_walk n') in Hj; [|apply M; auto].
      destruct j; cbn in H; try tauto. destruct H as [[= -> ->]|[]]. eapply used_in_value; eauto.
  - intros U. inversion U as [j Hj|n' v l j Hv Hj K]; subst.
    + eexists. split; [apply walk_set; exact Hj|]. left. reflexivity.
    + exists (NVariable n' v l). split; [apply walk_set; auto|]. cbn. apply in_flat_map.
      eexists. split; [apply (value_walk n'); [apply M; exact Hv|exact Hj]|]. left. reflexivity.
Qed.
Lemma in_nix_vars cs n v l : let t := build cs in
  In (n, (v, l)) (nix_vars t) <-> In (NVariable n v l) (uses t).
Proof.
  intros t. unfold nix_vars. rewrite (in_inserts _ nix_var_order), in_flat_map. split.
  - intros [i [Hi H]]. apply walk_set in Hi. destruct i; cbn in H; try tauto. destruct H as [[= -> -> ->]|[]]. auto.
  - intros H. eexists. split; [apply walk_set; exact H|]. left. reflexivity.
Qed.
