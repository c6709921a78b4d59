(** * Lemmas about token streams. *)
From Verif Require Import Tokens SpecTokens TokensRun.

Section Facts.
Context {LI : Type}.
Implicit Types (t : tokens LI) (r : list (item LI)) (x : item LI).

(** ** Reversed-list form of the invariants *)

(** One-based position of the most recent language item. *)
Fixpoint last_of r : nat :=
  match r with
  | [] => 0
  | Lang _ _ :: _ | Register _ _ :: _ => length r
  | _ :: r' => last_of r'
  end.

Fixpoint links_ok r : Prop :=
  match r with
  | [] => True
  | Lang p _ :: r' | Register p _ :: r' => p = last_of r' /\ links_ok r'
  | _ :: r' => links_ok r'
  end.

Definition wf t : Prop :=
  last_lang_item t = last_of (ritems t) /\ links_ok (ritems t).

(** Canonical form on the reversed list. *)
Fixpoint rcanon r : Prop :=
  match r with
  | [] => True
  | b :: r' =>
      b <> Indentation 0%Z /\
      match r' with [] => True | a :: _ => bad_pair a b = false end /\
      rcanon r'
  end.

Definition rclosed r : Prop :=
  match r with [] => True | x :: _ => is_white x = false end.

Lemma rcanon_tail x r : rcanon (x :: r) -> rcanon r.
Proof. cbn; tauto. Qed.

(** ** Popping loops *)

Ltac cases_head r :=
  destruct r as [|[?s|?p ?l|?p ?l| | | |?n|?e| | |] ?r].

Lemma push_loop_wf r : links_ok r ->
  links_ok (push_loop r) /\ last_of (push_loop r) = last_of r.
Proof.
  induction r as [|x r IH]; cbn; [tauto|].
  destruct x; cbn in *; intuition.
Qed.
Lemma line_loop_wf r : links_ok r ->
  links_ok (line_loop r) /\ last_of (line_loop r) = last_of r.
Proof.
  induction r as [|x r IH]; cbn; [tauto|].
  destruct x; cbn in *; intuition.
Qed.
Lemma indentation_loop_wf r : forall n, links_ok r ->
  links_ok (indentation_loop n r) /\ last_of (indentation_loop n r) = last_of r.
Proof.
  induction r as [|x r IH]; intros n; cbn.
  { destruct (Z.eqb n 0); cbn; tauto. }
  destruct x; cbn in *; try solve [apply IH]; destruct (Z.eqb n 0); cbn; intuition.
Qed.

Lemma add_item_wf x t : wf t -> wf (add_item x t).
Proof.
  unfold wf; intros [Hl Hk].
  destruct x; cbn; unfold vec_push; cbn;
    rewrite ?Hl; auto.
  - destruct (push_loop_wf _ Hk) as [A B]; rewrite B; auto.
  - destruct (line_loop_wf _ Hk) as [A B]; rewrite B; auto.
  - unfold space. destruct (ritems t) as [|y r'] eqn:E; cbn; rewrite ?E; cbn; rewrite ?Hl, ?E; auto.
    destruct y; cbn; rewrite ?E; cbn; auto.
  - destruct (indentation_loop_wf _ n Hk) as [A B]; rewrite B; auto.
Qed.

Lemma new_wf : wf (@new LI).
Proof. split; cbn; auto. Qed.

Lemma extend_wf xs : forall t, wf t -> wf (extend xs t).
Proof.
  induction xs as [|x xs IH]; cbn; intros t H; auto.
  apply IH, add_item_wf, H.
Qed.

(** ** Canonical form *)

Lemma push_loop_canon r : rcanon r -> rcanon (push_loop r).
Proof.
  induction r as [|x r IH]; cbn; intros H.
  { repeat split; discriminate. }
  destruct H as [H1 [H2 H3]].
  destruct x; cbn; try (apply IH; assumption);
    try (repeat split; auto; discriminate).
Qed.

Lemma line_loop_canon r : rcanon r -> rcanon (line_loop r).
Proof.
  induction r as [|x r IH]; cbn; intros H.
  { repeat split; discriminate. }
  destruct H as [H1 [H2 H3]].
  destruct x; cbn; try (apply IH; assumption);
    try (repeat split; auto; discriminate).
Qed.

Lemma indentation_loop_canon r : forall n,
  rcanon r -> rcanon (indentation_loop n r).
Proof.
  induction r as [|x r IH]; cbn [indentation_loop]; intros n H.
  { destruct (Z.eqb_spec n 0); cbn; repeat split; congruence. }
  pose proof (rcanon_tail _ _ H) as H3.
  destruct x; try (apply IH; assumption);
    destruct (Z.eqb_spec n 0); auto;
    (split; [congruence|split; [reflexivity|exact H]]).
Qed.

Lemma content_canon x r : is_white x = false -> rcanon r -> rcanon (x :: r).
Proof.
  intros W H; split; [|split; auto].
  - intros ->; discriminate.
  - destruct r as [|a r']; auto.
    unfold bad_pair. destruct x; try discriminate W; cbn;
      rewrite ?andb_false_r; reflexivity.
Qed.

Lemma add_item_canon x t : rcanon (ritems t) -> rcanon (ritems (add_item x t)).
Proof.
  intros H. destruct x; cbn [add_item].
  - apply content_canon; auto.
  - apply content_canon; auto.
  - apply content_canon; auto.
  - apply push_loop_canon; auto.
  - apply line_loop_canon; auto.
  - unfold space. destruct (ritems t) as [|y r'] eqn:E.
    + cbn; rewrite E; cbn; repeat split; discriminate.
    + destruct y; cbn [vec_push ritems]; rewrite ?E; auto;
        (split; [discriminate|split; [reflexivity|exact H]]).
  - apply indentation_loop_canon; auto.
  - apply content_canon; auto.
  - apply content_canon; auto.
  - apply content_canon; auto.
  - apply content_canon; auto.
Qed.

Lemma extend_canon xs : forall t,
  rcanon (ritems t) -> rcanon (ritems (extend xs t)).
Proof.
  induction xs as [|x xs IH]; cbn; intros t H; auto.
  apply IH, add_item_canon, H.
Qed.

Lemma rcanon_canonical r : rcanon r -> canonical (rev r).
Proof.
  intros H; split.
  - intros pre a b post E.
    apply (f_equal (@rev _)) in E. rewrite rev_involutive, rev_app_distr in E.
    cbn in E. rewrite <- !app_assoc in E. cbn in E.
    revert H E. generalize (rev post) as q; generalize (rev pre) as p; intros p q H E.
    subst r. induction q as [|y q IH]; cbn in H.
    + tauto.
    + apply IH; tauto.
  - intros n Hin ->. apply in_rev in Hin.
    induction r as [|y r IH]; cbn in *; [tauto|].
    destruct H as [A [_ B]]. destruct Hin as [->|Hin]; [congruence|auto].
Qed.

Lemma canonical_rcanon r : canonical (rev r) -> rcanon r.
Proof.
  induction r as [|b r IH]; intros [H1 H2]; cbn; auto.
  repeat split.
  - intros ->. apply (H2 0%Z); auto. cbn. apply in_or_app; right; left; auto.
  - destruct r as [|a r']; auto.
    apply (H1 (rev r') a b []). cbn. rewrite <- app_assoc; reflexivity.
  - apply IH; split.
    + intros pre a c post E. apply (H1 pre a c (post ++ [b])).
      cbn. rewrite E. rewrite <- !app_assoc; reflexivity.
    + intros n Hin. apply (H2 n). cbn. apply in_or_app; left; auto.
Qed.

(** ** Content, net indentation, imports: what each operation adds *)

Definition rpieces r := pieces (rev r).
Lemma pieces_app (a b : list (item LI)) : pieces (a ++ b) = pieces a ++ pieces b.
Proof. apply flat_map_app. Qed.
Lemma rpieces_cons x r : rpieces (x :: r) = rpieces r ++ piece_of x.
Proof.
  unfold rpieces; cbn [rev]. rewrite pieces_app. f_equal.
  unfold pieces; cbn [flat_map]. apply app_nil_r.
Qed.

Lemma push_loop_pieces r : rpieces (push_loop r) = rpieces r.
Proof.
  induction r as [|x r IH]; auto.
  destruct x; cbn [push_loop]; rewrite ?rpieces_cons, ?IH; cbn [piece_of];
    rewrite ?app_nil_r; auto.
Qed.
Lemma line_loop_pieces r : rpieces (line_loop r) = rpieces r.
Proof.
  induction r as [|x r IH]; auto.
  destruct x; cbn [line_loop]; rewrite ?rpieces_cons, ?IH; cbn [piece_of];
    rewrite ?app_nil_r; auto.
Qed.
Lemma indentation_loop_pieces r : forall n,
  rpieces (indentation_loop n r) = rpieces r.
Proof.
  induction r as [|x r IH]; intros n; cbn [indentation_loop].
  { destruct (Z.eqb n 0); auto. }
  destruct x; rewrite ?IH;
    try (destruct (Z.eqb n 0)); rewrite ?rpieces_cons; cbn [piece_of];
    rewrite ?app_nil_r; auto.
Qed.

Lemma add_item_pieces x t :
  pieces (items (add_item x t)) = pieces (items t) ++ piece_of x.
Proof.
  unfold items. fold (rpieces (ritems (add_item x t))). fold (rpieces (ritems t)).
  destruct x; cbn [add_item]; unfold vec_push, lang_item, lang_item_register,
    push, line, indentation; cbn [ritems];
    rewrite ?rpieces_cons, ?push_loop_pieces, ?line_loop_pieces,
      ?indentation_loop_pieces; cbn [piece_of]; rewrite ?app_nil_r; auto.
  unfold space. destruct (ritems t) as [|y r'] eqn:E.
  - cbn; rewrite E; auto.
  - destruct y; cbn [vec_push ritems]; rewrite ?E, ?rpieces_cons; cbn [piece_of];
      rewrite ?app_nil_r; auto.
Qed.

Lemma extend_pieces xs : forall t,
  pieces (items (extend xs t)) = pieces (items t) ++ pieces xs.
Proof.
  induction xs as [|x xs IH]; intros t; cbn.
  - rewrite app_nil_r; auto.
  - change (fold_left _ xs ?a) with (extend xs a).
    rewrite IH, add_item_pieces, <- app_assoc. reflexivity.
Qed.

Lemma net_app (a b : list (item LI)) :
  net_indentation (a ++ b) = (net_indentation a + net_indentation b)%Z.
Proof. induction a as [|x a IH]; cbn; auto. rewrite IH; lia. Qed.
Lemma net_rev r : net_indentation (rev r) = net_indentation r.
Proof. induction r as [|x r IH]; cbn; auto. rewrite net_app, IH; cbn; lia. Qed.

Lemma push_loop_net r : net_indentation (push_loop r) = net_indentation r.
Proof. induction r as [|x r IH]; cbn; auto; destruct x; cbn in *; lia. Qed.
Lemma line_loop_net r : net_indentation (line_loop r) = net_indentation r.
Proof. induction r as [|x r IH]; cbn; auto; destruct x; cbn in *; lia. Qed.
Lemma indentation_loop_net r : forall n,
  net_indentation (indentation_loop n r) = (net_indentation r + n)%Z.
Proof.
  induction r as [|x r IH]; intros n; cbn [indentation_loop].
  { destruct (Z.eqb_spec n 0); cbn; lia. }
  destruct x; rewrite ?IH; cbn; try lia;
    destruct (Z.eqb_spec n 0); cbn; lia.
Qed.

Lemma add_item_net x t :
  net_indentation (items (add_item x t)) =
  (net_indentation (items t) + indentation_of x)%Z.
Proof.
  unfold items; rewrite !net_rev.
  destruct x; cbn [add_item]; unfold vec_push, lang_item, lang_item_register,
    push, line, indentation; cbn [ritems];
    rewrite ?push_loop_net, ?line_loop_net, ?indentation_loop_net; cbn; try lia.
  unfold space. destruct (ritems t) as [|y r'] eqn:E.
  - cbn; rewrite E; auto.
  - destruct y; cbn [vec_push ritems]; rewrite ?E; cbn; lia.
Qed.

Lemma extend_net xs : forall t,
  net_indentation (items (extend xs t)) =
  (net_indentation (items t) + net_indentation xs)%Z.
Proof.
  induction xs as [|x xs IH]; intros t; cbn.
  - lia.
  - change (fold_left _ xs ?a) with (extend xs a).
    rewrite IH, add_item_net; lia.
Qed.

(** Imports are determined by the pieces. *)
Definition piece_imports (p : piece LI) : list LI :=
  match p with PLang l | PRegister l => [l] | _ => [] end.
Lemma imports_pieces (xs : list (item LI)) :
  imports_of xs = flat_map piece_imports (pieces xs).
Proof.
  induction xs as [|x xs IH]; cbn; auto.
  unfold pieces in *. rewrite flat_map_app, <- IH. f_equal.
  destruct x; reflexivity.
Qed.
Lemma imports_app (a b : list (item LI)) :
  imports_of (a ++ b) = imports_of a ++ imports_of b.
Proof. apply flat_map_app. Qed.

Lemma extend_imports xs t :
  imports_of (items (extend xs t)) = imports_of (items t) ++ imports_of xs.
Proof.
  rewrite !imports_pieces, extend_pieces, flat_map_app; auto.
Qed.

(** ** Walking imports *)

Lemma last_of_le r : last_of r <= length r.
Proof. induction r as [|x r IH]; cbn; auto; destruct x; cbn; lia. Qed.

Lemma walk_next_cons x r pos : pos <= length r ->
  walk_next (rev (x :: r)) pos = walk_next (rev r) pos.
Proof.
  intros H. destruct pos as [|p]; cbn; auto.
  rewrite nth_error_app1; auto. rewrite rev_length; lia.
Qed.

Lemma walk_from_cons x r : links_ok r -> forall fuel pos,
  (pos = last_of r \/ exists r1 r2, r = r1 ++ r2 /\ pos = last_of r2) ->
  walk_from fuel (rev (x :: r)) pos = walk_from fuel (rev r) pos.
Proof.
  intros Hk fuel; induction fuel as [|f IH]; intros pos Hp; cbn [walk_from]; auto.
  assert (exists r1 r2, r = r1 ++ r2 /\ pos = last_of r2) as [r1 [r2 [E Ep]]].
  { destruct Hp as [->|Hp]; auto. exists [], r; auto. }
  assert (pos <= length r).
  { subst. rewrite app_length. pose proof (last_of_le r2); lia. }
  rewrite walk_next_cons by auto.
  destruct (walk_next (rev r) pos) as [[l prev]|] eqn:W; auto.
  f_equal. apply IH. right.
  (* the link found at [pos] is the last position of a suffix *)
  subst pos.
  assert (Hs : forall r3, links_ok r3 -> forall r4,
    walk_next (rev (r4 ++ r3)) (last_of r3) = Some (l, prev) ->
    exists r5 r6, r3 = r5 ++ r6 /\ prev = last_of r6).
  { induction r3 as [|y r3 IH3]; intros K r4 W'; cbn in *.
    - discriminate.
    - destruct y; cbn in *;
        try (destruct (IH3 K (r4 ++ [y])) as [r5 [r6 [A B]]] || idtac);
        try (rewrite <- app_assoc in W'; cbn in W').
      all: try (match goal with
        | |- context [Lang ?p ?l0 :: _] => idtac
        | |- context [Register ?p ?l0 :: _] => idtac
        | |- context [?z :: _] =>
            destruct (IH3 K (r4 ++ [z])) as [r5 [r6 [A B]]];
            [rewrite <- app_assoc; exact W'
            |exists (z :: r5), r6; cbn; rewrite A; auto]
        end).
      all: destruct K as [K1 K2];
        rewrite rev_app_distr in W'; cbn in W'; rewrite <- app_assoc in W';
        rewrite nth_error_app2 in W' by (rewrite rev_length; lia);
        rewrite rev_length, Nat.sub_diag in W'; cbn in W';
        inversion W'; subst.
      + eexists [_], r3; cbn; auto.
      + eexists [_], r3; cbn; auto. }
  subst r. destruct (Hs r2) with (r4 := r1) as [r5 [r6 [A B]]]; auto.
  - clear -Hk. induction r1 as [|y r1 IH]; auto. apply IH. destruct y; cbn in *; tauto.
  - exists (r1 ++ r5), r6. subst r2. rewrite app_assoc; auto.
Qed.

Lemma walk_from_spec r : links_ok r -> forall fuel, length r < fuel ->
  walk_from fuel (rev r) (last_of r) = rev (imports_of (rev r)).
Proof.
  induction r as [|x r IH]; intros Hk fuel Hf.
  - destruct fuel; cbn; auto.
  - cbn [rev]. rewrite imports_app, rev_app_distr.
    assert (Hstep : links_ok r /\ length r < fuel) by (cbn in Hf; destruct x; cbn in Hk; split; try tauto; lia).
    destruct Hstep as [Hk' Hf'].
    assert (Hskip : import_of x = [] -> last_of (x :: r) = last_of r ->
      walk_from fuel (rev r ++ [x]) (last_of (x :: r)) =
      rev (imports_of [x]) ++ rev (imports_of (rev r))).
    { intros A B. rewrite B. cbn [imports_of flat_map]. rewrite A. cbn.
      change (rev r ++ [x]) with (rev (x :: r)).
      rewrite walk_from_cons by auto. apply IH; auto. }
    assert (Hhit : forall l, nth_error (rev r ++ [x]) (length r) = Some x ->
      last_of (x :: r) = S (length r) ->
      (x = Lang (last_of r) l \/ x = Register (last_of r) l) ->
      walk_from fuel (rev r ++ [x]) (last_of (x :: r)) =
      rev (imports_of [x]) ++ rev (imports_of (rev r))).
    { intros l N B C. rewrite B. destruct fuel as [|f]; [lia|].
      cbn [walk_from walk_next]. rewrite N.
      change (rev r ++ [x]) with (rev (x :: r)).
      assert (W : walk_from f (rev (x :: r)) (last_of r) = rev (imports_of (rev r))).
      { rewrite walk_from_cons by auto. apply IH; auto; cbn in Hf; lia. }
      destruct C as [E|E]; rewrite E in *; rewrite W; reflexivity. }
    assert (N : nth_error (rev r ++ [x]) (length r) = Some x).
    { rewrite nth_error_app2 by (rewrite rev_length; lia).
      rewrite rev_length, Nat.sub_diag; auto. }
    destruct x; try (apply Hskip; reflexivity);
      cbn in Hk; destruct Hk as [-> _];
      apply (Hhit l); auto.
Qed.

Lemma walk_imports_spec t : wf t ->
  walk_imports t = rev (imports_of (items t)).
Proof.
  intros [Hl Hk]. unfold walk_imports, items. rewrite Hl.
  apply walk_from_spec; auto. rewrite rev_length; lia.
Qed.

(** The iterator has ended after at most [length] steps: more fuel gives the
    same result. *)
Lemma walk_terminates t : wf t -> forall fuel, length (items t) < fuel ->
  walk_from fuel (items t) (last_lang_item t) = walk_imports t.
Proof.
  intros [Hl Hk] fuel Hf. rewrite walk_imports_spec by (split; auto).
  unfold items in *. rewrite Hl. apply walk_from_spec; auto.
  rewrite rev_length in Hf; lia.
Qed.

(** ** Grafting: building on top of a closed stream *)

Fixpoint graft (r base : list (item LI)) : list (item LI) :=
  match r with
  | [] => base
  | Lang _ l :: r' => let g := graft r' base in Lang (last_of g) l :: g
  | Register _ l :: r' => let g := graft r' base in Register (last_of g) l :: g
  | x :: r' => x :: graft r' base
  end.

Lemma graft_push base : rclosed base -> forall r,
  push_loop (graft r base) = graft (push_loop r) base.
Proof.
  intros C r; induction r as [|x r IH]; cbn.
  - destruct base as [|y b]; cbn in *; auto. destruct y; cbn in C; auto; discriminate.
  - destruct x; cbn; auto.
Qed.
Lemma graft_line base : rclosed base -> forall r,
  line_loop (graft r base) = graft (line_loop r) base.
Proof.
  intros C r; induction r as [|x r IH]; cbn.
  - destruct base as [|y b]; cbn in *; auto. destruct y; cbn in C; auto; discriminate.
  - destruct x; cbn; auto.
Qed.
Lemma graft_indentation base : rclosed base -> forall r n,
  indentation_loop n (graft r base) = graft (indentation_loop n r) base.
Proof.
  intros C r; induction r as [|x r IH]; intros n; cbn.
  - destruct base as [|y b]; cbn in *; [destruct (Z.eqb n 0); auto|].
    destruct y; cbn in C; try discriminate; destruct (Z.eqb n 0); auto.
  - destruct x; cbn; auto; destruct (Z.eqb n 0); auto.
Qed.
Lemma graft_head_space base r : rclosed base ->
  (match graft r base with Space :: _ => true | _ => false end) =
  (match r with Space :: _ => true | _ => false end).
Proof.
  intros C; destruct r as [|x r]; cbn.
  - destruct base as [|y b]; auto. destruct y; auto; discriminate C.
  - destruct x; auto.
Qed.

Definition grafted r base := mk_tokens (graft r base) (last_of (graft r base)).

Lemma add_item_graft base : rclosed base -> links_ok base ->
  forall x t, wf t ->
  add_item x (grafted (ritems t) base) = grafted (ritems (add_item x t)) base.
Proof.
  intros C K x t [Hl Hk]. unfold grafted.
  destruct x; cbn [add_item]; unfold vec_push, lang_item, lang_item_register,
    push, line, indentation; cbn [ritems last_lang_item];
    rewrite ?graft_push, ?graft_line, ?graft_indentation by auto; auto.
  - f_equal. rewrite <- graft_push by auto.
    assert (G : links_ok (graft (ritems t) base)).
    { clear -K. induction (ritems t) as [|y r IH]; cbn; auto. destruct y; cbn; auto. }
    symmetry; apply push_loop_wf; auto.
  - f_equal. rewrite <- graft_line by auto.
    assert (G : links_ok (graft (ritems t) base)).
    { clear -K. induction (ritems t) as [|y r IH]; cbn; auto. destruct y; cbn; auto. }
    symmetry; apply line_loop_wf; auto.
  - unfold space; cbn [ritems last_lang_item].
    pose proof (graft_head_space base (ritems t) C) as E.
    destruct (ritems t) as [|y r'] eqn:R.
    + cbn [graft] in *. cbn [ritems vec_push]. rewrite ?R. cbn.
      destruct base as [|z b]; auto. destruct z; auto; discriminate.
    + assert (D : (exists r2, y :: r' = Space :: r2) \/
                  (match y :: r' with Space :: _ => true | _ => false end) = false)
        by (destruct y; auto; left; eauto).
      destruct D as [[r2 D]|D].
      * inversion D; subst. cbn. rewrite R; cbn; auto.
      * rewrite D in E.
        destruct (graft (y :: r') base) as [|z g] eqn:G;
          [|destruct z]; try discriminate E;
          destruct y; try discriminate D; cbn [vec_push ritems last_lang_item graft];
          rewrite ?R; rewrite <- ?G; auto.
  - f_equal. rewrite <- graft_indentation by auto.
    assert (G : links_ok (graft (ritems t) base)).
    { clear -K. induction (ritems t) as [|y r IH]; cbn; auto. destruct y; cbn; auto. }
    symmetry; apply indentation_loop_wf; auto.
Qed.

Lemma extend_graft base : rclosed base -> links_ok base ->
  forall xs t, wf t ->
  extend xs (grafted (ritems t) base) = grafted (ritems (extend xs t)) base.
Proof.
  intros C K xs; induction xs as [|x xs IH]; intros t W; cbn; auto.
  change (fold_left _ xs ?a) with (extend xs a).
  rewrite add_item_graft by auto. rewrite IH by (apply add_item_wf; auto). auto.
Qed.

(** ** Rebuilding is the identity *)

Lemma extend_app xs ys t : extend (xs ++ ys) t = extend ys (extend xs t).
Proof. apply fold_left_app. Qed.

Lemma rebuild r : rcanon r -> links_ok r ->
  extend (rev r) new = mk_tokens r (last_of r).
Proof.
  induction r as [|x r IH]; intros C K; cbn [rev]; auto.
  rewrite extend_app, IH; [|eapply rcanon_tail; eauto|destruct x; cbn in K; tauto].
  cbn. destruct C as [C1 [C2 C3]].
  destruct x; cbn in *; auto.
  - destruct K as [-> K]; auto.
  - destruct K as [-> K]; auto.
  - unfold push; cbn. destruct r as [|a r']; auto. destruct a; try discriminate; auto.
  - unfold line; cbn. destruct r as [|a r']; auto. destruct a; try discriminate; auto.
  - unfold space; cbn. destruct r as [|a r']; auto. destruct a; try discriminate; auto.
  - unfold indentation; cbn.
    assert (N : Z.eqb n 0 = false) by (apply Z.eqb_neq; congruence).
    destruct r as [|a r']; cbn; rewrite ?N; auto.
    destruct a; try discriminate; cbn; rewrite ?N; auto.
Qed.

Lemma rebuild_tokens t : wf t -> rcanon (ritems t) -> from_iter (items t) = t.
Proof.
  intros [Hl Hk] C. unfold from_iter, items. rewrite rebuild by auto.
  destruct t; cbn in *; subst; auto.
Qed.

Lemma closed_rclosed t : closed (items t) -> rclosed (ritems t).
Proof.
  unfold closed, items. destruct (ritems t) as [|x r]; cbn; auto.
  intros H; apply (H (rev r)); auto.
Qed.

Lemma graft_nil_wf t : wf t -> grafted [] (ritems t) = t.
Proof. intros [Hl _]. unfold grafted; cbn. destruct t; cbn in *; subst; auto. Qed.

Lemma extend_closed xs a : wf a -> closed (items a) ->
  extend xs a = grafted (ritems (from_iter xs)) (ritems a).
Proof.
  intros W C. rewrite <- (graft_nil_wf a W) at 1.
  change [] with (ritems (@new LI)).
  destruct W as [Wl Wk].
  rewrite extend_graft; auto using new_wf, closed_rclosed.
Qed.

(** ** Histories *)

Lemma from_iter_wf xs : wf (@from_iter LI xs).
Proof. apply extend_wf, new_wf. Qed.
Lemma from_iter_canon xs : rcanon (ritems (@from_iter LI xs)).
Proof. apply extend_canon; cbn; auto. Qed.

(** Induction over calls, through the nested list. *)
Lemma call_ind' (P : call LI -> Prop) :
  (forall x, P (CItem x)) -> P CSpace -> P CPush -> P CLine -> P CIndent ->
  P CUnindent -> (forall xs, P (CExtend xs)) ->
  (forall cs, Forall P cs -> P (CAppend cs)) -> forall c, P c.
Proof.
  intros H1 H2 H3 H4 H5 H6 H7 H8.
  fix IH 1. intros [x| | | | | |xs|cs];
    [apply H1|exact H2|exact H3|exact H4|exact H5|exact H6|apply H7|apply H8].
  induction cs as [|c cs IHcs]; constructor; [apply IH|exact IHcs].
Qed.

(** Every call is [extend] with some items; which ones is known up to the
    whitespace merging already done by nested streams. *)
Lemma run_call_extend c : exists xs, forall t, run_call c t = extend xs t.
Proof.
  destruct c as [x| | | | | |xs|cs].
  - exists [x]; auto.
  - exists [Space]; auto.
  - exists [Push]; auto.
  - exists [Line]; auto.
  - exists [Indentation 1]; auto.
  - exists [Indentation (-1)]; auto.
  - exists xs; auto.
  - exists (items (fold_left (fun b c => run_call c b) cs new)); auto.
Qed.

Lemma run_wf cs : forall t, wf t -> wf (run cs t).
Proof.
  induction cs as [|c cs IH]; cbn; intros t W; auto.
  apply IH. destruct (run_call_extend c) as [xs E]; rewrite E. apply extend_wf; auto.
Qed.
Lemma run_canon cs : forall t, rcanon (ritems t) -> rcanon (ritems (run cs t)).
Proof.
  induction cs as [|c cs IH]; cbn; intros t W; auto.
  apply IH. destruct (run_call_extend c) as [xs E]; rewrite E. apply extend_canon; auto.
Qed.

Lemma run_pieces' cs :
  Forall (fun c => forall t, pieces (items (run_call c t)) =
    pieces (items t) ++ pieces (supplied c)) cs ->
  forall t, pieces (items (run cs t)) =
    pieces (items t) ++ pieces (flat_map supplied cs).
Proof.
  induction cs as [|c cs IH]; intros F t; cbn [run fold_left flat_map].
  - cbn. rewrite app_nil_r; auto.
  - inversion F; subst. change (fold_left _ cs ?a) with (run cs a).
    rewrite IH, pieces_app, H1, app_assoc; auto.
Qed.

Lemma run_call_pieces c : forall t,
  pieces (items (run_call c t)) = pieces (items t) ++ pieces (supplied c).
Proof.
  induction c as [x| | | | | |xs|cs IH] using call_ind'; intros t; cbn [run_call supplied].
  - rewrite add_item_pieces; cbn. rewrite app_nil_r; auto.
  - apply (add_item_pieces Space).
  - apply (add_item_pieces Push).
  - apply (add_item_pieces Line).
  - apply (add_item_pieces (Indentation 1)).
  - apply (add_item_pieces (Indentation (-1))).
  - apply extend_pieces.
  - unfold append_tokens. rewrite extend_pieces.
    change (fold_left (fun b c => run_call c b) cs new) with (run cs new).
    rewrite (run_pieces' cs IH). reflexivity.
Qed.

Lemma run_pieces cs t :
  pieces (items (run cs t)) = pieces (items t) ++ pieces (flat_map supplied cs).
Proof.
  apply run_pieces'. apply Forall_forall; intros c _; apply run_call_pieces.
Qed.

Lemma run_net' cs :
  Forall (fun c => forall t, net_indentation (items (run_call c t)) =
    (net_indentation (items t) + net_indentation (supplied c))%Z) cs ->
  forall t, net_indentation (items (run cs t)) =
    (net_indentation (items t) + net_indentation (flat_map supplied cs))%Z.
Proof.
  induction cs as [|c cs IH]; intros F t; cbn.
  - lia.
  - inversion F; subst. change (fold_left _ cs ?a) with (run cs a).
    rewrite IH, net_app, H1; auto; lia.
Qed.

Lemma run_call_net c : forall t,
  net_indentation (items (run_call c t)) =
  (net_indentation (items t) + net_indentation (supplied c))%Z.
Proof.
  induction c as [x| | | | | |xs|cs IH] using call_ind'; intros t; cbn [run_call supplied].
  - rewrite add_item_net; cbn. lia.
  - apply (add_item_net Space).
  - apply (add_item_net Push).
  - apply (add_item_net Line).
  - apply (add_item_net (Indentation 1)).
  - apply (add_item_net (Indentation (-1))).
  - apply extend_net.
  - unfold append_tokens. rewrite extend_net.
    change (fold_left (fun b c => run_call c b) cs new) with (run cs new).
    rewrite (run_net' cs IH). reflexivity.
Qed.

Lemma run_net cs t :
  net_indentation (items (run cs t)) =
  (net_indentation (items t) + net_indentation (flat_map supplied cs))%Z.
Proof.
  apply run_net'. apply Forall_forall; intros c _; apply run_call_net.
Qed.

Lemma build_wf cs : wf (@build LI cs).
Proof. apply run_wf, new_wf. Qed.
Lemma build_canon cs : rcanon (ritems (@build LI cs)).
Proof. apply run_canon; cbn; auto. Qed.

Lemma build_walk cs :
  walk_imports (@build LI cs) = rev (imports_of (flat_map supplied cs)).
Proof.
  rewrite walk_imports_spec by apply build_wf.
  f_equal. rewrite !imports_pieces. unfold build. rewrite run_pieces. reflexivity.
Qed.

End Facts.
