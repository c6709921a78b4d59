(** * Exact effect of the whitespace calls, and appending. *)
From Verif Require Import Tokens SpecTokens TokensRun TokensFacts Values ValuesFacts.

Section Algebra.
Context {LI : Type}.
Implicit Types (t : tokens LI) (r : list (item LI)) (x : item LI).

Fixpoint drop (p : item LI -> bool) r :=
  match r with
  | [] => []
  | x :: r' => if p x then drop p r' else r
  end.

Lemma suffix_split_drop p r body ws :
  suffix_split p (rev r) body ws -> drop p r = rev body /\ rev ws ++ rev body = r.
Proof.
  intros [E [F B]].
  assert (R : r = rev ws ++ rev body) by (rewrite <- rev_app_distr, <- E, rev_involutive; auto).
  split; [|auto].
  subst r. assert (F' : Forall (fun x => p x = true) (rev ws)).
  { rewrite Forall_forall in *; intros x Hx; apply F. apply in_rev; auto. }
  clear E F. induction (rev ws) as [|x l IH]; cbn.
  - destruct (rev body) as [|y l] eqn:R; auto.
    cbn. rewrite (B (rev l) y); auto.
    rewrite <- (rev_involutive body), R. reflexivity.
  - inversion F' as [|? ? H1 H2]; subst. rewrite H1. auto.
Qed.

Lemma push_loop_drop r :
  push_loop r =
  match drop space_or_push r with
  | Line :: r' => Line :: r'
  | r' => Push :: r'
  end.
Proof.
  induction r as [|x r IH]; cbn; auto. destruct x; cbn; auto.
Qed.

Lemma line_loop_drop r : line_loop r = Line :: drop is_break r.
Proof. induction r as [|x r IH]; cbn; auto. destruct x; cbn; auto. Qed.

Lemma indentation_loop_drop r : forall n,
  exists ws, r = ws ++ drop is_white r /\
  indentation_loop n r =
    if Z.eqb (n + net_indentation ws) 0 then drop is_white r
    else Indentation (n + net_indentation ws) :: drop is_white r.
Proof.
  induction r as [|x r IH]; intros n.
  - exists []; cbn. rewrite Z.add_0_r; auto.
  - destruct x; cbn [drop is_white is_space is_break is_indentation orb indentation_loop];
      try (exists []; split; [reflexivity|]; cbn [net_indentation];
           rewrite Z.add_0_r; reflexivity).
    + destruct (IH n) as [ws [E1 E2]]. exists (Push :: ws). cbn. rewrite <- E1; auto.
    + destruct (IH n) as [ws [E1 E2]]. exists (Line :: ws). cbn. rewrite <- E1; auto.
    + destruct (IH n) as [ws [E1 E2]]. exists (Space :: ws). cbn. rewrite <- E1; auto.
    + destruct (IH (n + n0)%Z) as [ws [E1 E2]]. exists (Indentation n0 :: ws). cbn.
      rewrite <- E1; split; auto. rewrite E2, Z.add_assoc; auto.
Qed.

Lemma space_spec t :
  items (space t) =
  match rev (items t) with Space :: _ => items t | _ => items t ++ [Space] end.
Proof.
  unfold items, space, vec_push. rewrite rev_involutive.
  destruct (ritems t) as [|x r] eqn:R; cbn; auto.
  destruct x; cbn; auto. rewrite R; auto.
Qed.

Lemma push_spec t body ws : suffix_split space_or_push (items t) body ws ->
  items (push t) =
  match rev body with Line :: _ => body | _ => body ++ [Push] end.
Proof.
  unfold items, push; cbn [ritems]. intros S.
  apply suffix_split_drop in S as [D R]. rewrite push_loop_drop, D.
  destruct (rev body) as [|x l] eqn:B; cbn.
  - destruct body; auto. apply (f_equal (@length _)) in B.
    rewrite rev_length in B; discriminate.
  - assert (body = rev l ++ [x]) by (rewrite <- (rev_involutive body), B; reflexivity).
    subst body. destruct x; cbn; auto.
Qed.

Lemma line_spec t body ws : suffix_split is_break (items t) body ws ->
  items (line t) = body ++ [Line].
Proof.
  unfold items, line; cbn [ritems]. intros S.
  apply suffix_split_drop in S as [D R]. rewrite line_loop_drop, D.
  cbn. rewrite rev_involutive; auto.
Qed.

Lemma indentation_spec n t body ws : suffix_split is_white (items t) body ws ->
  items (indentation n t) =
  body ++ (if Z.eqb (n + net_indentation ws) 0 then []
           else [Indentation (n + net_indentation ws)]).
Proof.
  unfold items, indentation; cbn [ritems]. intros S.
  apply suffix_split_drop in S as [D R].
  destruct (indentation_loop_drop (ritems t) n) as [ws' [E1 E2]].
  rewrite D in E1, E2. rewrite E2. rewrite <- R in E1 at 1.
  apply app_inv_tail in E1. subst ws'. rewrite net_rev. clear E2. destruct (Z.eqb (n + net_indentation ws) 0); cbn [rev];
    rewrite rev_involutive, ?app_nil_r; auto.
Qed.

Lemma suffix_split_exists p (xs : list (item LI)) : exists body ws, suffix_split p xs body ws.
Proof.
  induction xs as [|x xs IH] using rev_ind.
  - exists [], []. repeat split; auto. intros [|? ?] ?; discriminate.
  - destruct (p x) eqn:P.
    + destruct IH as [b [w [E [F B]]]]. exists b, (w ++ [x]).
      repeat split; auto; [rewrite E, app_assoc; auto|].
      apply Forall_app; auto.
    + exists (xs ++ [x]), []. repeat split; auto; [rewrite app_nil_r; auto|].
      intros pre y H. apply app_inj_tail in H as [_ <-]; auto.
Qed.

(** Algebra of whitespace requests *)

Lemma space_space t : space (space t) = space t.
Proof. unfold space. destruct (ritems t) as [|x r] eqn:R; cbn; auto.
  destruct x; cbn; auto. rewrite R; auto. Qed.

Lemma push_loop_push_loop r : push_loop (push_loop r) = push_loop r.
Proof.
  induction r as [|x r IH]; cbn; auto. destruct x; cbn; auto.
Qed.
Lemma push_push t : push (push t) = push t.
Proof. unfold push; cbn. rewrite push_loop_push_loop; auto. Qed.
Lemma line_loop_line_loop r : line_loop (line_loop r) = line_loop r.
Proof. induction r as [|x r IH]; [reflexivity|]. destruct x; cbn in *; auto. Qed.
Lemma line_line t : line (line t) = line t.
Proof. unfold line; cbn. rewrite line_loop_line_loop; auto. Qed.
Lemma push_line t : push (line t) = line t.
Proof. unfold push, line; cbn. f_equal. rewrite line_loop_drop; auto. Qed.
Lemma push_space t : push (space t) = push t.
Proof. unfold push, space. destruct (ritems t) as [|x r] eqn:R; [|destruct x]; cbn; rewrite ?R; auto. Qed.
Lemma indentation_space n t : indentation n (space t) = indentation n t.
Proof. unfold indentation, space. destruct (ritems t) as [|x r] eqn:R; [|destruct x]; cbn; rewrite ?R; auto. Qed.
Lemma indentation_loop_push_loop r : forall n,
  indentation_loop n (push_loop r) = indentation_loop n r.
Proof. induction r as [|x r IH]; intros n; [reflexivity|]. destruct x; cbn in *; auto. Qed.
Lemma indentation_push n t : indentation n (push t) = indentation n t.
Proof. unfold indentation, push; cbn. rewrite indentation_loop_push_loop; auto. Qed.
Lemma indentation_loop_line_loop r : forall n,
  indentation_loop n (line_loop r) = indentation_loop n r.
Proof. induction r as [|x r IH]; intros n; [reflexivity|]. destruct x; cbn in *; auto. Qed.
Lemma indentation_line n t : indentation n (line t) = indentation n t.
Proof. unfold indentation, line; cbn. rewrite indentation_loop_line_loop; auto. Qed.

(** line after push, when no space precedes *)
Lemma line_push t :
  (forall pre post, items t = pre ++ Space :: post ->
     exists y, In y post /\ space_or_push y = false) ->
  line (push t) = line t.
Proof.
  unfold items, push, line; cbn [ritems last_lang_item]. intros H. f_equal.
  rewrite !line_loop_drop. f_equal. rewrite push_loop_drop.
  induction (ritems t) as [|x r IH]; cbn; auto.
  destruct x; cbn; auto.
  - apply IH. intros pre post E. destruct (H pre (post ++ [Push])) as [y [Hy1 Hy2]].
    + cbn. rewrite E, <- app_assoc. reflexivity.
    + exists y; split; auto. apply in_app_or in Hy1 as [|[<-|[]]]; auto; discriminate.
  - destruct (H (rev r) []) as [y [[] _]]. reflexivity.
Qed.

(** ** indent directly followed by unindent *)
Lemma indent_unindent t body ws : rcanon (ritems t) ->
  suffix_split is_white (items t) body ws ->
  items (unindent (indent t)) = body ++ filter is_indentation ws.
Proof.
  intros C S. pose proof S as [E [F B]].
  assert (Bn : forall w, Forall (fun x => is_white x = true) w ->
     suffix_split is_white (body ++ w) body w) by (split; auto).
  pose proof (indentation_spec 1 t body ws S) as E1. fold (indent t) in E1.
  assert (S1 : suffix_split is_white (items (indent t)) body
    (if Z.eqb (1 + net_indentation ws) 0 then []
           else [Indentation (1 + net_indentation ws)])).
  { rewrite E1. apply Bn. destruct (Z.eqb _ _); auto. }
  pose proof (indentation_spec (-1) _ _ _ S1) as E2. fold (unindent (indent t)) in E2.
  rewrite E2. f_equal. clear E2 S1 E1 Bn.
  (* the canonical form allows an indentation only at the start of ws *)
  assert (K : filter is_indentation ws =
     if Z.eqb (net_indentation ws) 0 then [] else [Indentation (net_indentation ws)]).
  { apply rcanon_canonical in C. destruct C as [C1 C2]. unfold items in E. rewrite E in C1, C2.
    destruct ws as [|x ws]; [reflexivity|].
    assert (T : filter is_indentation ws = [] /\ net_indentation ws = 0%Z).
    { assert (G : forall w y pre, x :: ws = pre ++ y :: w ->
        filter is_indentation w = [] /\ net_indentation w = 0%Z).
      { induction w as [|z w IH]; intros y pre Ew; cbn; auto.
        assert (Ww : is_white y = true).
        { rewrite Forall_forall in F. apply F. rewrite Ew. apply in_or_app; cbn; auto. }
        assert (P : bad_pair y z = false).
        { apply (C1 (body ++ pre) y z w). rewrite Ew, <- app_assoc. reflexivity. }
        destruct (IH z (pre ++ [y])) as [H1 H2]; [rewrite <- app_assoc; auto|].
        unfold bad_pair in P. rewrite Ww in P. cbn in P.
        destruct z; cbn in *; auto. rewrite !orb_true_r in P. discriminate. }
      apply (G ws x []); reflexivity. }
    destruct T as [T1 T2]. cbn [filter net_indentation]. rewrite T1, T2, Z.add_0_r.
    destruct x; cbn; auto.
    assert (n <> 0%Z) by (apply C2; apply in_or_app; cbn; auto).
    apply Z.eqb_neq in H; rewrite H; auto. }
  rewrite K. destruct (Z.eqb_spec (1 + net_indentation ws) 0) as [H|H].
  - cbn. replace (net_indentation ws) with (-1)%Z by lia. reflexivity.
  - cbn [net_indentation indentation_of]. rewrite Z.add_0_r.
    replace (-1 + (1 + net_indentation ws))%Z with (net_indentation ws) by lia. reflexivity.
Qed.

(** ** Appending *)

Lemma append_new_l t : wf t -> rcanon (ritems t) -> append_tokens t new = t.
Proof. apply rebuild_tokens. Qed.

Lemma build_from_iter (cs : list (call LI)) :
  build cs = from_iter (flat_map call_parts cs).
Proof. unfold build, from_iter. apply run_extend. Qed.

Lemma append_replay (cs : list (call LI)) (a : tokens LI) : wf a -> closed (items a) ->
  append_tokens (build cs) a = run cs a.
Proof.
  intros W C. unfold append_tokens. rewrite run_extend.
  rewrite !extend_closed by auto.
  rewrite (rebuild_tokens (build cs)) by (apply build_wf || apply build_canon).
  rewrite build_from_iter. reflexivity.
Qed.

Lemma append_assoc (a b c : tokens LI) : wf a -> closed (items a) ->
  wf b -> rcanon (ritems b) ->
  append_tokens c (append_tokens b a) = append_tokens (append_tokens c b) a.
Proof.
  intros Wa Ca Wb Cb. unfold append_tokens. rewrite <- extend_app.
  rewrite !extend_closed by auto. f_equal. f_equal.
  rewrite (rebuild_tokens (extend (items c) b)).
  - unfold from_iter. rewrite extend_app.
    change (extend (items b) new) with (from_iter (items b)).
    rewrite rebuild_tokens; auto.
  - apply extend_wf; auto.
  - apply extend_canon; auto.
Qed.

End Algebra.
