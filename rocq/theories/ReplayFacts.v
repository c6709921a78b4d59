(** * Lemmas: appending and replaying. *)
From Verif Require Import Tokens SpecTokens TokensRun TokensFacts HistoryFacts SpecReplay PropsControl.

Section Facts.
Context {LI : Type}.
Notation items_ := (list (item LI)).
Implicit Types r u rw : list (item LI).

(** ** White space at the end of a vector, last item first *)
Definition op (x : item LI) r : items_ :=
  match x with
  | Push => push_loop r
  | Line => line_loop r
  | Space => match r with Space :: _ => r | _ => Space :: r end
  | Indentation n => indentation_loop n r
  | _ => r
  end.
Definition ops u r : items_ := fold_left (fun r x => op x r) u r.
Notation white := (Forall (fun x : item LI => is_white x = true)).
Notation gaps := (Forall (fun x : item LI => is_gap x = true)).
Notation flat := (Forall (fun x : item LI => is_indentation x = false)).

Lemma ops_app a b r : ops (a ++ b) r = ops b (ops a r).
Proof. apply fold_left_app. Qed.
Lemma ritems_op x t : is_white x = true -> ritems (add_item x t) = op x (ritems t).
Proof.
  destruct x; try discriminate; intros _; try reflexivity. cbn [add_item op]. unfold space. destruct (ritems t) as [|y r] eqn:R; [cbn; rewrite R; reflexivity|].
  destruct y; cbn [vec_push ritems]; rewrite ?R; reflexivity.
Qed.
Lemma ritems_ops u : forall t, white u -> ritems (extend u t) = ops u (ritems t).
Proof.
  induction u as [|x u IH]; intros t W; [reflexivity|]. inversion W; subst. cbn [extend fold_left ops]. change (fold_left _ u ?a) with (extend u a) at 1.
  rewrite IH by assumption. rewrite ritems_op by assumption. reflexivity.
Qed.
Lemma wf_same a b : @wf LI a -> wf b -> ritems a = ritems b -> a = b.
Proof. destruct a, b. unfold wf. cbn. intros [-> _] [-> _] ->. reflexivity. Qed.

(** Below the white space nothing changes. *)
Lemma op_base x r base : is_white x = true -> white r -> rclosed base -> op x (r ++ base) = op x r ++ base.
Proof.
  intros X W C. assert (B : match base with [] => True | y :: _ => is_white y = false end) by (destruct base; exact C || exact I).
  destruct x; try discriminate X; cbn [op].
  - induction W as [|y r Y W IH]; cbn [app push_loop]; [destruct base as [|y b]; [reflexivity|]; destruct y; try discriminate B; reflexivity|]. destruct y; try discriminate Y; auto.
  - induction W as [|y r Y W IH]; cbn [app line_loop]; [destruct base as [|y b]; [reflexivity|]; destruct y; try discriminate B; reflexivity|]. destruct y; try discriminate Y; auto.
  - destruct W as [|y r Y W]; cbn [app]; [destruct base as [|y b]; [reflexivity|]; destruct y; try discriminate B; reflexivity|]. destruct y; reflexivity.
  - clear X. revert n. induction W as [|y r Y W IH]; intros n; cbn [app indentation_loop].
    + destruct base as [|y b]; [cbn; destruct (Z.eqb n 0); reflexivity|]. destruct y; try discriminate B; cbn; destruct (Z.eqb n 0); reflexivity.
    + destruct y; try discriminate Y; apply IH.
Qed.
Lemma op_white x r : is_white x = true -> white r -> white (op x r).
Proof.
  intros X W. destruct x; try discriminate X; cbn [op].
  - induction W as [|y r Y W IH]; cbn [push_loop]; [repeat constructor|]. destruct y; try discriminate Y; auto.
  - induction W as [|y r Y W IH]; cbn [line_loop]; [repeat constructor|]. destruct y; try discriminate Y; auto.
  - destruct W as [|y r Y W]; [repeat constructor|]. destruct y; auto.
  - clear X. revert n. induction W as [|y r Y W IH]; intros n; cbn [indentation_loop]; [destruct (Z.eqb n 0); repeat constructor|]. destruct y; try discriminate Y; auto.
Qed.
Lemma ops_base u : forall r base, white u -> white r -> rclosed base -> ops u (r ++ base) = ops u r ++ base /\ white (ops u r).
Proof.
  induction u as [|x u IH]; intros r base U W C; [split; [reflexivity|exact W]|]. inversion U; subst. cbn [ops fold_left]. rewrite op_base by assumption.
  apply IH; auto. apply op_white; assumption.
Qed.

(** ** Changes of the level *)
Definition level_items (n : Z) : items_ := if Z.eqb n 0 then [] else [Indentation n].
Lemma op_level n r : white r -> op (Indentation n) r = level_items (n + net_indentation r).
Proof.
  cbn [op]. intros W. revert n. induction W as [|y r Y W IH]; intros n; cbn [indentation_loop net_indentation].
  - rewrite Z.add_0_r. reflexivity.
  - destruct y; try discriminate Y; rewrite IH; f_equal; cbn [indentation_of]; lia.
Qed.
Lemma op_net x r : is_white x = true -> white r -> net_indentation (op x r) = (net_indentation r + indentation_of x)%Z.
Proof.
  intros X W. destruct x; try discriminate X.
  - cbn [op indentation_of]. rewrite push_loop_net. lia.
  - cbn [op indentation_of]. rewrite line_loop_net. lia.
  - cbn [op indentation_of]. destruct r as [|y r]; [reflexivity|]. destruct y; cbn; lia.
  - rewrite op_level by exact W. unfold level_items. destruct (Z.eqb_spec (n + net_indentation r) 0); cbn; lia.
Qed.
Lemma ops_net u : forall r, white u -> white r -> net_indentation (ops u r) = (net_indentation r + net_indentation u)%Z.
Proof.
  induction u as [|x u IH]; intros r U W; [cbn; lia|]. inversion U; subst. cbn [ops fold_left]. change (fold_left _ u ?a) with (ops u a).
  rewrite IH by (auto; apply op_white; auto). rewrite op_net by auto. cbn [net_indentation]. lia.
Qed.
Lemma ops_level u k r : white u -> white r -> ops (u ++ [Indentation k]) r = level_items (k + (net_indentation r + net_indentation u)).
Proof.
  intros U W. rewrite ops_app. cbn [ops fold_left]. rewrite op_level by (apply (ops_base u r [] U W I)). rewrite ops_net by auto. reflexivity.
Qed.

(** ** Gaps *)
Lemma exists_last' {A} (l : list A) : l = [] \/ exists l' x, l = l' ++ [x].
Proof. destruct l as [|y l]; [auto|right]. destruct (@exists_last _ (y :: l)) as (l' & x & E); [discriminate|eauto]. Qed.
Lemma gap_white x : is_gap x = true -> @is_white LI x = true.
Proof. destruct x; try discriminate; reflexivity. Qed.
Lemma gaps_white r : gaps r -> white r.
Proof. apply Forall_impl. exact gap_white. Qed.
Lemma op_gap x r base : is_gap x = true -> gaps r -> match base with [] => True | y :: _ => is_gap y = false end ->
  op x (r ++ base) = op x r ++ base /\ gaps (op x r).
Proof.
  intros X W B. destruct x; try discriminate X; cbn [op].
  - induction W as [|y r Y W [IH1 IH2]]; cbn [app push_loop]; [split; [destruct base as [|y b]; [reflexivity|]; destruct y; try discriminate B; reflexivity|repeat constructor]|].
    destruct y; try discriminate Y; auto.
  - induction W as [|y r Y W [IH1 IH2]]; cbn [app line_loop]; [split; [destruct base as [|y b]; [reflexivity|]; destruct y; try discriminate B; reflexivity|repeat constructor]|].
    destruct y; try discriminate Y; auto.
  - destruct W as [|y r Y W]; cbn [app]; [split; [destruct base as [|y b]; [reflexivity|]; destruct y; try discriminate B; reflexivity|repeat constructor]|].
    destruct y; auto.
Qed.
Lemma ops_gap u : forall r base, gaps u -> gaps r -> match base with [] => True | y :: _ => is_gap y = false end ->
  ops u (r ++ base) = ops u r ++ base /\ gaps (ops u r).
Proof.
  induction u as [|x u IH]; intros r base U W B; [split; [reflexivity|exact W]|]. inversion U; subst. cbn [ops fold_left].
  pose proof (op_gap x r base H1 W B) as [-> G]. apply IH; auto.
Qed.

(** What requests do to a gap [rw], from what they leave alone: the first item left
    meets the gap, the others stay. *)
Definition meet (b : bool) rw (x : item LI) : items_ :=
  match x with Line => line_loop (if b then push_loop rw else rw) | _ => op x rw end.
Fixpoint onto (b : bool) rw r : items_ :=
  match r with
  | [] => rw
  | [x] => meet b rw x
  | x :: r' => x :: onto b rw r'
  end.
Lemma onto_cons b rw x y r : onto b rw (x :: y :: r) = x :: onto b rw (y :: r).
Proof. reflexivity. Qed.
Lemma push_twice r : push_loop (push_loop r) = @push_loop LI r.
Proof. induction r as [|x r IH]; [reflexivity|]. destruct x; try reflexivity; exact IH. Qed.
Lemma line_twice r : line_loop (line_loop r) = @line_loop LI r.
Proof. induction r as [|x r IH]; [reflexivity|]. destruct x; try reflexivity; exact IH. Qed.
Lemma line_top r : exists r', @line_loop LI r = Line :: r'.
Proof. induction r as [|x r IH]; [cbn; eauto|]. destruct x; cbn; eauto. Qed.
Lemma push_top r : exists r', @push_loop LI r = Push :: r' \/ push_loop r = Line :: r'.
Proof. induction r as [|x r IH]; [cbn; eauto|]. destruct x; cbn; eauto. Qed.
Lemma onto_space b rw r : gaps r -> op Space (onto b rw r) = onto b rw (op Space r).
Proof.
  intros G. destruct G as [|x r X G]; [reflexivity|]. destruct r as [|y r].
  - destruct x; try discriminate X; cbn [onto meet op].
    + destruct (push_top rw) as [r' [-> | ->]]; reflexivity.
    + destruct (line_top (if b then push_loop rw else rw)) as [r' ->]. reflexivity.
    + destruct rw as [|z rw]; [reflexivity|]. destruct z; reflexivity.
  - rewrite onto_cons. destruct x; try discriminate X; reflexivity.
Qed.
Lemma onto_push b rw r : gaps r -> op Push (onto b rw r) = onto b rw (op Push r).
Proof.
  cbn [op]. induction 1 as [|x r X G IH]; [reflexivity|]. destruct r as [|y r].
  - destruct x; try discriminate X; cbn [onto meet op push_loop].
    + apply push_twice.
    + destruct (line_top (if b then push_loop rw else rw)) as [r' ->]. reflexivity.
    + destruct rw as [|z rw]; [reflexivity|]. destruct z; reflexivity.
  - rewrite onto_cons. destruct x; try discriminate X; cbn [push_loop]; try exact IH. reflexivity.
Qed.
(** An empty line that meets a line break which is all that is left. *)
Definition only_push r : bool := match r with [Push] => true | _ => false end.
Lemma space_top rw : exists r', op Space rw = Space :: r'.
Proof. cbn [op]. destruct rw as [|z rw]; [eauto|]. destruct z; eauto. Qed.
Lemma onto_line b rw r : gaps r -> rcanon r -> (r = [] -> b = false) -> op Line (onto b rw r) = onto (b || only_push r) rw (op Line r).
Proof.
  cbn [op]. intros G C N. destruct G as [|x r X G]; [rewrite (N eq_refl); reflexivity|]. destruct r as [|y r].
  - destruct x; try discriminate X; cbn [onto meet op line_loop only_push]; rewrite ?orb_true_r, ?orb_false_r.
    + reflexivity.
    + apply line_twice.
    + destruct rw as [|z rw]; [reflexivity|]. destruct z; reflexivity.
  - rewrite onto_cons. replace (only_push (x :: y :: r)) with false by (destruct x; reflexivity). rewrite orb_false_r.
    destruct C as (_ & B & _). inversion G as [|? ? Y _]; subst.
    assert (L : x <> Space -> y = Space) by (destruct x, y; try discriminate; congruence).
    destruct x; try discriminate X; cbn [line_loop]; [rewrite (L ltac:(discriminate))|rewrite (L ltac:(discriminate))|reflexivity].
    all: assert (T : exists r', onto b rw (Space :: r) = Space :: r') by (destruct r as [|z r]; [apply space_top|rewrite onto_cons; eauto]).
    all: destruct T as [r' T]; rewrite T; cbn [line_loop]; rewrite onto_cons, T; reflexivity.
Qed.

(** The first line break of the requests is replaced by an empty line. *)
Fixpoint lost u : bool :=
  match u with
  | Space :: u' => lost u'
  | Push :: u' => match u' with Line :: _ => true | _ => lost u' end
  | _ => false
  end.
Lemma lost_iff u : gaps u -> (lost u = true <-> break_in_blank u).
Proof.
  induction 1 as [|x u X G IH].
  - split; [discriminate|]. intros (a & b & E & _). destruct a; discriminate.
  - destruct x; try discriminate X.
    + destruct u as [|y u]; [split; [discriminate|]; intros (a & b & E & _); destruct a as [|? [|? ?]]; discriminate|].
      assert (D : y = Line \/ lost (Push :: y :: u) = lost (y :: u)) by (destruct y; auto).
      destruct D as [->|D]; [split; [intros _; exists [], u; split; [reflexivity|constructor]|reflexivity]|].
      rewrite D, IH. split.
      * intros (a & b & -> & A). exists (Push :: a), b. split; [reflexivity|constructor; auto].
      * intros (a & b & E & A). destruct a as [|z a]; [injection E as -> ->; discriminate D|]. injection E as <- E. inversion A; subst. exists a, b. auto.
    + split; [discriminate|]. intros (a & b & E & A). destruct a as [|z a]; [discriminate|]. injection E as <- E. inversion A; discriminate.
    + cbn [lost]. rewrite IH. split.
      * intros (a & b & -> & A). exists (Space :: a), b. split; [reflexivity|constructor; auto].
      * intros (a & b & E & A). destruct a as [|z a]; [discriminate|]. injection E as <- E. inversion A; subst. exists a, b. auto.
Qed.
Definition soft u : bool := forallb space_or_push u.
Lemma lost_app u x : gaps u -> is_gap x = true ->
  lost (u ++ [x]) = lost u || match x with Line => soft u && match rev u with Push :: _ => true | _ => false end | _ => false end.
Proof.
  intros G X. induction G as [|y u Y G IH]; [destruct x; try discriminate X; reflexivity|].
  destruct y; try discriminate Y.
  - destruct u as [|z u]; [destruct x; try discriminate X; reflexivity|].
    assert (D : z = Line \/ (lost (Push :: z :: u) = lost (z :: u) /\ lost (Push :: (z :: u) ++ [x]) = lost ((z :: u) ++ [x]))) by (destruct z; auto).
    destruct D as [->|[D1 D2]]; [reflexivity|]. change ((Push :: z :: u) ++ [x]) with (Push :: (z :: u) ++ [x]). rewrite D1, D2, IH. f_equal.
    destruct x; try reflexivity. cbn [soft forallb space_or_push andb rev]. f_equal. destruct (rev u); reflexivity.
  - destruct x; try discriminate X; reflexivity.
  - cbn [app lost]. rewrite IH. f_equal. destruct x; try reflexivity. cbn [soft forallb space_or_push andb rev]. f_equal. destruct u as [|z u]; [reflexivity|]. cbn [rev].
    destruct (rev u); reflexivity.
Qed.
Lemma op_canon x r : is_white x = true -> rcanon r -> rcanon (op x r).
Proof.
  intros X C. change r with (ritems (mk_tokens r 0)). rewrite <- ritems_op by exact X. apply add_item_canon. exact C.
Qed.
Lemma ops_canon u r : white u -> rcanon r -> rcanon (ops u r).
Proof.
  revert r. induction u as [|x u IH]; intros r U C; [exact C|]. inversion U; subst. cbn [ops fold_left]. apply IH; auto. apply op_canon; auto.
Qed.
Lemma op_nonempty x r : is_gap x = true -> op x r <> [].
Proof.
  intros X E. destruct x; try discriminate X; cbn [op] in E.
  - destruct (push_top r) as [r' [H|H]]; congruence.
  - destruct (line_top r) as [r' H]; congruence.
  - destruct (space_top r) as [r' H]. cbn [op] in H. congruence.
Qed.
(** Only a line break is left. *)
Lemma only_push_iff u : gaps u -> only_push (ops u []) = soft u && match rev u with Push :: _ => true | _ => false end.
Proof.
  intros G. assert (K : (soft u = true -> gaps (ops u []) /\ (ops u [] = [] \/ ops u [] = [Space] \/ ops u [] = [Push] \/ ops u [] = [Space; Push])) /\
                        (soft u = false -> In Line (ops u []))).
  { induction u as [|x u IH] using rev_ind; [split; [intros _; split; [constructor|auto]|discriminate]|].
    apply Forall_app in G as [G GX]. inversion GX as [|? ? X _]; subst. destruct (IH G) as [K1 K2]. rewrite ops_app. cbn [ops fold_left]. unfold soft in *. rewrite forallb_app. cbn [forallb]. rewrite andb_true_r.
    destruct (forallb space_or_push u) eqn:S.
    - destruct (K1 eq_refl) as [_ O]. split.
      + cbn [andb]. intros SX. destruct x; try discriminate SX; destruct O as [->|[->|[->| ->]]]; cbn; (split; [repeat constructor|auto]).
      + cbn [andb]. intros SX. destruct x; try discriminate X; try discriminate SX. destruct (line_top (ops u [])) as [r' H]. cbn [op]. rewrite H. left. reflexivity.
    - cbn [andb]. split; [discriminate|]. intros _. specialize (K2 eq_refl). revert K2. generalize (ops u []) as r. intros r H.
      destruct x; try discriminate X; cbn [op].
      + induction r as [|y r IHr]; [contradiction|]. destruct y; cbn [push_loop]; try (right; exact H); try exact H; apply IHr; (destruct H as [H|H]; [discriminate|exact H]).
      + destruct (line_top r) as [r' ->]. left. reflexivity.
      + destruct r as [|y r]; [contradiction|]. destruct y; try (right; exact H). exact H. }
  destruct K as [K1 K2]. destruct (soft u) eqn:S; cbn [andb].
  - destruct (exists_last' u) as [->|(v & x & ->)]; [reflexivity|].
    apply Forall_app in G as [G GX]. inversion GX as [|? ? X _]; subst. rewrite rev_unit. unfold soft in S. rewrite forallb_app in S. cbn [forallb] in S. apply andb_prop in S as [S SX]. rewrite andb_true_r in SX.
    destruct (K1 eq_refl) as [_ O]. clear K1 K2. rewrite ops_app in *. change (ops [x] ?a) with (op x a) in *. generalize dependent (ops v []). intros r O. destruct x; try discriminate SX; cbn [op andb] in *.
    + destruct (push_top r) as [r' [H|H]]; rewrite H in *; destruct O as [O|[O|[O|O]]]; try discriminate O. injection O as ->. reflexivity.
    + destruct (space_top r) as [r' H]. cbn [op] in H. rewrite H. destruct r'; reflexivity.
  - specialize (K2 eq_refl). destruct (ops u []) as [|x [|y r]]; [contradiction| |destruct x; reflexivity]. destruct K2 as [->|[]]. reflexivity.
Qed.
(** What requests do to a gap. *)
Lemma ops_onto rw u : gaps u -> ops u rw = onto (lost u) rw (ops u []) /\ (ops u [] = [] -> lost u = false).
Proof.
  induction u as [|x u IH] using rev_ind; intros G; [split; reflexivity|].
  apply Forall_app in G as [G GX]. inversion GX as [|? ? X _]; subst. destruct (IH G) as [H N]. rewrite !ops_app. cbn [ops fold_left]. change (fold_left _ u ?a) with (ops u a).
  split; [|intros E; exfalso; eapply op_nonempty; eauto].
  assert (GO : gaps (ops u [])) by (apply (ops_gap u [] []); auto; constructor). rewrite H, lost_app by assumption.
  destruct x; try discriminate X; rewrite ?orb_false_r.
  - apply onto_push. exact GO.
  - rewrite <- only_push_iff by exact G. apply onto_line; auto. apply ops_canon; [apply gaps_white; exact G|exact I].
  - apply onto_space. exact GO.
Qed.
(** Replaying what is left. *)
Lemma ops_rebuild r : gaps r -> rcanon r -> ops (rev r) [] = r.
Proof.
  intros G C. pose proof (ritems_ops (rev r) (@new LI)) as H. cbn [new ritems] in H. rewrite <- H by (apply Forall_rev, gaps_white; exact G).
  rewrite <- (rev_involutive r) at 2. change (rev (rev r)) with (items (mk_tokens (rev r) 0)) || idtac.
  assert (E : from_iter (items (mk_tokens r (last_of r))) = mk_tokens r (last_of r)).
  { apply rebuild_tokens; [split; [reflexivity|]|exact C]. cbn. clear -G. induction G as [|x r X G IH]; [exact I|]. destruct x; try discriminate X; exact IH. }
  unfold from_iter, items in E. cbn [ritems] in E. rewrite E. cbn. rewrite rev_involutive. reflexivity.
Qed.
Lemma not_lost r : gaps r -> rcanon r -> lost (rev r) = false.
Proof.
  intros G C. destruct (lost (rev r)) eqn:L; [|reflexivity]. exfalso. apply lost_iff in L; [|apply Forall_rev; exact G]. destruct L as (a & b & E & _).
  apply rcanon_canonical in C. destruct C as [C _]. specialize (C _ _ _ _ E). discriminate C.
Qed.
Lemma ops_left rw r : gaps r -> rcanon r -> ops (rev r) rw = onto false rw r.
Proof.
  intros G C. destruct (ops_onto rw (rev r)) as [H _]; [apply Forall_rev; exact G|]. rewrite H, not_lost, ops_rebuild by assumption. reflexivity.
Qed.

(** ** Requests without changes of the level *)
Lemma bottom_line u : gaps u -> forall r, gaps r -> exists r', ops u (r ++ [Line]) = r' ++ [Line].
Proof.
  assert (ST : forall x r, is_gap x = true -> gaps r -> exists r', op x (r ++ [Line]) = r' ++ [Line] /\ gaps r').
  { intros x r X G. destruct x; try discriminate X; cbn [op].
    - induction G as [|y r Y G IH]; [exists []; split; [reflexivity|constructor]|]. destruct y; try discriminate Y; cbn [app push_loop]; try exact IH. exists (Line :: r). split; [reflexivity|constructor; auto].
    - induction G as [|y r Y G IH]; [exists []; split; [reflexivity|constructor]|]. destruct y; try discriminate Y; cbn [app line_loop]; try exact IH. exists (Line :: Space :: r). split; [reflexivity|constructor; auto].
    - destruct G as [|y r Y G]; [exists [Space]; split; [reflexivity|repeat constructor]|]. destruct y; try discriminate Y; cbn [app].
      + exists (Space :: Push :: r). split; [reflexivity|repeat constructor; auto].
      + exists (Space :: Line :: r). split; [reflexivity|repeat constructor; auto].
      + exists (Space :: r). split; [reflexivity|repeat constructor; auto]. }
  induction 1 as [|x u X U IH]; intros r G; [exists r; reflexivity|]. cbn [ops fold_left]. destruct (ST x r X G) as (r' & -> & G'). apply IH. exact G'.
Qed.
Lemma soft_gap u : Forall (fun x => space_or_push x = true) u -> gaps u.
Proof. apply Forall_impl. intros x. destruct x; try discriminate; reflexivity. Qed.
Lemma lost_line u : gaps u -> lost u = true -> exists r, ops u [] = r ++ [Line].
Proof.
  intros G L. apply lost_iff in L; [|exact G]. destruct L as (a & b & -> & A). change (a ++ Push :: Line :: b) with (a ++ [Push; Line] ++ b) in *. rewrite app_assoc in *. apply Forall_app in G as [_ G].
  rewrite ops_app. assert (H : ops (a ++ [Push; Line]) [] = [] ++ [Line]); [|rewrite H; apply bottom_line; auto].
  rewrite ops_app. cbn [ops fold_left]. change (fold_left _ a ?x) with (ops a x).
  assert (S : Forall (fun x => space_or_push x = true) (ops a [])).
  { assert (Q : forall r, Forall (fun x => space_or_push x = true) r -> Forall (fun x => space_or_push x = true) (ops a r)); [|apply Q; constructor].
    clear G. induction A as [|x a X A IH]; intros r R; [exact R|]. cbn [ops fold_left]. apply IH. destruct x; try discriminate X; cbn [op].
    - clear IH. induction R as [|y r Y R IHr]; [repeat constructor|]. destruct y; try discriminate Y; exact IHr.
    - destruct R as [|y r Y R]; [repeat constructor|]. destruct y; auto. }
  cbn [op]. assert (P : push_loop (ops a []) = [Push]); [|rewrite P; reflexivity]. induction S as [|y r Y S IH]; [reflexivity|]. destruct y; try discriminate Y; exact IH.
Qed.
Lemma onto_app b rw r x : onto b rw (r ++ [x]) = r ++ meet b rw x.
Proof. induction r as [|y r IH]; [reflexivity|]. cbn [app]. destruct r as [|z r]; [reflexivity|]. cbn [app] in *. rewrite onto_cons, IH. reflexivity. Qed.
Lemma line_push_length r : length (line_loop (push_loop r)) <= S (length r).
Proof.
  assert (L : forall r, length (@line_loop LI r) <= S (length r)) by (clear; intros r; induction r as [|x r IH]; [auto|]; destruct x; cbn [line_loop length] in *; lia).
  induction r as [|x r IH]; [auto|]. destruct x; cbn [push_loop length line_loop] in *; try lia; specialize (L r); cbn [length] in L; lia.
Qed.
Lemma line_push_same rw : gaps rw -> rcanon rw -> (line_loop (push_loop rw) = line_loop rw <-> forall r, rw <> Space :: r).
Proof.
  intros G C. destruct G as [|x r X G]; [split; [discriminate|reflexivity]|]. destruct x; try discriminate X.
  - split; [discriminate|]. intros _. destruct r as [|y r]; [reflexivity|]. destruct C as (_ & B & _). inversion G; subst. destruct y; discriminate.
  - split; [discriminate|]. reflexivity.
  - split; [|intros H; destruct (H r eq_refl)]. cbn [push_loop line_loop]. intros E. pose proof (line_push_length r) as L. rewrite E in L. cbn [length] in L. lia.
Qed.
Lemma flat_case rw base u : gaps u -> gaps rw -> rcanon rw -> match base with [] => True | y :: _ => is_gap y = false end ->
  ops (rev (ops u [])) (rw ++ base) = ops u (rw ++ base) <-> (lost u = true -> forall r, rw <> Space :: r).
Proof.
  intros U G C B. assert (GO : gaps (ops u [])) by (apply (ops_gap u [] []); auto; constructor).
  assert (CO : rcanon (ops u [])) by (apply ops_canon; [apply gaps_white; exact U|exact I]).
  destruct (ops_gap (rev (ops u [])) rw base) as [-> _]; [apply Forall_rev; exact GO|exact G|exact B|]. destruct (ops_gap u rw base U G B) as [-> _].
  rewrite ops_left by assumption. destruct (ops_onto rw u U) as [-> _]. destruct (lost u) eqn:L; [|split; [discriminate|reflexivity]].
  destruct (lost_line u U L) as [r ->]. rewrite !onto_app. cbn [meet]. split.
  - intros E _. apply app_inv_tail, app_inv_head in E. apply line_push_same; auto.
  - intros H. f_equal. f_equal. symmetry. apply line_push_same; auto.
Qed.

(** ** Requests with changes of the level *)
Lemma absorbed_iff rw r : gaps rw -> gaps r -> (onto false rw r = r <-> absorbed (rev rw) (rev r)).
Proof.
  intros G GR. destruct (exists_last' r) as [->|(r' & x & ->)].
  - cbn [onto absorbed rev]. split; [intros ->; reflexivity|]. intros H. apply (f_equal (@rev _)) in H. rewrite rev_involutive in H. exact H.
  - rewrite onto_app, rev_unit. apply Forall_app in GR as [_ GX]. inversion GX as [|? ? X _]; subst. transitivity (meet false rw x = [x]).
    { split; [apply app_inv_head|intros ->; reflexivity]. }
    destruct x; try discriminate X; cbn [absorbed meet op]; rewrite <- ?in_rev.
    + induction G as [|y rw Y G IH]; [cbn; tauto|]. destruct y; try discriminate Y; cbn [push_loop In] in *.
      * rewrite IH. intuition discriminate.
      * split; [discriminate|]. intros H. destruct H. auto.
      * rewrite IH. intuition discriminate.
    + induction G as [|y rw Y G IH]; [cbn; tauto|]. destruct y; try discriminate Y; cbn [line_loop In] in *.
      * rewrite IH. intuition discriminate.
      * rewrite IH. intuition discriminate.
      * split; [discriminate|]. intros H. destruct H. auto.
    + destruct G as [|y rw Y G]; [cbn; tauto|]. assert (NE : rev (y :: rw) <> []) by (cbn; destruct (rev rw); discriminate).
      destruct y; try discriminate Y; (split; [intros H|intros [H|H]]); try contradiction; try discriminate.
      * apply (f_equal (@rev _)) in H. rewrite rev_involutive in H. discriminate.
      * apply (f_equal (@rev _)) in H. rewrite rev_involutive in H. discriminate.
      * injection H as ->. right. reflexivity.
      * apply (f_equal (@rev _)) in H. rewrite rev_involutive in H. exact H.
Qed.
Lemma flat_net u : flat u -> net_indentation u = 0%Z.
Proof. induction 1 as [|x u X F IH]; [reflexivity|]. cbn [net_indentation]. rewrite IH. destruct x; try discriminate X; reflexivity. Qed.
Lemma flat_gaps u : white u -> flat u -> gaps u.
Proof. induction 1 as [|x u X W IH]; intros F; [constructor|]. inversion F; subst. constructor; [destruct x; try discriminate; reflexivity|auto]. Qed.
Lemma level_base base : rcanon base -> match base with [] => True | y :: _ => is_gap y = false end -> exists m b, base = level_items m ++ b /\ rclosed b.
Proof.
  intros C B. destruct base as [|y b]; [exists 0%Z, []; split; [reflexivity|exact I]|]. destruct (is_white y) eqn:Y; [|exists 0%Z, (y :: b); split; [reflexivity|exact Y]].
  destruct y; try discriminate. destruct C as (C1 & C2 & _). exists n, b. split.
  - unfold level_items. destruct (Z.eqb_spec n 0); [subst; congruence|reflexivity].
  - destruct b as [|z b]; [exact I|]. cbn. unfold bad_pair in C2. apply orb_false_elim in C2 as [_ C2]. rewrite andb_true_r in C2. exact C2.
Qed.
Lemma level_white m : white (level_items m).
Proof. unfold level_items. destruct (Z.eqb m 0); repeat constructor. Qed.
Lemma level_net m : net_indentation (level_items m) = m.
Proof. unfold level_items. destruct (Z.eqb_spec m 0); [auto|cbn; lia]. Qed.
Lemma level_top m : match level_items m with [] => True | y :: _ => is_gap y = false end.
Proof. unfold level_items. destruct (Z.eqb m 0); exact I || reflexivity. Qed.
Lemma level_case rw base u1 k u2 : white u1 -> gaps u2 -> gaps rw -> rcanon base -> match base with [] => True | y :: _ => is_gap y = false end ->
  let u := u1 ++ Indentation k :: u2 in
  ops (rev (ops u [])) (rw ++ base) = ops u (rw ++ base) <-> (net_indentation u = 0%Z -> absorbed (rev rw) (rev (ops u2 []))).
Proof.
  intros W1 G2 G C B u. destruct (level_base base C B) as (m & b & -> & CB).
  assert (W2 : white u2) by (apply gaps_white; exact G2).
  assert (N : net_indentation u = (net_indentation u1 + k)%Z).
  { unfold u. rewrite net_app_i. cbn [net_indentation indentation_of]. rewrite (flat_net u2); [lia|]. eapply Forall_impl; [|exact G2]. intros x X. destruct x; try discriminate X; reflexivity. }
  assert (WU : white u) by (apply Forall_app; split; [exact W1|constructor; [reflexivity|exact W2]]).
  assert (X : forall r, white r -> ops u r = ops u2 [] ++ level_items (net_indentation r + net_indentation u)).
  { intros r R. unfold u at 1. change (u1 ++ Indentation k :: u2) with (u1 ++ [Indentation k] ++ u2). rewrite app_assoc, ops_app, ops_level by assumption.
    destruct (ops_gap u2 [] (level_items (k + (net_indentation r + net_indentation u1)))) as [H _]; auto; [apply level_top|]. cbn [app] in H. rewrite H. f_equal. f_equal. lia. }
  assert (GX : gaps (ops u2 [])) by (apply (ops_gap u2 [] []); auto; constructor).
  assert (CX : rcanon (ops u2 [])) by (apply ops_canon; [exact W2|exact I]).
  assert (WR : white (rw ++ level_items m)) by (apply Forall_app; split; [apply gaps_white; exact G|apply level_white]).
  rewrite X by constructor. cbn [net_indentation]. rewrite Z.add_0_l, app_assoc.
  destruct (ops_base u (rw ++ level_items m) b WU WR CB) as [-> _]. rewrite (X _ WR), net_app_i, level_net, (flat_net rw), Z.add_0_l by (eapply Forall_impl; [|exact G]; intros x; destruct x; try discriminate; reflexivity).
  assert (WO : white (rev (ops u2 [] ++ level_items (net_indentation u)))) by (apply Forall_rev, Forall_app; split; [apply gaps_white; exact GX|apply level_white]).
  destruct (ops_base _ (rw ++ level_items m) b WO WR CB) as [-> _].
  assert (S : forall m, ops (rev (ops u2 [])) (level_items m) = ops u2 [] ++ level_items m).
  { intros m'. destruct (ops_gap (rev (ops u2 [])) [] (level_items m')) as [H _]; [apply Forall_rev; exact GX|constructor|apply level_top|]. cbn [app] in H. rewrite H, ops_rebuild by assumption. reflexivity. }
  destruct (Z.eq_dec (net_indentation u) 0) as [Z|Z].
  - rewrite Z. change (level_items 0) with (@nil (item LI)). rewrite app_nil_r, Z.add_0_r.
    destruct (ops_gap (rev (ops u2 [])) rw (level_items m)) as [-> _]; [apply Forall_rev; exact GX|exact G|apply level_top|]. rewrite ops_left by assumption.
    rewrite <- absorbed_iff by assumption. split; [intros E _; apply app_inv_tail, app_inv_tail in E; exact E|intros H; rewrite H; reflexivity].
  - split; [intros _ H; contradiction|]. intros _. f_equal. rewrite rev_app_distr. unfold level_items at 1. destruct (Z.eqb_spec (net_indentation u) 0); [contradiction|]. cbn [rev app].
    change (Indentation (net_indentation u) :: rev (ops u2 [])) with ([Indentation (net_indentation u)] ++ rev (ops u2 [])). rewrite ops_app. cbn [ops fold_left]. rewrite op_level by exact WR.
    change (fold_left _ (rev (ops u2 [])) ?a) with (ops (rev (ops u2 [])) a). rewrite S, net_app_i, level_net, (flat_net rw) by (eapply Forall_impl; [|exact G]; intros x; destruct x; try discriminate; reflexivity).
    f_equal. f_equal. lia.
Qed.

(** ** White space requested *)
Lemma last_level u : white u -> flat u \/ exists u1 k u2, u = u1 ++ Indentation k :: u2 /\ flat u2.
Proof.
  induction 1 as [|x u X W [IH|(u1 & k & u2 & -> & F)]]; [left; constructor| |right; exists (x :: u1), k, u2; auto].
  destruct (is_indentation x) eqn:D; [|left; constructor; auto]. right. destruct x; try discriminate D. exists [], n, u. auto.
Qed.
Lemma effect_iff rw base u : white u -> gaps rw -> rcanon (rw ++ base) -> match base with [] => True | y :: _ => is_gap y = false end ->
  (ops (rev (ops u [])) (rw ++ base) = ops u (rw ++ base) <-> same_effect (fun u2 => items (from_iter u2)) (rev rw) u).
Proof.
  intros W G C B.
  assert (CB : rcanon base) by (clear -C; induction rw as [|x rw IH]; [exact C|apply IH; eapply rcanon_tail; exact C]).
  assert (CR : rcanon rw).
  { clear -C. induction rw as [|x rw IH]; [exact I|]. destruct C as (C1 & C2 & C3). split; [exact C1|]. split; [|apply IH; exact C3]. destruct rw; [exact I|exact C2]. }
  assert (SP : forall rw : items_, (forall r, rw <> Space :: r) <-> (forall w', rev rw <> w' ++ [Space])).
  { intros q. split; intros H w' E.
    - apply (H (rev w')). apply (f_equal (@rev _)) in E. rewrite rev_involutive, rev_unit in E. exact E.
    - apply (H (rev w')). rewrite E. reflexivity. }
  assert (IT : forall u2, white u2 -> items (from_iter u2) = rev (ops u2 [])) by (intros u2 W2; unfold items, from_iter; rewrite ritems_ops by exact W2; reflexivity).
  unfold same_effect. split.
  - intros E. split.
    + intros F L. pose proof (flat_gaps u W F) as GU. apply SP. apply (flat_case rw base u GU G CR B); [exact E|apply lost_iff; auto].
    + intros u1 k u2 -> F N. apply Forall_app in W as [W1 W2]. inversion W2; subst. rewrite IT by assumption.
      apply (level_case rw base u1 k u2 W1 (flat_gaps u2 H2 F) G CB B); assumption.
  - intros [H1 H2]. destruct (last_level u W) as [F|(u1 & k & u2 & -> & F)].
    + pose proof (flat_gaps u W F) as GU. apply (flat_case rw base u GU G CR B). intros L. apply SP. apply H1; [exact F|]. apply lost_iff; auto.
    + pose proof W as W'. apply Forall_app in W as [W1 W2]. inversion W2; subst. apply (level_case rw base u1 k u2 W1 (flat_gaps u2 H4 F) G CB B).
      intros N. rewrite <- IT by assumption. exact (H2 u1 k u2 eq_refl F N).
Qed.

(** ** After the first visible item *)
Lemma erase_links a : forall b, @links_ok LI a -> links_ok b -> map erase a = map erase b -> a = b.
Proof.
  induction a as [|x a IH]; intros [|y b] A B E; try discriminate; [reflexivity|]. cbn [map] in E. injection E as EX E.
  assert (H : a = b) by (apply IH; [destruct x; cbn in A; tauto|destruct y; cbn in B; tauto|exact E]). subst b.
  destruct x, y; cbn in *; try discriminate EX; try (injection EX as ->); try reflexivity; destruct A as [-> _], B as [-> _]; reflexivity.
Qed.
Lemma add_closed x (t : tokens LI) : is_white x = false -> closed (items (add_item x t)).
Proof. intros NW. unfold closed, items. intros pre y Q. destruct x; try discriminate NW; cbn in Q; apply app_inj_tail in Q as [_ <-]; reflexivity. Qed.
Lemma extend_visible x r (t : tokens LI) : wf t -> is_white x = false ->
  map erase (ritems (extend (x :: r) t)) = map erase (ritems (from_iter r)) ++ erase x :: map erase (ritems t).
Proof.
  intros W NW. change (extend (x :: r) t) with (extend r (add_item x t)). rewrite extend_closed; [|apply add_item_wf; exact W|apply add_closed; exact NW].
  cbn [grafted ritems]. rewrite graft_erase. f_equal. destruct x; try discriminate NW; reflexivity.
Qed.
Lemma extend_injective x r (a b : tokens LI) : wf a -> wf b -> is_white x = false -> extend (x :: r) a = extend (x :: r) b -> a = b.
Proof.
  intros A B NW E. apply (f_equal (fun t => map erase (ritems t))) in E. rewrite !extend_visible in E by assumption. apply app_inv_head in E. injection E as E.
  apply wf_same; auto. apply erase_links; [apply A|apply B|exact E].
Qed.
Lemma append_rest u rest (t : tokens LI) : wf t -> match rest with x :: _ => is_white x = false | [] => True end ->
  append_tokens (from_iter (u ++ rest)) t = extend rest (append_tokens (from_iter u) t).
Proof.
  intros W NW. destruct rest as [|x r]; [rewrite app_nil_r; reflexivity|].
  unfold append_tokens. rewrite <- extend_erase.
  assert (EI : map erase (items (from_iter (u ++ x :: r))) = map erase (items (from_iter u) ++ x :: items (from_iter r))).
  { unfold items. rewrite map_rev. unfold from_iter at 1. rewrite extend_app. change (extend u new) with (from_iter u).
    rewrite extend_visible by (auto; apply from_iter_wf). rewrite rev_app_distr. cbn [rev]. rewrite <- app_assoc, map_app. cbn [map app]. rewrite !map_rev. reflexivity. }
  rewrite EI, extend_erase, extend_app. set (t' := extend (items (from_iter u)) t). assert (W' : wf t') by (apply extend_wf; exact W).
  change (extend (items (from_iter r)) (add_item x t') = extend r (add_item x t')). rewrite !extend_closed by (try apply add_item_wf; try apply add_closed; auto).
  rewrite rebuild_tokens by (apply from_iter_wf || apply from_iter_canon). reflexivity.
Qed.

(** Appending is replaying exactly if the white space in front has the same effect. *)
Lemma append_extend_iff (t : tokens LI) body w xs u rest : wf t -> rcanon (ritems t) ->
  suffix_split is_gap (items t) body w -> prefix_split is_white xs u rest ->
  (append_tokens (from_iter xs) t = extend xs t <-> same_effect (fun u2 => items (from_iter u2)) w u).
Proof.
  intros W C (T & G & B) (-> & U & R).
  assert (RT : ritems t = rev w ++ rev body) by (rewrite <- rev_app_distr, <- T; unfold items; rewrite rev_involutive; reflexivity).
  assert (B' : match rev body with [] => True | y :: _ => is_gap y = false end).
  { destruct (exists_last' body) as [->|(b' & y & ->)]; [exact I|]. rewrite rev_unit. exact (B b' y eq_refl). }
  rewrite RT in C. pose proof (effect_iff (rev w) (rev body) u U (Forall_rev G) C B') as EF. rewrite rev_involutive in EF. rewrite <- EF. clear EF.
  rewrite append_rest, extend_app by assumption.
  assert (W1 : wf (append_tokens (from_iter u) t)) by (apply extend_wf; exact W). assert (W2 : wf (extend u t)) by (apply extend_wf; exact W).
  assert (I1 : ritems (append_tokens (from_iter u) t) = ops (rev (ops u [])) (rev w ++ rev body)).
  { unfold append_tokens. assert (IU : items (from_iter u) = rev (ops u [])) by (unfold items, from_iter; rewrite ritems_ops by exact U; reflexivity). rewrite IU, ritems_ops, RT; [reflexivity|].
    apply Forall_rev. apply (ops_base u [] [] U (Forall_nil _) I). }
  assert (I2 : ritems (extend u t) = ops u (rev w ++ rev body)) by (rewrite ritems_ops, RT by exact U; reflexivity).
  rewrite <- I1, <- I2. split.
  - intros E. f_equal. destruct rest as [|x r]; [exact E|]. eapply extend_injective; eauto.
  - intros E. f_equal. apply wf_same; auto.
Qed.
End Facts.
