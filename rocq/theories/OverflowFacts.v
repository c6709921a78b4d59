(** * Lemmas about the checked indentation counters. *)
From Verif Require Import Tokens SpecTokens TokensRun TokensFacts Overflow.
From Coq Require Import ZifyBool.

Section Facts.
Context {LI : Type}.

Lemma requested_app (a b : list (item LI)) :
  requested (a ++ b) = (requested a + requested b)%Z.
Proof. induction a as [|x a IH]; cbn; auto. rewrite IH; lia. Qed.
Lemma requested_rev (r : list (item LI)) : requested (rev r) = requested r.
Proof. induction r as [|x r IH]; cbn; auto. rewrite requested_app, IH; cbn; lia. Qed.
Lemma requested_nonneg (r : list (item LI)) : (0 <= requested r)%Z.
Proof. induction r as [|x r IH]; cbn; lia. Qed.

Lemma loop_checked (r : list (item LI)) : forall n,
  (Z.abs n + requested r <= i16_max)%Z ->
  indentation_loop_checked n r = Some (indentation_loop n r) /\
  (requested (indentation_loop n r) <= Z.abs n + requested r)%Z.
Proof.
  induction r as [|x r IH]; intros n H; cbn [indentation_loop_checked indentation_loop].
  - split; auto. destruct (Z.eqb_spec n 0); cbn; lia.
  - pose proof (requested_nonneg r).
    destruct x; cbn [requested indentation_of] in H.
    all: try (destruct (IH n) as [A B]; [lia|split; [exact A|cbn; lia]]).
    all: try (split; [reflexivity|destruct (Z.eqb_spec n 0); cbn; lia]).
    unfold i16_add, in_i16, i16_min, i16_max in *.
    replace ((-32768 <=? n + n0) && (n + n0 <=? 32767))%Z with true by lia.
    destruct (IH (n + n0)%Z) as [A B]; [lia|split; [exact A|cbn; lia]].
Qed.

Lemma requested_push r : (requested (@push_loop LI r) <= requested r)%Z.
Proof. induction r as [|x r IH]; cbn; [lia|]; destruct x; cbn; lia. Qed.
Lemma requested_line r : (requested (@line_loop LI r) <= requested r)%Z.
Proof. induction r as [|x r IH]; cbn; [lia|]; destruct x; cbn; lia. Qed.

Lemma add_item_checked_ok (x : item LI) t :
  (requested (ritems t) + requested [x] <= i16_max)%Z ->
  add_item_checked x t = Some (add_item x t) /\
  (requested (ritems (add_item x t)) <= requested (ritems t) + requested [x])%Z.
Proof.
  intros H. cbn [requested] in *.
  destruct x; cbn [add_item_checked add_item indentation_of] in *;
    try (split; [reflexivity|]);
    try (unfold vec_push, lang_item, lang_item_register; cbn; lia).
  - pose proof (requested_push (ritems t)); unfold push; cbn; lia.
  - pose proof (requested_line (ritems t)); unfold line; cbn; lia.
  - unfold space. destruct (ritems t) as [|y r'] eqn:E.
    + cbn; rewrite ?E; cbn; lia.
    + destruct y; cbn [vec_push ritems]; rewrite ?E; cbn; lia.
  - destruct (loop_checked (ritems t) n) as [A B]; [lia|].
    rewrite A. split; [reflexivity|unfold indentation; cbn; lia].
Qed.

Lemma extend_checked_ok xs : forall t,
  (requested (ritems t) + requested xs <= i16_max)%Z ->
  @extend_checked LI xs t = Some (extend xs t) /\
  (requested (ritems (extend xs t)) <= requested (ritems t) + requested xs)%Z.
Proof.
  induction xs as [|x xs IH]; intros t H; cbn [extend_checked extend fold_left].
  - cbn; split; [auto|lia].
  - cbn [requested] in H. pose proof (requested_nonneg xs).
    destruct (add_item_checked_ok x t) as [A B]; [cbn; lia|]. rewrite A.
    change (fold_left _ xs ?a) with (extend xs a).
    cbn [requested] in B.
    destruct (IH (add_item x t)) as [C D]; [lia|].
    split; [exact C|cbn [requested]; lia].
Qed.

Lemma level_checked_ok (xs : list (item LI)) : forall lvl,
  (Z.abs lvl + requested xs <= i16_max)%Z ->
  level_checked lvl xs = Some (lvl + net_indentation xs)%Z.
Proof.
  induction xs as [|x xs IH]; intros lvl H; cbn [level_checked net_indentation].
  - f_equal; lia.
  - pose proof (requested_nonneg xs).
    destruct x; cbn [requested indentation_of] in *;
      try (rewrite IH by lia; f_equal; lia).
    unfold i16_add, in_i16, i16_min, i16_max in *.
    replace ((-32768 <=? lvl + n) && (lvl + n <=? 32767))%Z with true by lia.
    rewrite IH by lia. f_equal; lia.
Qed.

Lemma run_checked' cs :
  Forall (fun c => forall t,
    (requested (ritems t) + requested (supplied c) <= i16_max)%Z ->
    @run_call_checked LI c t = Some (run_call c t) /\
    (requested (ritems (run_call c t)) <= requested (ritems t) + requested (supplied c))%Z) cs ->
  forall t, (requested (ritems t) + requested (flat_map supplied cs) <= i16_max)%Z ->
  run_checked cs t = Some (run cs t) /\
  (requested (ritems (run cs t)) <= requested (ritems t) + requested (flat_map supplied cs))%Z.
Proof.
  induction 1 as [|c cs Hc Hcs IH]; intros t H; cbn [run_checked run fold_left flat_map] in *.
  - cbn; split; [auto|lia].
  - rewrite requested_app in *. pose proof (requested_nonneg (flat_map supplied cs)).
    destruct (Hc t) as [A B]; [lia|]. rewrite A.
    change (fold_left _ cs ?a) with (run cs a).
    destruct (IH (run_call c t)) as [C D]; [lia|]. split; [exact C|lia].
Qed.

Lemma run_call_checked_ok c : forall t,
  (requested (ritems t) + requested (supplied c) <= i16_max)%Z ->
  @run_call_checked LI c t = Some (run_call c t) /\
  (requested (ritems (run_call c t)) <= requested (ritems t) + requested (supplied c))%Z.
Proof.
  induction c as [x| | | | | |xs|cs IH] using call_ind'; intros t H;
    cbn [run_call_checked run_call supplied] in *;
    try (apply add_item_checked_ok; exact H).
  - apply extend_checked_ok; auto.
  - set (go := fix go (cs0 : list (call LI)) (b : tokens LI) := _).
    assert (G : forall cs b, go cs b = run_checked cs b).
    { induction cs0 as [|c cs0 IHc]; intros b; cbn; auto.
    }
    rewrite G.
    pose proof (requested_nonneg (ritems t)).
    destruct (run_checked' cs IH new) as [A B]; [cbn; lia|].
    rewrite A. unfold append_tokens.
    change (fold_left (fun b c => run_call c b) cs new) with (run cs (@new LI)).
    cbn [ritems new requested] in B.
    destruct (extend_checked_ok (items (run cs new)) t) as [C D].
    + unfold items; rewrite requested_rev; lia.
    + split; [exact C|]. unfold items in D at 2; rewrite requested_rev in D; lia.
Qed.

Lemma no_overflow cs : (requested (flat_map supplied cs) <= i16_max)%Z ->
  run_checked cs new = Some (@build LI cs) /\
  forall pre post, items (build cs) = pre ++ post ->
    level_checked 0 pre = Some (net_indentation pre).
Proof.
  intros H.
  destruct (run_checked' cs) with (t := @new LI) as [A B].
  - apply Forall_forall; intros c _; apply run_call_checked_ok.
  - cbn; lia.
  - split; auto. cbn [ritems new requested] in B. intros pre post E.
    rewrite level_checked_ok; auto.
    assert (R : (requested (items (@build LI cs)) <= i16_max)%Z)
      by (unfold items; rewrite requested_rev; unfold build; lia).
    rewrite E, requested_app in R. pose proof (requested_nonneg post). lia.
Qed.

End Facts.
