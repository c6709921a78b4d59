(** * Lemmas about appended values. *)
From Verif Require Import Tokens SpecTokens TokensRun TokensFacts Values.

Section Facts.
Context {LI : Type}.

Lemma reg_ind' (P : reg LI -> Prop) :
  (forall l, P (RItem l)) -> (forall rs, Forall P rs -> P (RTuple rs)) ->
  forall r, P r.
Proof.
  intros H1 H2. fix IH 1. intros [l|rs]; [apply H1|apply H2].
  induction rs as [|r rs IHrs]; constructor; [apply IH|exact IHrs].
Qed.

Lemma value_ind' (P : value LI -> Prop) :
  (forall b, P (VTokens b)) -> (forall x, P (VItem x)) ->
  (forall s, P (VItemStr s)) -> (forall s, P (VStr s)) ->
  (forall b s, P (VCow b s)) -> (forall s, P (VStatic s)) ->
  (forall z, P (VInt z)) -> (forall s, P (VDisplay s)) ->
  (forall vs, Forall P vs -> P (VVec vs)) ->
  (forall b vs, Forall P vs -> P (VCowSlice b vs)) ->
  P (VOption None) -> (forall v, P v -> P (VOption (Some v))) ->
  (forall v, P v -> P (VQuoted v)) -> (forall l, P (VLang l)) ->
  (forall r, P (VRegister r)) -> (forall cs, P (VFn cs)) -> forall v, P v.
Proof.
  intros H1 H2 H3 H4 H5 H6 H7 H8 H9 H10 H11 H12 H13 H14 H15 H16.
  fix IH 1. intros [b|x|s|s|b s|s|z|s|vs|b vs|[v|]|v|l|r|cs];
    [apply H1|apply H2|apply H3|apply H4|apply H5|apply H6|apply H7|apply H8
    |apply H9|apply H10|apply H12|exact H11|apply H13|apply H14|apply H15|apply H16];
    try apply IH.
  - induction vs as [|v vs IHvs]; constructor; [apply IH|exact IHvs].
  - induction vs as [|v vs IHvs]; constructor; [apply IH|exact IHvs].
Qed.

Lemma fold_extend {A} (f : A -> tokens LI -> tokens LI) (g : A -> list (item LI)) l :
  Forall (fun a => forall t, f a t = extend (g a) t) l ->
  forall t, fold_left (fun t a => f a t) l t = extend (flat_map g l) t.
Proof.
  induction 1 as [|a l Ha Hl IH]; intros t; cbn [fold_left flat_map]; auto.
  rewrite extend_app, IH, Ha; auto.
Qed.

Lemma register_extend (r : reg LI) : forall t, register r t = extend (reg_parts r) t.
Proof.
  induction r as [l|rs IH] using reg_ind'; intros t; cbn [register reg_parts]; auto.
  apply fold_extend; auto.
Qed.

Lemma run_extend (cs : list (call LI)) : forall t, run cs t = extend (flat_map call_parts cs) t.
Proof.
  intros t. unfold run. apply fold_extend.
  apply Forall_forall; intros c _ t'. destruct c; auto.
Qed.

Lemma format_into_extend (v : value LI) : forall t, format_into v t = extend (parts v) t.
Proof.
  induction v using value_ind'; intros t; cbn [format_into parts]; auto.
  - destruct b; auto.
  - apply fold_extend; auto.
  - destruct b; apply fold_extend; auto.
  - rewrite IHv.
    change (OpenQuote false :: parts v ++ [CloseQuote])
      with ([OpenQuote false] ++ parts v ++ [CloseQuote]).
    rewrite !extend_app. reflexivity.
  - apply register_extend.
  - apply run_extend.
Qed.

Lemma absent_neutral (t : tokens LI) (b : bool) :
  append (VOption None) t = t /\ append (VVec []) t = t /\
  append (VCowSlice b []) t = t /\ append (VRegister (RTuple [])) t = t.
Proof. destruct b; repeat split. Qed.

End Facts.
