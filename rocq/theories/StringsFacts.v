(** * Strings of quotes as strings of documents. *)
From Verif Require Import Str Tokens Values Fmt SpecFmt Macro SpecMacro SpecQuote MacroStrings SpecTemplate SpecStrings.

Inductive alternating : list says -> Prop :=
| alt_end s : alternating [Says s]
| alt_more s n out : alternating out -> alternating (Says s :: Does n :: out).

Section Strings.
Context {LI E : Type}.
Lemma source_alternates src ps : forallb (@simple_part LI E) ps = true -> forall before a b,
  alternating (source_says src before a ps b).
Proof.
  induction ps as [|x ps IH]; intros S before a b; [constructor|].
  cbn [forallb] in S. apply andb_true_iff in S as [X S]. cbn [source_says]. destruct x; try discriminate X; auto.
  constructor. auto.
Qed.
Definition says_parts (x : says) : list (part LI) :=
  match x with
  | Says [] => []
  | Says s => [PItem (Literal (Static s))]
  | Does n => [SpecFmt.PEval [NItem (Literal (Static n))]]
  end.
Definition says_code (x : says) : list (stmt LI E) :=
  match x with
  | Says s => text_code s
  | Does n => [SItem OpenEval; SItem (Literal (Static n)); SItem CloseEval]
  end.
Lemma source_code src ps : forallb (@simple_part LI E) ps = true -> forall before a b,
  spelled src a ps b ->
  coalesce before (source_pieces src a ps b) = flat_map says_code (source_says src before a ps b).
Proof.
  induction ps as [|x ps IH]; intros S before a b SP.
  - cbn. rewrite app_nil_r. auto.
  - cbn [forallb] in S. apply andb_true_iff in S as [X S]. cbn [spelled] in SP. destruct SP as ((L1 & _) & L2 & _ & SP).
    cbn [source_says source_pieces]. destruct x; try discriminate X; cbn [app coalesce]; rewrite IH by auto; cbn [flat_map]; auto.
    + rewrite <- app_assoc, slice_app by auto. auto.
Qed.
Lemma exec_code out : forall e (t : tokens LI), exists t',
  execs (flat_map says_code out) (e, t) = (e, t') /\
  ritems t' = rev (flat_map part_items (flat_map says_parts out)) ++ ritems t.
Proof.
  assert (AP : forall c1 c2 st, @execs LI E (c1 ++ c2) st = execs c2 (execs c1 st)).
  { induction c1 as [|c c1 IH]; intros c2 st; auto. exact (IH c2 (exec c st)). }
  induction out as [|x out IH]; intros e t; [exists t; auto|].
  cbn [flat_map]. rewrite AP, flat_map_app.
  destruct x as [s|n].
  - destruct s as [|c s]; [apply IH|].
    destruct (IH e (append (VItemStr (Static (c :: s))) t)) as [t' [E1 E2]]. exists t'. split; [exact E1|].
    rewrite E2. cbn [says_parts flat_map part_items app rev]. rewrite <- app_assoc. reflexivity.
  - destruct (IH e (append (VItem CloseEval) (append (VItem (Literal (Static n))) (append (VItem OpenEval) t)))) as [t' [E1 E2]].
    exists t'. split; [exact E1|]. rewrite E2. cbn [says_parts flat_map part_items node_items app rev]. rewrite <- !app_assoc. reflexivity.
Qed.
Theorem string_items c paren (ps : list (string_item LI E)) src e : accepted [QString c paren ps] ->
  spelled src (p_col (after_open paren)) ps (p_col (before_close paren)) ->
  forallb simple_part ps = true ->
  exists t, quote [QString c paren ps] e = Some (e, t) /\
  items t = doc_items [NString (existsb is_eval ps)
    (flat_map says_parts (source_says src [] (p_col (after_open paren)) ps (p_col (before_close paren))))].
Proof.
  intros A SP S. unfold quote, accepted in *. rewrite string_code in *.
  destruct (sbody _ ps _) as [[ks rq]|] eqn:SB; cbn [bind] in *; [|congruence].
  rewrite <- (source_body src ps (before_close paren) (after_open paren) ks rq SP SB []).
  rewrite (source_code src ps S _ _ _ SP). cbn [option_map snd].
  set (out := source_says _ _ _ _ _). set (ev := existsb is_eval ps).
  destruct (exec_code out e (append (VItem (OpenQuote ev)) new)) as [t' [E1 E2]].
  assert (AP : forall c1 c2 st, @execs LI E (c1 ++ c2) st = execs c2 (execs c1 st)).
  { induction c1 as [|c1 l IH]; intros c2 st; auto. exact (IH c2 (exec c1 st)). }
  exists (append (VItem CloseQuote) t'). split.
  - f_equal. change (execs (SItem (OpenQuote ev) :: flat_map says_code out ++ [SItem CloseQuote]) (e, new)) with
      (execs (flat_map says_code out ++ [SItem CloseQuote]) (e, append (VItem (OpenQuote ev)) new)).
    rewrite AP, E1. reflexivity.
  - unfold items. change (ritems (append (VItem CloseQuote) t')) with (CloseQuote :: ritems t'). rewrite E2.
    unfold doc_items. cbn [flat_map node_items append add_item vec_push new ritems rev app].
    rewrite rev_app_distr, rev_involutive, app_nil_r. reflexivity.
Qed.

(** ** What they say *)
Lemma parts_head s out : alternating (Says s :: out) ->
  text_head (flat_map says_parts (Says s :: out)) = hd_error s.
Proof.
  intros A. inversion A; subst; destruct s as [|c s]; reflexivity.
Qed.
Lemma single_name (n : str) : single_literal [NItem (@Literal LI (Static n))] = Some n.
Proof. reflexivity. Qed.
Context (ops : lang_ops LI) (cfg : config).
Context (text_ok : bool -> str -> Prop) (opens_after : N -> bool) (single_ok : str -> option N -> Prop).
Theorem parts_say e out : alternating out -> readable (text_ok e) single_ok out -> e = existsb (fun x => match x with Does _ => true | _ => false end) out \/ e = true ->
  string_says ops cfg text_ok opens_after single_ok e [] (flat_map says_parts out) out.
Proof.
  induction 1 as [s|s n out A IH]; intros F EV.
  - destruct F as [F _]. destruct s as [|c s]; [constructor; auto|]. cbn. constructor. constructor. auto.
  - destruct F as [F1 [F2 F3]]. assert (e = true) by (destruct EV; auto). subst e.
    assert (G : forall acc, text_ok true acc -> string_says ops cfg text_ok opens_after single_ok true acc
                (says_parts (Does n) ++ flat_map says_parts out) (Says acc :: Does n :: out)).
    { intros acc T. cbn [says_parts app]. apply says_single; auto.
      inversion A; subst; rewrite parts_head by auto; exact F2. }
    destruct s as [|c s]; [apply G; auto|]. cbn [flat_map]. apply says_text. apply G. auto.
Qed.
Lemma source_evals src ps : forallb (@simple_part LI E) ps = true -> forall before a b,
  existsb (fun x => match x with Does _ => true | _ => false end) (source_says src before a ps b) = existsb is_eval ps.
Proof.
  induction ps as [|x ps IH]; intros S before a b; auto.
  cbn [forallb] in S. apply andb_true_iff in S as [X S]. cbn [source_says existsb]. destruct x; try discriminate X; cbn; auto.
Qed.
End Strings.
