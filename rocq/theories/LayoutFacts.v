(** * Facts about layouts: lines, blank lines, indentation. *)
From Verif Require Import Tokens SpecTokens Fmt SpecFmt FmtFacts RenderFacts WriterFacts StrFacts
  TokensRun TokensFacts AlgebraFacts.

Lemma pad_text ind lvl : pad ind lvl = map Ch (indent_text ind lvl).
Proof. unfold pad, indent_text. destruct ind; rewrite map_repeat; auto. Qed.
Lemma blanks_text n : blanks n = map Ch (repeat 32%N n).
Proof. unfold blanks. rewrite map_repeat; auto. Qed.

(** Lines starting from a partial line [s]. *)
Definition lines_after ind (s : str) lvl gap l : list str :=
  glue s (sym_lines (layout_from ind false lvl gap l)).

Lemma lines_after_nil ind s lvl gap : lines_after ind s lvl gap [] = [s].
Proof. unfold lines_after; cbn. rewrite app_nil_r; auto. Qed.

Lemma lines_after_skip ind s lvl gap a l : a_text a = [] ->
  lines_after ind s lvl gap (a :: l) = lines_after ind s lvl (gap ++ [a]) l.
Proof. intros H. unfold lines_after; cbn. rewrite H; auto. Qed.

Lemma glue_lines s o : glue s (sym_lines (NL :: o)) = s :: sym_lines o.
Proof. cbn. rewrite app_nil_r; auto. Qed.

Lemma lines_after_text ind s lvl gap a l : a_text a <> [] ->
  lines_after ind s lvl gap (a :: l) =
  let level := (lvl + net gap)%Z in
  if existsb a_line gap then
    s :: [] :: lines_after ind (indent_text ind level ++
       repeat 32%N (count_spaces (after_last a_line gap)) ++ a_text a) level [] l
  else if existsb a_break gap then
    s :: lines_after ind (indent_text ind level ++
       repeat 32%N (count_spaces (after_last a_break gap)) ++ a_text a) level [] l
  else lines_after ind (s ++ repeat 32%N (count_spaces gap) ++ a_text a) level [] l.
Proof.
  intros H. unfold lines_after at 1. cbn [layout_from].
  destruct (a_text a) as [|c t] eqn:T; [congruence|]. rewrite <- T in *. clear T c t.
  cbv zeta. unfold separator. rewrite pad_text, !blanks_text.
  destruct (existsb a_line gap); [|destruct (existsb a_break gap)].
  - cbn [app]. rewrite glue_lines. cbn [sym_lines].
    do 2 f_equal. rewrite !app_assoc, <- !map_app, sym_lines_chars.
    unfold lines_after. rewrite <- !app_assoc. reflexivity.
  - cbn [app]. rewrite glue_lines. f_equal.
    rewrite !app_assoc, <- !map_app, sym_lines_chars.
    unfold lines_after. rewrite <- !app_assoc. reflexivity.
  - rewrite !app_assoc, <- !map_app, sym_lines_chars, glue_glue.
    unfold lines_after. rewrite <- !app_assoc. reflexivity.
Qed.

(** The start. *)
Lemma layout_start ind l : forall gap, 
  layout_from ind true 0 gap l = [] \/
  exists l1 a l2, l = l1 ++ a :: l2 /\ a_text a <> [] /\ Forall (fun x => a_text x = []) l1 /\
    sym_lines (layout_from ind true 0 gap l) =
    lines_after ind (indent_text ind (net (gap ++ l1)) ++
       repeat 32%N (count_spaces (gap ++ l1)) ++ a_text a) (net (gap ++ l1)) [] l2.
Proof.
  induction l as [|a l IH]; intros gap; [left; auto|].
  cbn [layout_from]. destruct (a_text a) as [|c t] eqn:T.
  - destruct (IH (gap ++ [a])) as [->|[l1 [b [l2 [E [H1 [H2 H3]]]]]]]; [left; auto|].
    right. exists (a :: l1), b, l2. subst l. repeat split; auto.
    rewrite H3. rewrite <- app_assoc. auto.
  - right. exists [], a, l. rewrite T. repeat split; auto; try congruence.
    rewrite app_nil_r. cbv zeta. rewrite Z.add_0_l. unfold separator.
    rewrite pad_text, blanks_text, !app_assoc, <- !map_app, sym_lines_chars.
    unfold lines_after. rewrite <- !app_assoc. reflexivity.
Qed.

(** ** No trailing blanks *)

Lemma no_blank_end_app a b : b <> [] -> no_blank_end b -> no_blank_end (a ++ b).
Proof.
  intros Hb H s' c E. destruct b as [|x b _] using rev_ind; [congruence|].
  rewrite app_assoc in E. apply app_inj_tail in E as [_ ->]. eapply H; reflexivity.
Qed.

Lemma lines_no_blank_end ind l : Forall (fun a => no_blank_end (a_text a)) l ->
  forall s lvl gap, no_blank_end s ->
  Forall no_blank_end (lines_after ind s lvl gap l).
Proof.
  induction 1 as [|a l Ha Hl IH]; intros s lvl gap Hs.
  - rewrite lines_after_nil. auto.
  - destruct (list_eq_dec N.eq_dec (a_text a) []) as [E|E].
    + rewrite lines_after_skip by auto. auto.
    + rewrite lines_after_text by auto. cbv zeta.
      assert (N0 : no_blank_end []) by (intros [|] ? ?; discriminate).
      destruct (existsb a_line gap); [|destruct (existsb a_break gap)]; repeat (constructor; auto);
        apply IH; rewrite app_assoc; apply no_blank_end_app; auto.
Qed.

Lemma layout_no_blank_end ind l : Forall (fun a => no_blank_end (a_text a)) l ->
  Forall no_blank_end (sym_lines (layout ind l)).
Proof.
  intros H. unfold layout.
  destruct (layout_start ind l []) as [->|[l1 [a [l2 [E [H1 [H2 H3]]]]]]].
  - constructor; auto. intros [|] ? ?; discriminate.
  - rewrite H3. subst l. apply Forall_app in H as [_ H]. inversion H; subst.
    apply lines_no_blank_end; auto. rewrite app_assoc. apply no_blank_end_app; auto.
Qed.

(** ** Blank lines *)

(** First and last line non-empty, no two adjacent empty lines. *)
Definition good_lines (ls : list str) : Prop :=
  (forall x r, ls = x :: r -> x <> []) /\
  (forall r x, ls = r ++ [x] -> x <> []) /\
  (forall p a b q, ls = p ++ a :: b :: q -> a <> [] \/ b <> []).

Lemma good_cons s ls : s <> [] -> good_lines ls -> ls <> [] -> good_lines (s :: ls).
Proof.
  intros Hs [G1 [G2 G3]] Hl. repeat split.
  - intros x r E; inversion E; subst; auto.
  - intros [|y r] x E; inversion E; subst; [congruence|]. eapply G2; eauto.
  - intros [|y p] a b q E; inversion E; subst; eauto.
Qed.
Lemma good_cons2 s ls : s <> [] -> good_lines ls -> ls <> [] -> good_lines (s :: [] :: ls).
Proof.
  intros Hs [G1 [G2 G3]] Hl. repeat split.
  - intros x r E; inversion E; subst; auto.
  - intros [|y [|z r]] x E; inversion E; subst; [congruence|]. eapply G2; eauto.
  - intros [|y [|z p]] a b q E; inversion E; subst; eauto.
Qed.

Lemma lines_after_nonempty ind s lvl gap l : lines_after ind s lvl gap l <> [].
Proof. unfold lines_after. destruct (sym_lines _); discriminate. Qed.

Lemma lines_good ind l : forall s lvl gap, s <> [] ->
  good_lines (lines_after ind s lvl gap l).
Proof.
  induction l as [|a l IH]; intros s lvl gap Hs.
  - rewrite lines_after_nil. repeat split.
    + intros x r E; inversion E; subst; auto.
    + intros [|y [|? ?]] x E; inversion E; subst; auto.
    + intros [|y [|? ?]] a b q E; inversion E.
  - destruct (list_eq_dec N.eq_dec (a_text a) []) as [E|E].
    + rewrite lines_after_skip by auto. auto.
    + assert (N : forall x, x ++ a_text a <> []).
      { intros x Hx. apply app_eq_nil in Hx as [_ ?]. auto. }
      rewrite lines_after_text by auto. cbv zeta.
      destruct (existsb a_line gap); [|destruct (existsb a_break gap)].
      * apply good_cons2; auto using lines_after_nonempty.
        apply IH. rewrite app_assoc. apply N.
      * apply good_cons; auto using lines_after_nonempty.
        apply IH. rewrite app_assoc. apply N.
      * apply IH. rewrite app_assoc. apply N.
Qed.

Lemma layout_good ind l :
  layout ind l = [] \/ good_lines (sym_lines (layout ind l)).
Proof.
  unfold layout. destruct (layout_start ind l []) as [->|[l1 [a [l2 [E [H1 [H2 H3]]]]]]]; auto.
  right. rewrite H3. apply lines_good. rewrite app_assoc. intros Hx.
  apply app_eq_nil in Hx as [_ ?]; auto.
Qed.

(** ** Lines of concrete text *)

Lemma text_lines_sym o : ~ In (Ch 10) o -> text_lines (text [10%N] o) = sym_lines o.
Proof.
  induction o as [|[c|] o IH]; intros H; auto.
  - cbn [text flat_map sym_text app text_lines sym_lines]. fold (text [10%N] o).
    destruct (N.eqb_spec c 10); [subst; destruct H; left; auto|].
    rewrite IH; auto. intros Hi; apply H; right; auto.
  - cbn [text flat_map sym_text app text_lines sym_lines]. fold (text [10%N] o).
    cbn. rewrite IH; auto. intros Hi; apply H; right; auto.
Qed.

Lemma layout_no_newline ind l : Forall (fun a => no_newline (a_text a)) l ->
  forall first lvl gap, ~ In (Ch 10) (layout_from ind first lvl gap l).
Proof.
  assert (R : forall c n, c <> 10%N -> ~ In (Ch 10) (repeat (Ch c) n)).
  { intros c n H Hi. apply repeat_spec in Hi. congruence. }
  assert (P : forall lvl, ~ In (Ch 10) (pad ind lvl)).
  { intros lvl. unfold pad. destruct ind; apply R; discriminate. }
  assert (B : forall n, ~ In (Ch 10) (blanks n)) by (intros; apply R; discriminate).
  induction 1 as [|a l Ha Hl IH]; intros first lvl gap; cbn [layout_from]; auto.
  destruct (a_text a) as [|c t] eqn:T; auto. rewrite <- T in *.
  rewrite !in_app_iff. intros [H|[H|H]].
  - unfold separator in H. destruct first; [|destruct (existsb a_line gap); [|destruct (existsb a_break gap)]];
      rewrite ?in_app_iff in H; cbn [In] in H.
    all: repeat match goal with H : _ \/ _ |- _ => destruct H end; try congruence; try tauto; eauto.
    all: try (eapply P; eassumption); try (eapply B; eassumption).
  - apply in_map_iff in H as [x [E H]]. inversion E; subst. auto.
  - eapply IH; eauto.
Qed.

(** ** The output at a visible text *)

Lemma after_spec l : forall first lvl gap,
  (forall x, In x gap -> visible x = false) ->
  after first lvl gap l =
  (first && negb (existsb visible l),
   (lvl + (net (gap ++ l) - net (after_last visible (gap ++ l))))%Z,
   after_last visible (gap ++ l)).
Proof.
  assert (AL : forall g, (forall x, In x g -> visible x = false) -> after_last visible g = g).
  { intros g. destruct g as [|x g]; auto. intros H. cbn.
    assert (existsb visible g = false).
    { destruct (existsb visible g) eqn:E; auto. apply existsb_exists in E as [y [E1 E2]].
      rewrite H in E2; [discriminate|right; auto]. }
    rewrite H0, H; auto. left; auto. }
  assert (NA : forall a b, net (a ++ b) = (net a + net b)%Z).
  { induction a; intros; cbn; auto. rewrite IHa; lia. }
  induction l as [|a l IH]; intros first lvl gap Hg; cbn [after existsb].
  - rewrite app_nil_r, AL by auto. rewrite andb_true_r. repeat f_equal. lia.
  - destruct (a_text a) as [|c t] eqn:T.
    + assert (V : visible a = false) by (unfold visible; rewrite T; auto).
      rewrite V, IH.
      * rewrite <- app_assoc. reflexivity.
      * intros x Hx. apply in_app_iff in Hx as [Hx|[<-|[]]]; auto.
    + assert (V : visible a = true) by (unfold visible; rewrite T; auto).
      rewrite V, IH by (intros ? []).
      cbn [orb negb app]. rewrite andb_false_r.
      assert (AL2 : after_last visible (gap ++ a :: l) = after_last visible l).
      { clear -V Hg AL. induction gap as [|x g IHg]; cbn.
        - destruct (existsb visible l) eqn:E; auto. rewrite V.
          symmetry. apply AL. intros y Hy. destruct (visible y) eqn:Vy; auto.
          assert (existsb visible l = true) by (apply existsb_exists; eauto). congruence.
        - rewrite existsb_app. cbn. rewrite V, orb_true_r. cbn. apply IHg.
          intros; apply Hg; right; auto. }
      rewrite AL2, NA. cbn [net].
      assert (A0 : a_indent a = 0%Z) by (destruct a; auto; discriminate).
      rewrite A0. do 2 f_equal. lia.
Qed.

Lemma layout_at ind before a l : visible a = true ->
  layout ind (before ++ a :: l) =
  layout ind before ++
  separator ind (negb (existsb visible before)) (net before) (after_last visible before) ++
  map Ch (a_text a) ++
  layout_from ind false (net before) [] l.
Proof.
  intros V. unfold layout.
  pose proof (layout_from_app (mk_config ind []) before (a :: l) true 0%Z []) as LA.
  cbn [c_indentation] in LA. rewrite LA. rewrite after_spec by (intros ? []).
  cbn [app andb layout_from]. unfold visible in V. destruct (a_text a) as [|c t]; [discriminate|].
  cbv zeta. f_equal.
  assert (EQ : forall z y, (0 + (z - y) + y)%Z = z) by (intros; lia).
  rewrite EQ. reflexivity.
Qed.

(** ** Indentation style *)

Lemma lines_style l : forall lvl0 s lvl gap, exists ls : list (Z * str), forall ind,
  lines_after ind (indent_text ind lvl0 ++ s) lvl gap l =
  map (fun '(lv, r) => indent_text ind lv ++ r) ls.
Proof.
  induction l as [|a l IH]; intros lvl0 s lvl gap.
  - exists [(lvl0, s)]. intros ind. rewrite lines_after_nil. reflexivity.
  - destruct (list_eq_dec N.eq_dec (a_text a) []) as [E|E].
    + destruct (IH lvl0 s lvl (gap ++ [a])) as [ls H]. exists ls. intros ind.
      rewrite lines_after_skip by auto. auto.
    + set (lv := (lvl + net gap)%Z).
      assert (Z0 : forall ind, indent_text ind 0 ++ [] = []).
      { intros [w|]; unfold indent_text; cbn; auto. }
      destruct (existsb a_line gap) eqn:E1; [|destruct (existsb a_break gap) eqn:E2].
      * destruct (IH lv (repeat 32%N (count_spaces (after_last a_line gap)) ++ a_text a) lv []) as [ls H].
        exists ((lvl0, s) :: (0%Z, []) :: ls). intros ind.
        rewrite lines_after_text, E1 by auto. cbv zeta. fold lv. rewrite H.
        cbn [map]. rewrite Z0. reflexivity.
      * destruct (IH lv (repeat 32%N (count_spaces (after_last a_break gap)) ++ a_text a) lv []) as [ls H].
        exists ((lvl0, s) :: ls). intros ind.
        rewrite lines_after_text, E1, E2 by auto. cbv zeta. fold lv. rewrite H. reflexivity.
      * destruct (IH lvl0 (s ++ repeat 32%N (count_spaces gap) ++ a_text a) lv []) as [ls H].
        exists ls. intros ind. rewrite lines_after_text, E1, E2 by auto. cbv zeta. fold lv.
        rewrite <- H. rewrite <- !app_assoc. reflexivity.
Qed.

Lemma layout_style l : exists ls : list (Z * str), forall ind,
  sym_lines (layout ind l) = map (fun '(lv, r) => indent_text ind lv ++ r) ls.
Proof.
  assert (D : existsb visible l = true \/ existsb visible l = false)
    by (destruct (existsb visible l); auto).
  destruct D as [V|V].
  - assert (S : exists l1 a l2, l = l1 ++ a :: l2 /\ visible a = true /\ Forall (fun x => visible x = false) l1).
    { clear -V. induction l as [|a l IH]; [discriminate|]. cbn in V.
      destruct (visible a) eqn:Va.
      - exists [], a, l; auto.
      - destruct (IH V) as [l1 [b [l2 [-> [H1 H2]]]]]. exists (a :: l1), b, l2; auto. }
    destruct S as [l1 [a [l2 [-> [Va H]]]]].
    destruct (lines_style l2 (net l1) (repeat 32%N (count_spaces l1) ++ a_text a) (net l1) []) as [ls HL].
    exists ls. intros ind. rewrite <- HL. rewrite layout_at by auto.
    assert (EX : existsb visible l1 = false).
    { clear -H. induction H; cbn; auto. rewrite H; auto. }
    assert (AL : after_last visible l1 = l1).
    { destruct l1 as [|x l1]; auto. cbn in *. apply orb_false_iff in EX as [E1 E2]. rewrite E1, E2; auto. }
    assert (L0 : layout ind l1 = []).
    { unfold layout. generalize (@nil atom) as g. clear -H. induction H; intros g; cbn; auto.
      unfold visible in H. destruct (a_text x); [auto|discriminate]. }
    rewrite EX, AL, L0. cbn [app negb separator].
    rewrite pad_text, blanks_text, !app_assoc, <- !map_app, sym_lines_chars.
    unfold lines_after. rewrite <- !app_assoc. reflexivity.
  - exists [(0%Z, [])]. intros ind.
    assert (L0 : layout ind l = []).
    { unfold layout. generalize (@nil atom) as g. induction l as [|a l IH]; intros g; cbn; auto.
      cbn in V. apply orb_false_iff in V as [V1 V2].
      unfold visible in V1. destruct (a_text a); [auto|discriminate]. }
    rewrite L0. destruct ind; reflexivity.
Qed.

(** The end of a layout is the last visible text. *)
Lemma layout_end ind before a l : visible a = true -> Forall (fun x => visible x = false) l ->
  exists o, layout ind (before ++ a :: l) = o ++ map Ch (a_text a).
Proof.
  intros V H. rewrite layout_at by auto.
  assert (L0 : forall f lv g, layout_from ind f lv g l = []).
  { clear -H. induction H; intros; cbn; auto.
    unfold visible in H. destruct (a_text x); [auto|discriminate]. }
  rewrite L0, app_nil_r. eexists. rewrite app_assoc. reflexivity.
Qed.

(** ** Registrations *)

Section Register.
Context {LI : Type} (ops : lang_ops LI) (cfg : config).
Notation E := (E ops cfg).
Notation strip := (filter (@not_register LI)).

Definition stripped (r : list atom * list (item LI) * bool) :=
  let '(l, rest, ok) := r in (l, strip rest, ok).

Lemma stripped_pre l r : stripped (pre l r) = pre l (stripped r).
Proof. destruct r as [[? ?] ?]; reflexivity. Qed.

Lemma quiet_tail (x : item LI) xs : quiet_evals (x :: xs) -> quiet_evals xs.
Proof. intros H pre post E. apply (H (x :: pre) post). rewrite E; auto. Qed.

Lemma E_suffix n : forall cursor, length cursor <= n -> forall eoc stack,
  exists pre, cursor = pre ++ snd (fst (E eoc stack cursor)).
Proof.
  induction n as [|n IH]; intros cursor Hl eoc stack.
  { destruct cursor; [|cbn in Hl; lia]. exists []. rewrite E_nil; auto. }
  destruct cursor as [|it rest]; [exists []; rewrite E_nil; auto|].
  destruct stack as [|head below]; [exists [it]; reflexivity|].
  cbn [length] in Hl.
  assert (K : forall rest' eoc stack l, length rest' <= n ->
     (exists p, it :: rest = p ++ rest') ->
     exists p, it :: rest = p ++ snd (fst (RenderFacts.pre l (E eoc stack rest')))).
  { intros rest' eoc' stack' l Hl' [p Hp]. destruct (IH rest' Hl' eoc' stack') as [q Hq].
    exists (p ++ q). rewrite <- app_assoc.
    destruct (E eoc' stack' rest') as [[? ?] ?]. cbn in *. congruence. }
  assert (K1 : forall eoc stack l,
     exists p, it :: rest = p ++ snd (fst (RenderFacts.pre l (E eoc stack rest)))).
  { intros. apply K; [lia|]. exists [it]; auto. }
  destruct (plain it) eqn:P.
  { rewrite E_plain by auto. apply K1. }
  destruct it as [| | | | | | |e| | |]; try discriminate P.
  - destruct (in_quote head) eqn:Q.
    + destruct e; [rewrite E_reject_open by auto; exists [OpenQuote true]; auto|].
      rewrite E_nested by auto.
      destruct (IH rest ltac:(lia) true [mk_frame false false false]) as [p Hp].
      pose proof (E_rest ops cfg true [mk_frame false false false] rest) as R.
      destruct (E true [mk_frame false false false] rest) as [[l rest'] [|]]; cbn in Hp, R.
      * apply K; [lia|]. exists (OpenQuote false :: p). rewrite Hp; auto.
      * exists (OpenQuote false :: p). cbn. rewrite <- Hp; auto.
    + rewrite E_open by auto. apply K1.
  - destruct eoc.
    + rewrite E_close_eoc. exists [CloseQuote]; auto.
    + destruct (in_quote head) eqn:Q.
      * rewrite E_close by auto. apply K1.
      * rewrite E_reject_close by auto. exists [CloseQuote]; auto.
  - destruct (in_quote head) eqn:Q.
    + assert (D : (exists s rest', rest = Literal s :: CloseEval :: rest') \/
         (forall s rest', rest <> Literal s :: CloseEval :: rest')).
      { clear. destruct rest as [|[s|? ?|? ?| | | |?|?| | |] [|[?|? ?|? ?| | | |?|?| | |] rest']];
          try (right; discriminate). left; eauto. }
      destruct D as [[s [rest' ->]]|D].
      * rewrite E_eval_literal by auto. cbn in Hl. apply K; [lia|].
        exists [OpenEval; Literal s; CloseEval]; auto.
      * rewrite E_eval by auto. apply K1.
    + rewrite E_reject_eval by auto. exists [OpenEval]; auto.
  - destruct (end_on_eval head) eqn:Ee.
    + rewrite E_close_eval by auto. apply K1.
    + rewrite E_reject_close_eval by auto. exists [CloseEval]; auto.
Qed.

Lemma quiet_suffix (p xs : list (item LI)) : quiet_evals (p ++ xs) -> quiet_evals xs.
Proof. induction p; cbn; auto. intros H. apply IHp. eapply quiet_tail; eauto. Qed.

Lemma E_strip n : forall cursor, length cursor <= n -> quiet_evals cursor -> forall eoc stack,
  valid_stack stack ->
  E eoc stack (strip cursor) = stripped (E eoc stack cursor).
Proof.
  induction n as [|n IH]; intros cursor Hl QE eoc stack V.
  { destruct cursor; [|cbn in Hl; lia]. reflexivity. }
  destruct cursor as [|it rest]; [reflexivity|].
  destruct stack as [|head below]; [destruct V|].
  cbn [length] in Hl.
  assert (Ht := quiet_tail _ _ QE).
  assert (V2 : forall q e, valid_stack (mk_frame q e (end_on_eval head) :: below))
    by (intros; destruct below; cbn in *; auto).
  assert (V3 : valid_stack (mk_frame false false true :: head :: below)) by (split; auto).
  assert (V4 : end_on_eval head = true -> valid_stack below).
  { destruct below; cbn in V; [congruence|tauto]. }
  destruct (not_register it) eqn:R.
  2:{ cbn [filter]. rewrite R. rewrite E_plain by (destruct it; auto; discriminate).
      rewrite stripped_pre, <- IH by (cbn; auto; lia).
      destruct it; try discriminate R. cbn. destruct (in_quote head); rewrite pre_nil; auto. }
  cbn [filter]. rewrite R.
  destruct (plain it) eqn:P.
  { rewrite !E_plain, stripped_pre by auto. rewrite IH by (cbn; auto; lia). auto. }
  destruct it as [| | | | | | |e| | |]; try discriminate P.
  - destruct (in_quote head) eqn:Q.
    + destruct e; [rewrite !E_reject_open by auto; reflexivity|].
      rewrite !E_nested by auto. rewrite IH by (cbn; auto; lia).
      pose proof (E_suffix (length rest) rest (le_n _) true [mk_frame false false false]) as [p S].
      pose proof (E_rest ops cfg true [mk_frame false false false] rest) as Rr.
      destruct (E true [mk_frame false false false] rest) as [[l rest'] [|]]; cbn [stripped fst snd] in *; auto.
      rewrite stripped_pre. f_equal. apply IH; [lia| |auto].
      rewrite S in Ht. eapply quiet_suffix; eauto.
    + rewrite !E_open, stripped_pre by auto. rewrite IH by (cbn; auto; lia). auto.
  - destruct eoc; [rewrite !E_close_eoc; reflexivity|].
    destruct (in_quote head) eqn:Q.
    + rewrite !E_close, stripped_pre by auto. rewrite IH by (cbn; auto; lia). auto.
    + rewrite !E_reject_close by auto. reflexivity.
  - destruct (in_quote head) eqn:Q.
    + pose proof (QE [] rest eq_refl) as QQ.
      assert (D : (exists s rest', rest = Literal s :: CloseEval :: rest') \/
         (forall s rest', rest <> Literal s :: CloseEval :: rest')).
      { clear. destruct rest as [|[s|? ?|? ?| | | |?|?| | |] [|[?|? ?|? ?| | | |?|?| | |] rest']];
          try (right; discriminate). left; eauto. }
      destruct D as [[s [rest' ->]]|D].
      * cbn [filter not_register]. rewrite !E_eval_literal, stripped_pre by auto.
        cbn in Hl. rewrite IH; auto; [lia|]. exact (quiet_tail _ _ (quiet_tail _ _ Ht)).
      * rewrite (E_eval _ _ _ _ _ rest) by auto. rewrite E_eval; auto.
        -- rewrite stripped_pre, IH by (auto; lia). auto.
        -- intros s rest' HE.
           destruct rest as [|x [|y rest]]; cbn in HE; try discriminate.
           ++ destruct x; try discriminate; try contradiction.
           ++ destruct x; cbn in HE; try discriminate; try contradiction.
              destruct y; cbn in HE; try discriminate; try contradiction.
              inversion HE; subst. eapply D; reflexivity.
    + rewrite !E_reject_eval by auto. reflexivity.
  - destruct (end_on_eval head) eqn:Ee.
    + rewrite !E_close_eval, stripped_pre by auto. rewrite IH by (cbn; auto; lia). auto.
    + rewrite !E_reject_close_eval by auto. reflexivity.
Qed.

Lemma format_strip {W} (wr : writer W) its st : quiet_evals its ->
  format_items ops cfg wr (strip its) st = format_items ops cfg wr its st.
Proof.
  intros Q. pose proof (format_items_elab ops cfg wr its st) as F1.
  pose proof (format_items_elab ops cfg wr (strip its) st) as F2.
  rewrite (E_strip (length its)) in F2 by (cbn; auto).
  destruct (E false [mk_frame false false false] its) as [[l rest] ok]. cbn in F2.
  rewrite F1, F2; auto.
Qed.

End Register.
