(** * Lemmas: the source of an assembled program has blocks. *)
From Coq Require Import Lia.
From Verif Require Import Str Values Fmt SpecFmt Macro SpecMacro MacroLines SpecWords SpecSilent SilentFacts SpecReread SpecOffside OffsideFacts SpecAssembled SparseFacts RespaceFacts AssembledFacts SpecOutline OutlineFacts.

(** ** Columns that fit *)
Fixpoint fit_after (ss cols : list nat) : Prop :=
  match cols with
  | [] => True
  | c :: cols' => may_start ss c /\ fit_after (ss ++ [c]) cols'
  end.
Lemma fit_all cols : forall ss, (forall before c after, cols = before ++ c :: after -> may_start (ss ++ before) c) -> fit_after ss cols.
Proof.
  induction cols as [|c cols IH]; intros ss H; [exact I|]. split; [specialize (H [] c cols eq_refl); rewrite app_nil_r in H; exact H|].
  apply IH. intros before d after ->. rewrite <- app_assoc. apply (H (c :: before) d after). reflexivity.
Qed.
Lemma starts_fit_after c cs : starts_fit (c :: cs) -> fit_after [p_col (c_start c)] (starts_after (p_line (c_end c)) cs).
Proof. intros F. apply fit_all. intros before d after E. apply (F (p_col (c_start c) :: before) d after); [cbn; rewrite E; reflexivity|discriminate]. Qed.
Lemma may_start_same ss vs col : ss <> [] -> vs <> [] -> enclosing ss = enclosing vs -> may_start ss col -> may_start vs col.
Proof.
  intros N1 N2 E M. pose proof (start_enclosing ss col N1) as S1. pose proof (start_enclosing vs col N2) as S2. rewrite E in S1.
  destruct (start_line col (enclosing vs)) as [[es o]|]; [apply S2|contradiction].
Qed.

Section Kept.
Context {A : Type}.
Lemma kept_fit (ls : list (line_of (option A))) : aligned_empty ls -> forall ss vs k, ss <> [] -> vs <> [] ->
  (enclosing ss = enclosing vs \/ exists l ls', ls = l :: ls' /\ enclosing ss = enclosing (vs ++ [ln_col l]) /\ may_start vs (ln_col l)) ->
  fit_after ss (map ln_col ls) -> fit_after vs (map ln_col (kept_lines k ls)).
Proof.
  induction ls as [|l ls IH]; intros AL ss vs k N1 N2 H F; [exact I|]. cbn [map fit_after] in F. destruct F as [F1 F2].
  assert (ST : enclosing (ss ++ [ln_col l]) = enclosing (vs ++ [ln_col l])).
  { destruct H as [H|(l0 & ls0 & EQ & H & _)]; [apply enclosing_step; exact H|]. injection EQ as <- <-. apply enclosing_again. exact H. }
  assert (MS : may_start vs (ln_col l)).
  { destruct H as [H|(l0 & ls0 & EQ & _ & H)]; [eapply may_start_same; [| |exact H|exact F1]; auto|]. injection EQ as <- <-. exact H. }
  assert (AL' : aligned_empty ls) by (intros b x x' a EQ K; apply (AL (l :: b) x x' a); [rewrite EQ; reflexivity|exact K]).
  cbn [kept_lines]. destruct (kept_line l) as [l'|] eqn:K.
  - cbn [map ln_col fit_after]. rewrite (kept_line_col l l' K). split; [exact MS|]. apply (IH AL' (ss ++ [ln_col l])); auto using snoc_some.
  - destruct ls as [|l2 ls]; [exact I|]. apply (IH AL' (ss ++ [ln_col l])); auto using snoc_some. right. exists l2, ls.
    rewrite <- (AL [] l l2 ls eq_refl K). auto.
Qed.
End Kept.

(** ** Positions *)
Section Positions.
Context {X : Type}.
Lemma after_columns (l : list (cursor * X)) : forall prev, map ln_col (snd (lines_after prev l)) = starts_after (p_line prev) (map fst l).
Proof.
  induction l as [|[c x] l IH]; intros prev; [reflexivity|]. cbn [lines_after map fst starts_after]. specialize (IH (c_end c)). destruct (lines_after (c_end c) l) as [more ls].
  rewrite (Nat.eqb_sym (p_line prev)). destruct (p_line (c_start c) =? p_line prev); cbn [snd map ln_col app] in *; rewrite <- IH; reflexivity.
Qed.
Lemma source_columns (l : list (cursor * X)) : map ln_col (source_lines l) = line_starts (map fst l).
Proof.
  destruct l as [|[c x] l]; [reflexivity|]. cbn [source_lines map fst line_starts]. pose proof (after_columns l (c_end c)) as H. destruct (lines_after (c_end c) l) as [more ls].
  cbn [map ln_col snd] in *. rewrite H. reflexivity.
Qed.
Lemma put_row_starts (m : list (nat * (cursor * X))) rest : forall prev,
  starts_after (p_line prev) (map fst (put_row prev m) ++ rest) = starts_after (p_line (c_end (last (map fst (put_row prev m)) (mk_cursor prev prev)))) rest.
Proof.
  induction m as [|[g [c x]] m IH]; intros prev; [reflexivity|]. cbn [put_row map fst app starts_after]. cbv zeta. set (c' := moved (p_line prev) (p_col prev + g) c).
  change (p_line (c_start c')) with (p_line prev). rewrite Nat.eqb_refl. cbn [app]. rewrite IH.
  destruct (put_row (c_end c') m) as [|y m'] eqn:R; [reflexivity|]. f_equal. f_equal. f_equal. cbn [map]. generalize (map fst m'). intros z.
  change (last (fst y :: z) (mk_cursor (c_end c') (c_end c')) = last (fst y :: z) (mk_cursor prev prev)). clear. revert y. induction z as [|a z IH]; intros y; [reflexivity|].
  change (last (a :: z) (mk_cursor (c_end c') (c_end c')) = last (a :: z) (mk_cursor prev prev)). destruct z; [reflexivity|]. apply (IH (a, snd y)).
Qed.
End Positions.
Lemma last_default {A} (f : A -> pos) (l : list A) a b : f a = f b -> f (last l a) = f (last l b).
Proof. intros H. induction l as [|x l IH]; [exact H|]. destruct l; [reflexivity|exact IH]. Qed.
Lemma put_lines_starts {X} (ls : list (line_of (cursor * X))) : forall row r, r < row -> starts_after r (map fst (put_lines row ls)) = map ln_col ls.
Proof.
  induction ls as [|[k col [c x] more] ls IH]; intros row r R; [reflexivity|]. cbn [put_lines ln_word ln_empty ln_col ln_more map fst starts_after]. cbv zeta.
  set (c' := moved (row + k) col c). change (c_start c') with (mk_pos (row + k) col). cbn [p_line p_col].
  destruct (Nat.eqb_spec r (row + k)); [lia|]. cbn [app]. f_equal. rewrite map_app, put_row_starts.
  rewrite (last_default c_end _ (mk_cursor (c_end c') (c_end c')) c' eq_refl). apply IH. lia.
Qed.
Lemma put_starts {X} (ls : list (line_of (cursor * X))) row : line_starts (map fst (put_lines row ls)) = map ln_col ls.
Proof.
  destruct ls as [|[k col [c x] more] ls]; [reflexivity|]. cbn [put_lines ln_word ln_empty ln_col ln_more map fst line_starts]. cbv zeta.
  set (c' := moved (row + k) col c). change (c_start c') with (mk_pos (row + k) col). cbn [p_col]. f_equal. rewrite map_app, put_row_starts.
  rewrite (last_default c_end _ (mk_cursor (c_end c') (c_end c')) c' eq_refl). apply put_lines_starts. lia.
Qed.

(** ** Words *)
Section Words.
Context {LI : Type} (literal : str -> str) (reference : LI -> str).
Notation marked := (fun '(c, (w, x)) => (c, piece_marks literal reference w x)).
Definition has_marks (y : str * piece LI) : Prop := (exists m, piece_marks literal reference (fst y) (snd y) = Some m) /\ sound (snd y).
Definition fitting (l : program LI) : Prop := Forall (fun x => has_marks (snd x)) l /\ starts_fit (map fst l) /\ ends_fit l.
Lemma fitting_sound (l : program LI) : fitting l -> sound (Fragment l).
Proof.
  intros (M & _ & EF). split; [exact EF|]. clear EF. induction M as [|[c [w x]] l [_ S] _ IH]; [exact I|]. split; [exact S|exact IH].
Qed.

Lemma following_exist (l : program LI) : Forall (fun x => has_marks (snd x)) l -> forall before prev, before <> [] ->
  fit_after before (starts_after (p_line prev) (map fst l)) ->
  exists m, following_marks (enclosing before) prev (map marked l) = Some (m, enclosing (before ++ starts_after (p_line prev) (map fst l))).
Proof.
  induction 1 as [|[c [w x]] l [[mx MX] _] _ IH]; intros before prev NB F; cbn [map fst snd following_marks starts_after] in *.
  - rewrite app_nil_r. eauto.
  - rewrite (Nat.eqb_sym (p_line prev)) in *. rewrite MX. destruct (p_line (c_start c) =? p_line prev); cbn [app] in *.
    + destruct (IH before (c_end c) NB F) as (m & ->). eauto.
    + cbn [fit_after] in F. destruct F as [F1 F2]. pose proof (start_enclosing before (p_col (c_start c)) NB) as S.
      destruct (start_line (p_col (c_start c)) (enclosing before)) as [[es o]|]; [|contradiction]. destruct S as (_ & -> & _).
      destruct (IH (before ++ [p_col (c_start c)]) (c_end c) (snoc_some _ _) F2) as (m & ->). rewrite <- app_assoc. eauto.
Qed.
Lemma words_exist (l : program LI) : fitting l -> l <> [] -> exists m, words_marks (map marked l) = Some (m, enclosing (line_starts (map fst l))).
Proof.
  intros (M & F & _) N. destruct M as [|[c [w x]] l [[mx MX] _] M]; [congruence|]. cbn [map fst snd words_marks line_starts] in *. rewrite MX.
  destruct (following_exist l M [p_col (c_start c)] (c_end c) ltac:(discriminate) (starts_fit_after _ _ F)) as (m & H).
  cbn [enclosing forallb app] in H. rewrite H. eauto.
Qed.
Lemma inner_exist (l : program LI) : fitting l -> l <> [] -> exists m, inner_marks (map marked l) = Some m.
Proof. intros F N. destruct (words_exist l F N) as (m & H). unfold inner_marks. rewrite H. eauto. Qed.
Lemma joined_exist sep ms : Forall (fun m => exists x, m = Some x) ms -> exists m, joined_marks sep ms = Some m.
Proof.
  induction 1 as [|x ms [m ->] F (m' & IH)]; [eexists; reflexivity|]. destruct ms as [|y ms]; [eexists; reflexivity|].
  change (joined_marks sep (Some m :: y :: ms)) with (match joined_marks sep (y :: ms) with Some m' => Some (m ++ sep ++ m') | None => None end). rewrite IH. eauto.
Qed.

(** What is left over of a source. *)
Lemma left_over_words (l : sparse LI) (P : str * piece LI -> Prop) :
  Forall (fun x => match snd (snd x) with Some b => P (fst (snd x), b) | None => True end) l -> Forall (fun x => P (snd x)) (left_over l).
Proof.
  intros F. destruct l as [|x l]; [constructor|]. unfold left_over. destruct x as [c y].
  set (kl := kept_lines 0 (sparse_lines ((c, y) :: l))).
  assert (G : Forall P (map snd (put_lines (p_line (c_start c)) kl))).
  { rewrite put_words. apply Forall_map, Forall_forall. intros z Z. apply in_kept_words in Z. unfold sparse_lines in Z. rewrite words_map, source_words in Z.
    apply in_map_iff in Z as ([c0 [w0 [b0|]]] & E0 & I0); cbn in E0; [|discriminate]. injection E0 as <-. rewrite Forall_forall in F. apply (F _ I0). }
  rewrite Forall_map in G. exact G.
Qed.
Lemma left_over_fit (l : sparse LI) : may_delete l -> starts_fit (map fst l) -> starts_fit (map fst (left_over l)).
Proof.
  intros ((AL & _) & (x & l' & -> & PF) & _) F. destruct x as [c [w [b|]]]; [|cbn in PF; congruence].
  intros before col after H N. unfold left_over in H. rewrite put_starts in H.
  assert (C : map ln_col (sparse_lines ((c, (w, Some b)) :: l')) = line_starts (map fst ((c, (w, Some b)) :: l'))) by (unfold sparse_lines; rewrite map_map; apply source_columns).
  destruct (sparse_lines ((c, (w, Some b)) :: l')) as [|s0 sl] eqn:SL; [discriminate C|]. cbn [map fst line_starts] in C. injection C as C0 C1.
  cbn [map fst] in F. apply starts_fit_after in F. rewrite <- C0, <- C1 in F. cbn [kept_lines] in H. destruct (kept_line s0) as [l0|] eqn:K.
  - cbn [map ln_col] in H. destruct before as [|b0 before]; [congruence|]. cbn [app] in H. injection H as H0 H.
    rewrite (kept_line_col _ _ K) in H0. subst b0.
    assert (AL' : aligned_empty sl) by (intros b1 x x' a EQ KX; apply (AL (s0 :: b1) x x' a); [rewrite EQ; reflexivity|exact KX]).
    pose proof (kept_fit sl AL' [ln_col s0] [ln_col s0] 0 ltac:(discriminate) ltac:(discriminate) (or_introl eq_refl) F) as G.
    assert (Z : forall cols ss, fit_after ss cols -> forall pre d post, cols = pre ++ d :: post -> may_start (ss ++ pre) d).
    { clear. induction cols as [|c cols IH]; intros ss G pre d post E; [destruct pre; discriminate|]. cbn [fit_after] in G. destruct G as [G1 G2]. destruct pre as [|p pre]; cbn [app] in E; injection E as -> ->.
      - rewrite app_nil_r. exact G1.
      - change (p :: pre) with ([p] ++ pre). rewrite app_assoc. eapply IH; [exact G2|reflexivity]. }
    eapply (Z _ _ G before col after H).
  - exfalso. apply kept_none in K. unfold sparse_lines in SL. cbn [source_lines] in SL. destruct (lines_after (c_end c) l') as [more ls]. cbn [map map_line ln_word] in SL.
    injection SL as <- _. inversion K as [|? ? K1 _]; subst. discriminate K1.
Qed.

(** ** Programs *)
Context {E : Type}.
Lemma outline_exists :
  (forall c x e w b e', @stands_for LI E c x e w b e' -> has_marks (w, b)) /\
  (forall ts e l e', @all_stand LI E ts e l e' -> Forall (fun x => has_marks (snd x)) l) /\
  (forall ts e l e', @all_may_stand LI E ts e l e' -> Forall (fun x => match snd (snd x) with Some b => has_marks (fst (snd x), b) | None => True end) l) /\
  (forall qs e l e', @quotes_program LI E qs e l e' -> fitting l) /\
  (forall body bs e ls e', @quotes_rounds LI E body bs e ls e' -> Forall (fun l => fitting l /\ l <> []) ls).
Proof.
  apply assembled_ind; intros; try solve [split; [eexists; reflexivity|exact I] | constructor; auto | constructor; cbn; auto].
  - split; [apply inner_exist; auto|apply fitting_sound; assumption].
  - split; [apply inner_exist; auto|apply fitting_sound; assumption].
  - split; [apply inner_exist; auto|apply fitting_sound; assumption].
  - split.
    + cbn [fst snd piece_marks]. apply joined_exist. rewrite Forall_map. match goal with H : Forall (fun l => fitting l /\ l <> []) ls |- _ => refine (Forall_impl _ _ H) end. intros l0 [F0 W0]. apply inner_exist; auto.
    + cbn [snd sound]. match goal with H : Forall whole ls |- _ => rename H into K end.
      match goal with H : Forall (fun l => fitting l /\ l <> []) ls |- _ => clear -H K; induction H as [|l0 ls [F0 _] _ IH] end; [exact I|]. inversion K; subst.
      split; [|apply IH; assumption]. split; [left; match goal with H : whole l0 |- _ => exact (proj2 H) end|]. exact (fitting_sound l0 F0).
  - split.
    + cbn [fst snd piece_marks]. apply joined_exist. rewrite Forall_map. match goal with H : Forall (fun l => fitting l /\ l <> []) ls |- _ => refine (Forall_impl _ _ H) end. intros l0 [F0 W0]. apply inner_exist; auto.
    + cbn [snd sound]. match goal with H : Forall (fun l => program_depth l <> 0) ls |- _ => rename H into K end.
      assert (B : exists k, s_then s = Some k /\ k <> KSpace) by (match goal with H : breaks _ _ |- _ => destruct H as [|? ? ? k1 ? K1]; [exists KPush; split; [reflexivity|discriminate]|exists k1; split; [reflexivity|exact K1]] end).
      match goal with H : Forall (fun l => fitting l /\ l <> []) ls |- _ => clear -H K B; induction H as [|l0 ls [F0 _] _ IH] end; [exact I|]. inversion K; subst.
      split; [|apply IH; assumption]. split; [right; exact B|]. exact (fitting_sound l0 F0).
  - split; [apply left_over_words; assumption|]. split; [apply left_over_fit; assumption|].
    match goal with H : all_may_stand _ _ _ _ |- _ => apply shallow in H; rename H into SH end.
    pose proof (left_over_words l (fun y => piece_depth (snd y) = 0) SH) as Z. destruct (left_over l) as [|x l0]; [exact I|]. unfold ends_fit. apply flat_ends. rewrite Forall_map. exact Z.
Qed.
Lemma program_has_blocks (qs : list (quoted_item LI E)) e l e' : quotes_program qs e l e' -> l <> [] ->
  (exists es, program_blocks literal reference l = Some es) /\ sound (Fragment l).
Proof.
  intros Q N. pose proof (proj1 (proj2 (proj2 (proj2 outline_exists))) _ _ _ _ Q) as F. split; [|apply fitting_sound; exact F].
  destruct (words_exist l F N) as (m & H). unfold program_blocks. rewrite H. eauto.
Qed.
End Words.
