(** * Lemmas: sources with words that show nothing. *)
From Verif Require Import Str Tokens SpecTokens Values Fmt SpecFmt Macro SpecMacro MacroFacts MacroSem MacroTokens MacroLines SpecWords WordsFacts SpecSilent SilentFacts SpecReread RereadFacts RespaceFacts SpecAssembled.
From Coq Require Import Lia.

(** ** Lines of other words *)
Section Natural.
Context {A B : Type} (g : A -> B).
Notation og := (map_line (option_map g)).
Lemma kept_map ws : forall k, kept k (map (fun '(n, w) => (n, option_map g w)) ws) = map (fun '(n, w) => (n, g w)) (kept k ws).
Proof. induction ws as [|[n [w|]] ws IH]; intros k; [reflexivity| |]; cbn; rewrite IH; reflexivity. Qed.
Lemma line_words_map (l : line_of (option A)) : line_words (og l) = map (fun '(n, w) => (n, option_map g w)) (line_words l).
Proof. reflexivity. Qed.
Lemma kept_line_map (l : line_of (option A)) : kept_line (og l) = option_map (map_line g) (kept_line l).
Proof.
  unfold kept_line. rewrite line_words_map, kept_map. destruct (kept 0 (line_words l)) as [|[n w] more]; reflexivity.
Qed.
Lemma kept_lines_map (ls : list (line_of (option A))) : forall k, kept_lines k (map og ls) = map (map_line g) (kept_lines k ls).
Proof.
  induction ls as [|l ls IH]; intros k; [reflexivity|]. cbn [map kept_lines]. rewrite kept_line_map. destruct (kept_line l) as [l'|]; cbn [option_map map]; rewrite IH; reflexivity.
Qed.
Lemma starts_tight_map (ls : list (line_of (option A))) : starts_tight (map og ls) <-> starts_tight ls.
Proof.
  induction ls as [|l ls IH]; [reflexivity|]. cbn [map starts_tight]. rewrite kept_line_map.
  assert (X : Forall (fun '(k, _) => k = 0) (ln_more (og l)) <-> Forall (fun '(k, _) => k = 0) (ln_more l)).
  { cbn [map_line ln_more]. rewrite Forall_map. split; apply Forall_impl; intros [k w]; auto. }
  rewrite X, IH. destruct (kept_line l); cbn [option_map]; split; intros H K; try discriminate K; auto.
Qed.
Lemma removable_map (ls : list (line_of (option A))) : removable (map og ls) <-> removable ls.
Proof.
  unfold removable. rewrite starts_tight_map, Forall_map.
  assert (X : aligned_empty (map og ls) <-> aligned_empty ls).
  { split.
    - intros H before l l' after -> K. apply (H (map og before) (og l) (og l') (map og after)); [rewrite map_app; reflexivity|rewrite kept_line_map, K; reflexivity].
    - intros H before l l' after EQ K. apply map_eq_app in EQ as (b & r & -> & <- & EQ). destruct r as [|x [|x' r]]; try discriminate EQ. injection EQ as <- <- <-.
      rewrite kept_line_map in K. cbn [map_line ln_col]. apply (H b x x' r eq_refl). destruct (kept_line x); [discriminate K|reflexivity]. }
  rewrite X. assert (Y : Forall (fun x => starts_kept (og x)) ls <-> Forall starts_kept ls).
  { split; apply Forall_impl; intros l; unfold starts_kept; rewrite line_words_map, kept_map; destruct (kept 0 (line_words l)) as [|[k w] r]; auto. }
  rewrite Y. reflexivity.
Qed.
End Natural.
Lemma in_kept_word {A} (w : A) ws : forall g, In w (map snd (kept g ws)) -> In (Some w) (map snd ws).
Proof.
  induction ws as [|[g' [x|]] ws IH]; intros g H; cbn in *; [destruct H| |].
  - destruct H as [->|H]; [left; reflexivity|right; eapply IH; exact H].
  - right. eapply IH. exact H.
Qed.
Lemma in_kept_words {A} (w : A) (ls : list (line_of (option A))) : forall k, In w (flat_map words_of (kept_lines k ls)) -> In (Some w) (flat_map words_of ls).
Proof.
  induction ls as [|l ls IH]; intros k H; cbn [kept_lines flat_map] in *; [destruct H|]. apply in_or_app.
  destruct (kept_line l) as [l'|] eqn:K; [|right; eapply IH; exact H]. cbn [flat_map] in H. apply in_app_or in H as [H|H]; [left|right; eapply IH; exact H].
  unfold kept_line in K. destruct (kept 0 (line_words l)) as [|[g x] more] eqn:KE; [discriminate|]. injection K as <-. cbn in H.
  change (In (Some w) (map snd (line_words l))). eapply in_kept_word. rewrite KE. exact H.
Qed.

(** ** Levels *)
Section Levels.
Context {A : Type}.
Lemma kept_line_col (l : line_of (option A)) l' : kept_line l = Some l' -> ln_col l' = ln_col l.
Proof. unfold kept_line. destruct (kept 0 (line_words l)) as [|[g x] more]; [discriminate|]. intros H. injection H as <-. reflexivity. Qed.
Lemma kept_none (l : line_of (option A)) : kept_line l = None -> Forall (fun w => w = None) (words_of l).
Proof.
  unfold kept_line. change (words_of l) with (map snd (line_words l)). generalize (line_words l) as ws.
  assert (X : forall ws g, kept g ws = [] -> Forall (fun w : option A => w = None) (map snd ws)).
  { induction ws as [|[g' [x|]] ws IH]; intros g H; cbn in *; [constructor|discriminate|]. constructor; [reflexivity|eapply IH; exact H]. }
  intros ws H. destruct (kept 0 ws) as [|[g x] more] eqn:K; [eapply X; exact K|discriminate].
Qed.
Lemma kept_columns (ls : list (line_of (option A))) : aligned_empty ls ->
  (ls <> [] -> kept_line (last ls (mk_line_of 0 0 None [])) <> None) ->
  forall ss vs k, ss <> [] -> vs <> [] ->
  (enclosing ss = enclosing vs \/ (exists l ls', ls = l :: ls' /\ enclosing ss = enclosing (vs ++ [ln_col l]))) ->
  (ls = [] -> enclosing ss = enclosing vs) ->
  level (ss ++ map ln_col ls) = level (vs ++ map ln_col (kept_lines k ls)).
Proof.
  induction ls as [|l ls IH]; intros AL LA ss vs k N1 N2 H HE.
  - cbn. rewrite !app_nil_r. apply level_same; auto.
  - assert (ST : enclosing (ss ++ [ln_col l]) = enclosing (vs ++ [ln_col l])).
    { destruct H as [H|(l0 & ls0 & EQ & H)]; [apply enclosing_step; exact H|]. injection EQ as <- <-. apply enclosing_again. exact H. }
    assert (AL' : aligned_empty ls) by (intros b x x' a EQ K; apply (AL (l :: b) x x' a); [rewrite EQ; reflexivity|exact K]).
    cbn [map kept_lines]. change (ln_col l :: map ln_col ls) with ([ln_col l] ++ map ln_col ls). rewrite app_assoc. destruct (kept_line l) as [l'|] eqn:K.
    + cbn [map ln_col]. rewrite (kept_line_col l l' K). change (ln_col l :: map ln_col ?x) with ([ln_col l] ++ map ln_col x). rewrite app_assoc.
      apply IH; auto; try (apply snoc_some). intros N. destruct ls; [congruence|]. apply LA. discriminate.
    + destruct ls as [|l2 ls]; [exfalso; apply LA; [discriminate|exact K]|].
      apply IH; auto; [intros _; apply LA; discriminate|apply snoc_some| |discriminate]. right. exists l2, ls. split; [reflexivity|].
      rewrite <- (AL [] l l2 ls eq_refl K). exact ST.
Qed.
Lemma last_words (ls : list (line_of (option A))) d0 : ls <> [] -> last (flat_map words_of ls) None = last (words_of (last ls d0)) None.
Proof.
  intros N. destruct (exists_last N) as (ls' & l & ->). rewrite last_last, flat_map_app. cbn [flat_map]. rewrite app_nil_r.
  assert (X : words_of l <> []) by discriminate. destruct (exists_last X) as (ws & w & ->). rewrite app_assoc, !last_last. reflexivity.
Qed.
Lemma kept_levels (ls : list (line_of (option A))) a z : aligned_empty ls -> hd None (flat_map words_of ls) = Some a -> last (flat_map words_of ls) None = Some z ->
  level (map ln_col ls) = level (map ln_col (kept_lines 0 ls)).
Proof.
  intros AL H Z. destruct ls as [|l ls]; [reflexivity|]. cbn [flat_map words_of app hd] in H.
  assert (KL : forall l0 : line_of (option A), kept_line l0 = None -> last (words_of l0) None = None).
  { intros l0 K. apply kept_none in K. assert (X : words_of l0 <> []) by discriminate. destruct (exists_last X) as (ws & w & E0). rewrite E0 in *. rewrite last_last.
    apply Forall_app in K as [_ K]. inversion K; assumption. }
  cbn [kept_lines]. destruct (kept_line l) as [l'|] eqn:K.
  - cbn [map ln_col]. rewrite (kept_line_col l l' K). change (ln_col l :: map ln_col ?x) with ([ln_col l] ++ map ln_col x). apply kept_columns; try discriminate; auto.
    + intros b x x' r EQ KX. apply (AL (l :: b) x x' r); [rewrite EQ; reflexivity|exact KX].
    + intros N KX. rewrite (last_words (l :: ls) (mk_line_of 0 0 None [])) in Z by discriminate.
      replace (last (l :: ls) (mk_line_of 0 0 None [])) with (last ls (mk_line_of 0 0 (@None A) [])) in Z by (destruct ls; [congruence|reflexivity]). rewrite (KL _ KX) in Z. discriminate.
  - apply kept_none in K. inversion K. congruence.
Qed.
End Levels.

(** ** Positions *)
Lemma app_inj_length {A} (a a' b b' : list A) : length a = length a' -> a ++ b = a' ++ b' -> a = a' /\ b = b'.
Proof.
  revert a'. induction a as [|x a IH]; intros [|x' a'] L H; try discriminate L; [auto|]. cbn [app length] in *. injection H as -> H. destruct (IH a' ltac:(lia) H) as [-> ->]. auto.
Qed.
Section Positions.
Context {LI E X : Type}.
Notation sw := (src_word LI E).
(** Words along with their cursors. *)
Notation entry := (sw * (cursor * X))%type.
Definition more_at (m : list (nat * entry)) : list (nat * (cursor * X)) := map (fun '(g, y) => (g, snd y)) m.
Lemma row_lines (m : list (nat * entry)) : forall frm rest more ls,
  map fst (map snd (more_at m)) = map fst (row_tokens frm (source_more m)) ->
  lines_after (row_end frm (source_more m)) rest = (more, ls) ->
  lines_after frm (map snd (more_at m) ++ rest) = (more_at m ++ more, ls).
Proof.
  induction m as [|[g [w [c x]]] m IH]; intros frm rest more ls M L; [exact L|].
  cbn [more_at map fst snd source_more row_tokens row_end app lines_after] in *.
  fold (more_at m) in *. fold (source_more m) in *. set (c0 := src_cursor (p_line frm) (p_col frm + g) w) in *. injection M as -> M. rewrite (IH (c_end c0) rest more ls M L). unfold c0. cbn [src_cursor c_start p_line p_col]. rewrite Nat.eqb_refl.
  do 3 f_equal. lia.
Qed.
Lemma lines_lines (ls : list (line_of entry)) : forall frm,
  map fst (flat_map (fun l => map snd (words_of l)) ls) = map fst (word_tokens (S (p_line frm)) (map (map_line fst) ls)) ->
  lines_after frm (flat_map (fun l => map snd (words_of l)) ls) = ([], map (map_line snd) ls).
Proof.
  induction ls as [|[k col [w [c x]] m] ls IH]; intros frm M; [reflexivity|].
  cbn [flat_map words_of ln_word ln_more map map_line ln_empty ln_col fst snd word_tokens app] in *. injection M as -> M.
  set (c := src_cursor _ _ _) in *. fold (source_more m) in *. rewrite !map_app in M.
  assert (MM : map snd (map snd m) = map snd (more_at m)) by (unfold more_at; rewrite !map_map; apply map_ext; intros [g y]; reflexivity).
  rewrite MM in *.
  assert (LEN : length (map fst (map snd (more_at m))) = length (map fst (row_tokens (c_end c) (source_more m)))).
  { unfold more_at, source_more. rewrite !map_length. assert (RL : forall m' f, length (@row_tokens LI E f m') = length m').
    { induction m' as [|[g' w'] m' IHm]; intros f; [reflexivity|]. cbn. rewrite IHm. reflexivity. } rewrite RL, map_length. reflexivity. }
  assert (M1 : map fst (map snd (more_at m)) = map fst (row_tokens (c_end c) (source_more m)) /\
     map fst (flat_map (fun l => map snd (words_of l)) ls) = map fst (word_tokens (S (p_line (row_end (c_end c) (source_more m)))) (map (map_line fst) ls))).
  { apply app_inj_length; assumption. }
  destruct M1 as [M1 M2]. cbn [lines_after]. rewrite (row_lines m (c_end c) _ [] (map (map_line snd) ls) M1 (IH _ M2)).
  change (c_start c) with (mk_pos (S (p_line frm) + k) col). cbn [p_line p_col].
  assert (Z : (S (p_line frm) + k =? p_line frm) = false) by (apply Nat.eqb_neq; lia). rewrite Z. rewrite app_nil_r. replace (S (p_line frm) + k - S (p_line frm)) with k by lia. reflexivity.
Qed.

(** Words whose cursors have the extent of their source. *)
Definition extent (y : entry) : Prop := exists row col, fst (snd y) = src_cursor row col (fst y).
Lemma moved_extent row col (y : entry) : extent y -> moved row col (fst (snd y)) = src_cursor row col (fst y).
Proof.
  intros (r & k & ->). unfold moved, src_cursor. cbn [c_start c_end p_line p_col]. destruct (Nat.eqb_spec (sw_rows (fst y)) 0) as [Z|Z]; cbn [p_line p_col].
  - rewrite Nat.sub_diag, Nat.eqb_refl. do 2 f_equal. lia.
  - assert (Q : (r + sw_rows (fst y) - r =? 0) = false) by (apply Nat.eqb_neq; lia). rewrite Q. do 2 f_equal. lia.
Qed.
Lemma put_row_tokens (m : list (nat * entry)) : Forall extent (map snd m) -> forall frm,
  map fst (put_row frm (more_at m)) = map fst (row_tokens frm (source_more m)) /\ map snd (put_row frm (more_at m)) = map (fun y => snd (snd (snd y))) m /\
  forall c, c_end c = frm -> c_end (last (map fst (put_row frm (more_at m))) c) = row_end frm (source_more m).
Proof.
  induction m as [|[g [w [c x]]] m IH]; intros F frm; [split; [reflexivity|split; [reflexivity|intros c H; exact H]]|].
  cbn [map snd] in F. inversion F as [|? ? F1 F2]; subst. pose proof (moved_extent (p_line frm) (p_col frm + g) _ F1) as M. cbn [fst snd] in M.
  cbn [more_at source_more map fst snd put_row row_tokens row_end]. fold (more_at m). fold (source_more m). rewrite M.
  destruct (IH F2 (c_end (src_cursor (p_line frm) (p_col frm + g) w))) as (I1 & I2 & I3). rewrite <- I1, <- I2. split; [reflexivity|]. split; [reflexivity|].
  intros c0 _. rewrite <- (I3 _ eq_refl). cbn [last]. destruct (map fst (put_row _ (more_at m))) eqn:P; [reflexivity|].
  f_equal. clear. generalize c1. induction l as [|a l IH]; intros b; [reflexivity|]. cbn [last] in *. apply IH.
Qed.
Lemma put_lines_tokens (ls : list (line_of entry)) : Forall extent (flat_map words_of ls) -> forall row,
  map fst (put_lines row (map (map_line snd) ls)) = map fst (word_tokens row (map (map_line fst) ls)) /\
  map snd (put_lines row (map (map_line snd) ls)) = map (fun y => snd (snd y)) (flat_map words_of ls).
Proof.
  induction ls as [|[k col [w [c x]] m] ls IH]; intros F row; [split; reflexivity|].
  cbn [flat_map words_of ln_word ln_more app] in F. inversion F as [|? ? F1 F']; subst. apply Forall_app in F' as [F2 F3].
  pose proof (moved_extent (row + k) col _ F1) as M. cbn [fst snd] in M.
  cbn [map map_line ln_empty ln_col ln_word ln_more fst snd put_lines word_tokens flat_map words_of app]. cbv zeta. rewrite M. fold (more_at m). fold (source_more m).
  destruct (put_row_tokens m F2 (c_end (src_cursor (row + k) col w))) as (R1 & R2 & R3). rewrite (R3 _ eq_refl).
  destruct (IH F3 (S (p_line (row_end (c_end (src_cursor (row + k) col w)) (source_more m))))) as [I1 I2].
  rewrite !map_app, R1, R2, I1, I2. split; [reflexivity|]. cbn [map snd]. rewrite map_map. reflexivity.
Qed.

(** The columns in which lines start. *)
Lemma row_starts m rest : forall frm, starts_after (p_line frm) (map fst (@row_tokens LI E frm m) ++ rest) = starts_after (p_line (row_end frm m)) rest.
Proof.
  induction m as [|[g w] m IH]; intros frm; [reflexivity|]. cbn [row_tokens map fst app starts_after row_end]. cbn [src_cursor c_start p_line p_col]. rewrite Nat.eqb_refl. cbn [app].
  apply IH.
Qed.
Lemma tokens_starts (ls : list (line_of sw)) : forall row r, r < row -> starts_after r (map fst (word_tokens row ls)) = map ln_col ls.
Proof.
  induction ls as [|[k col w m] ls IH]; intros row r H; [reflexivity|]. cbn [word_tokens map fst ln_empty ln_col ln_word ln_more starts_after]. cbv zeta. rewrite map_app, row_starts.
  rewrite IH by lia. cbn [src_cursor c_start p_line p_col]. destruct (Nat.eqb_spec r (row + k)); [lia|]. reflexivity.
Qed.
Lemma tokens_line_starts (ls : list (line_of sw)) row : line_starts (map fst (word_tokens row ls)) = map ln_col ls.
Proof.
  destruct ls as [|[k col w m] ls]; [reflexivity|]. cbn [word_tokens map fst ln_empty ln_col ln_word ln_more line_starts]. cbv zeta. rewrite map_app, row_starts.
  rewrite tokens_starts by lia. reflexivity.
Qed.
End Positions.
