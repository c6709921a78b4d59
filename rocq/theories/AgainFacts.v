(** * Lemmas: quoting what a quote has written. *)
From Coq Require Import Sorted Lia.
From Verif Require Import Str SpecStr Tokens SpecTokens Values Fmt SpecFmt SpecFile RenderFacts LayoutFacts OutputFacts
  Macro SpecMacro MacroFacts MacroTokens MacroLines SpecWords WordsFacts Parse SpecParse SpecLex SpecReread RespaceFacts SpecAgain.

(** ** Levels as columns *)
Fixpoint countdown (n : nat) : list nat := match n with O => [0] | S n' => n :: countdown n' end.
Lemma countdown_filter n m : m <= n -> filter (fun c => c <? m) (countdown n) = match m with O => [] | S m' => countdown m' end.
Proof.
  induction n as [|n IH]; intros H.
  - assert (m = 0) by lia. subst. reflexivity.
  - cbn [countdown filter]. destruct (Nat.ltb_spec (S n) m) as [L|L]; [lia|].
    destruct (Nat.eq_dec m (S n)) as [->|N]; [|apply IH; lia].
    clear. assert (A : forall k, k <= n -> filter (fun c => c <? S n) (countdown k) = countdown k).
    { induction k as [|k IH]; intros H; [reflexivity|]. cbn [countdown filter]. destruct (Nat.ltb_spec (S k) (S n)); [|lia]. rewrite IH by lia. reflexivity. }
    apply A. lia.
Qed.
Lemma countdown_above n m : n < m -> filter (fun c => c <? m) (countdown n) = countdown n.
Proof. induction n as [|n IH]; intros H; cbn [countdown filter].
  - destruct (Nat.ltb_spec 0 m); [reflexivity|lia].
  - destruct (Nat.ltb_spec (S n) m); [|lia]. rewrite IH by lia. reflexivity.
Qed.
Lemma countdown_below L l : l <= S L -> l :: filter (fun c => c <? l) (countdown L) = countdown l.
Proof.
  intros H. destruct (Nat.eq_dec l (S L)) as [->|N]; [rewrite countdown_above by lia; reflexivity|]. rewrite countdown_filter by lia. destruct l; reflexivity.
Qed.
Lemma countdown_in n m : m <= n -> In m (countdown n).
Proof. induction n as [|n IH]; intros H; [left; lia|]. destruct (Nat.eq_dec m (S n)) as [->|N]; [left; reflexivity|right; apply IH; lia]. Qed.
Lemma countdown_length n : length (countdown n) = S n.
Proof. induction n as [|n IH]; [reflexivity|]. cbn. rewrite IH. reflexivity. Qed.
(** The levels of lines that start in these columns, after others. *)
Fixpoint levels (before cols : list nat) : list nat :=
  match cols with [] => [] | c :: cols' => level (before ++ [c]) :: levels (before ++ [c]) cols' end.
Lemma levels_snoc cols : forall before c, levels before (cols ++ [c]) = levels before cols ++ [level (before ++ cols ++ [c])].
Proof.
  induction cols as [|d cols IH]; intros before c; [reflexivity|]. cbn [app levels]. rewrite IH, <- !app_assoc. reflexivity.
Qed.
Lemma level_one c : level [c] = 0.
Proof. reflexivity. Qed.
Lemma filter_scale k l xs : 0 < k -> filter (fun c => c <? k * l) (map (Nat.mul k) xs) = map (Nat.mul k) (filter (fun c => c <? l) xs).
Proof.
  intros K. induction xs as [|x xs IH]; [reflexivity|]. cbn [map filter]. rewrite IH.
  destruct (Nat.ltb_spec (k * x) (k * l)), (Nat.ltb_spec x l); try reflexivity; nia.
Qed.
Lemma levels_enclosing k cols : 0 < k -> cols <> [] -> enclosing (map (Nat.mul k) (levels [] cols)) = map (Nat.mul k) (countdown (level cols)).
Proof.
  intros K. induction cols as [|c cols IH] using rev_ind; [congruence|]. intros _. rewrite levels_snoc, map_app. cbn [map app]. rewrite enclosing_snoc.
  destruct cols as [|d cols]; [cbn; rewrite Nat.mul_0_r; reflexivity|]. rewrite IH by discriminate. rewrite filter_scale by exact K.
  assert (LS : level ((d :: cols) ++ [c]) <= S (level (d :: cols))) by (apply level_step; discriminate).
  rewrite <- (countdown_below _ _ LS). reflexivity.
Qed.
Lemma levels_level k cols : 0 < k -> level (map (Nat.mul k) (levels [] cols)) = level cols.
Proof.
  intros K. destruct cols as [|c cols]; [reflexivity|].
  assert (N : map (Nat.mul k) (levels [] (c :: cols)) <> []) by discriminate.
  pose proof (level_enclosing _ N) as H. rewrite levels_enclosing in H by (auto; discriminate). rewrite map_length, countdown_length in H. lia.
Qed.
Lemma levels_fit k cols c : 0 < k -> cols <> [] -> may_start (map (Nat.mul k) (levels [] cols)) (k * level (cols ++ [c])).
Proof.
  intros K N. pose proof (proj1 (level_step cols c N)) as LS. destruct (Nat.leb_spec (level (cols ++ [c])) (level cols)) as [H|H].
  - right. apply aligned_enclosing. rewrite levels_enclosing by auto. apply in_map, countdown_in. exact H.
  - left. assert (L : last (map (Nat.mul k) (levels [] cols)) 0 = k * level cols).
    { destruct cols as [|d cols] using rev_ind; [congruence|]. rewrite levels_snoc, map_app. cbn [map app]. rewrite last_last. reflexivity. }
    rewrite L. nia.
Qed.

(** ** Filling lines *)
Lemma fill_line {A B} (l : line_of A) (xs : list B) : length xs = length (words_of l) ->
  exists l' : line_of (A * B), map_line fst l' = l /\ map snd (words_of l') = xs.
Proof.
  destruct l as [em c w m]. unfold words_of. cbn [ln_word ln_more length]. destruct xs as [|x xs]; [discriminate|]. intros H. cbn [length] in H. injection H as H.
  assert (K : forall (m : list (nat * A)) xs, length xs = length (map snd m) -> exists m' : list (nat * (A * B)), map (fun '(g, w) => (g, fst w)) m' = m /\ map snd (map snd m') = xs).
  { clear. induction m as [|[g w] m IH]; intros [|x xs] H; try discriminate; [exists []; auto|]. cbn in H. destruct (IH xs ltac:(lia)) as (m' & H1 & H2).
    exists ((g, (w, x)) :: m'). cbn. rewrite H1, H2. auto. }
  destruct (K m xs H) as (m' & H1 & H2). exists (mk_line_of em c (w, x) m'). unfold map_line. cbn [ln_empty ln_col ln_word ln_more fst map snd]. rewrite H1, H2. auto.
Qed.
Lemma fill_lines {A B} (ls : list (line_of A)) : forall xs : list B, length xs = length (flat_map words_of ls) ->
  exists ls' : list (line_of (A * B)), map (map_line fst) ls' = ls /\ map snd (flat_map words_of ls') = xs.
Proof.
  induction ls as [|l ls IH]; intros xs H; [destruct xs; [exists []; auto|discriminate]|]. cbn [flat_map] in H. rewrite app_length in H.
  rewrite <- (firstn_skipn (length (words_of l)) xs) in *.
  assert (H1 : length (firstn (length (words_of l)) xs) = length (words_of l)) by (rewrite firstn_length; rewrite app_length, firstn_length, skipn_length in H; lia).
  destruct (fill_line l _ H1) as (l' & L1 & L2). destruct (IH (skipn (length (words_of l)) xs)) as (ls' & L3 & L4); [rewrite app_length in H; lia|].
  exists (l' :: ls'). cbn [map flat_map]. rewrite L1, L3, map_app, L2, L4. auto.
Qed.
Lemma map_map_line {A B C} (f : A -> B) (g : B -> C) l : map_line g (map_line f l) = map_line (fun x => g (f x)) l.
Proof. destruct l as [em c w m]. unfold map_line. cbn. f_equal. rewrite map_map. apply map_ext. intros [? ?]. reflexivity. Qed.
Lemma map_line_ext {A B} (f g : A -> B) l : (forall x, f x = g x) -> map_line f l = map_line g l.
Proof. intros H. destruct l as [em c w m]. unfold map_line. cbn. f_equal; [apply H|]. apply map_ext. intros [? ?]. rewrite H. reflexivity. Qed.

(** ** Positions of the words of a text *)
Definition to_line (l : src_line) : line_of str := mk_line_of (sl_empty l) (sl_col l) (sl_word l) (sl_more l).
Definition line_words (ls : list src_line) : list str := flat_map words_of (map to_line ls).

Lemma advance_solid p w : ~ In 10%N w -> advance p w = mk_pos (p_line p) (p_col p + length w).
Proof.
  revert p. induction w as [|c w IH]; intros p N; [destruct p; cbn; f_equal; lia|]. cbn [advance]. destruct (N.eqb_spec c 10) as [->|NE]; [exfalso; apply N; left; reflexivity|].
  rewrite IH by (intros X; apply N; right; exact X). cbn. f_equal. lia.
Qed.
Lemma written_skip p b s toks : all_white b -> written p (b ++ s) toks -> Forall (fun t => solid (snd t)) toks -> written (advance p b) s toks.
Proof.
  intros B. revert p. induction B as [|c b C _ IH]; intros p H F; [exact H|]. cbn [app] in H. cbn [advance]. apply IH; [|exact F].
  remember (c :: b ++ s) as z eqn:Z. destruct H as [p|p d z l D H|p w z l D H]; [discriminate|injection Z as -> ->; exact H|].
  exfalso. inversion F as [|? ? [S _] _]; subst. cbn [snd] in S. destruct w as [|d w]; [exact S|]. injection Z as -> _. congruence.
Qed.
Lemma written_word p w s c w' toks : written p (w ++ s) ((c, w') :: toks) -> w' = w -> solid w ->
  c = mk_cursor p (advance p w) /\ written (advance p w) s toks.
Proof.
  intros H E [S _]. subst w'. revert H.
  enough (K : forall z y, written p z y -> z = w ++ s -> y = (c, w) :: toks -> c = mk_cursor p (advance p w) /\ written (advance p w) s toks) by (intros H; exact (K _ _ H eq_refl eq_refl)).
  intros z y H Z Y. destruct w as [|d w]; [contradiction|].
  destruct H as [p|p e z l D H|p v z l D H]; [discriminate|exfalso; cbn in Z; assert (e = d) by congruence; congruence|].
  assert (v = d :: w) by congruence. assert (l = toks) by congruence. assert (c = mk_cursor p (advance p v)) by congruence. subst v l c.
  split; [reflexivity|]. apply app_inv_head in Z. subst. exact H.
Qed.
Notation gap_text := (flat_map (fun '(g, w) => (if g =? 0 then [] else $" ") ++ w)).
Definition gap_of (g : nat) : str := if g =? 0 then [] else $" ".
Lemma written_more (more : list (nat * str)) : forall p s toks rest, written p (gap_text more ++ s) toks -> map snd toks = map snd more ++ rest ->
  Forall (fun t => solid (snd t)) toks -> Forall (fun gw => fst gw <= 1) more ->
  exists toks', map fst toks = map fst (@more_tokens unit unit (p_line p) (p_col p) more) ++ map fst toks' /\ map snd toks' = rest /\
    exists q, p_line q = p_line p /\ written q s toks' /\ Forall (fun t => solid (snd t)) toks'.
Proof.
  induction more as [|[g w] more IH]; intros p s toks rest H M F G; [exists toks; split; [reflexivity|]; split; [exact M|]; exists p; auto|].
  assert (TX : gap_text ((g, w) :: more) ++ s = gap_of g ++ w ++ gap_text more ++ s) by (cbn; unfold gap_of; unfold str in *; rewrite <- !app_assoc; reflexivity).
  apply (eq_ind _ (fun z => written p z toks) H) in TX. clear H. rename TX into H. inversion G as [|? ? G1 G2]; subst. cbn [fst] in G1.
  apply written_skip in H; [|unfold gap_of; destruct (g =? 0); repeat constructor|exact F].
  destruct toks as [|[c w'] toks]; [discriminate|]. cbn [map snd app] in M. injection M as MW M. subst w'. inversion F as [|? ? S F']; subst. cbn [snd] in S.
  destruct (written_word _ _ _ _ _ _ H eq_refl S) as [-> H'].
  destruct (IH _ _ _ _ H' M F' G2) as (toks' & Q1 & Q2 & q & Q3 & Q4 & Q5). exists toks'.
  assert (AG : advance p (gap_of g) = mk_pos (p_line p) (p_col p + g)).
  { destruct g as [|[|g]]; [destruct p; cbn; f_equal; lia|destruct p; cbn; f_equal; lia|lia]. }
  rewrite (advance_solid _ w (proj2 S)), AG in Q1, Q3. rewrite (advance_solid _ w (proj2 S)), AG. cbn [p_line p_col] in *.
  cbn [map fst more_tokens app]. unfold word_cursor. rewrite Q1. split; [reflexivity|]. split; [exact Q2|]. exists q. auto.
Qed.

(** ** The output as source *)
Section Canon.
Context (ind : indentation_kind) (nl : str) (NL : ends_lines nl).
Definition unit_width : nat := match ind with ISpace w => w | ITab => 1 end.
Lemma indent_width l : length (indent_text ind (Z.of_nat l)) = unit_width * l.
Proof. unfold indent_text, unit_width. rewrite Z.max_l by lia. rewrite Nat2Z.id. destruct ind; rewrite repeat_length; lia. Qed.
Lemma indent_solid l : ~ In 10%N (indent_text ind l).
Proof. unfold indent_text. destruct ind; intros H; apply repeat_spec in H; discriminate. Qed.

(** The line [l2] is the line [l] of the output of lines that start in the columns
    [before]. *)
Definition again (before : list nat) (l l2 : src_line) : Prop :=
  line_text l2 = line_text l /\ Forall (fun gw => fst gw <= 1) (sl_more l2) /\
  sl_col l2 = unit_width * level (before ++ [sl_col l]) /\
  sl_empty l2 = match before with [] => 0 | _ => if sl_empty l =? 0 then 0 else 1 end.
Fixpoint all_again (before : list nat) (ls ls2 : list src_line) : Prop :=
  match ls, ls2 with
  | [], [] => True
  | l :: ls, l2 :: ls2 => again before l l2 /\ all_again (before ++ [sl_col l]) ls ls2
  | _, _ => False
  end.
Lemma again_cols before ls : forall ls2, all_again before ls ls2 -> map sl_col ls2 = map (Nat.mul unit_width) (levels before (map sl_col ls)).
Proof.
  revert before. induction ls as [|l ls IH]; intros before [|l2 ls2] H; try contradiction; [reflexivity|]. destruct H as [(_ & _ & C & _) H].
  cbn [map levels]. rewrite C, (IH _ _ H). reflexivity.
Qed.
(** They are laid out. *)
Lemma again_fit ls ls2 : all_again [] ls ls2 -> forall before col after, map sl_col ls2 = before ++ col :: after -> before <> [] -> may_start before col.
Proof.
  intros H before col after E N. rewrite (again_cols _ _ _ H) in E. clear H.
  assert (SP : forall cols bf before col after, map (Nat.mul unit_width) (levels bf cols) = before ++ col :: after ->
     exists a c b, cols = a ++ c :: b /\ before = map (Nat.mul unit_width) (levels bf a) /\ col = unit_width * level (bf ++ a ++ [c])).
  { clear. induction cols as [|c cols IH]; intros bf before col after E; [destruct before; discriminate|]. cbn [levels map] in E. destruct before as [|b0 before].
    - injection E as <- E. exists [], c, cols. auto.
    - injection E as <- E. destruct (IH _ _ _ _ E) as (a & d & b & -> & -> & ->). exists (c :: a), d, b. split; [reflexivity|]. split; [reflexivity|].
      rewrite <- app_assoc. reflexivity. }
  destruct (SP _ _ _ _ _ E) as (a & c & b & _ & -> & ->). cbn [app]. destruct a as [|a0 a]; [destruct N; reflexivity|].
  destruct unit_width as [|k] eqn:U.
  - left. assert (Q : forall l : list nat, last (map (Nat.mul 0) l) 0 = 0) by (induction l as [|x [|y l] IHl]; [reflexivity|reflexivity|exact IHl]). rewrite Q. lia.
  - apply levels_fit; [lia|discriminate].
Qed.
(** They render the same. *)
Lemma again_output : forall ls ls2 before before2, all_again (map sl_col before) ls ls2 ->
  map sl_col before2 = map (Nat.mul unit_width) (levels [] (map sl_col before)) ->
  output_lines ind before2 ls2 = output_lines ind before ls.
Proof.
  induction ls as [|l ls IH]; intros [|l2 ls2] before before2 H B; try contradiction; [reflexivity|].
  destruct H as [(T & _ & C & EM) H]. cbn [output_lines].
  assert (B' : map sl_col (before2 ++ [l2]) = map (Nat.mul unit_width) (levels [] (map sl_col (before ++ [l])))).
  { rewrite !map_app. cbn [map]. rewrite levels_snoc, map_app, <- B. cbn [map]. rewrite C. reflexivity. }
  assert (IND : indent_text ind (Z.of_nat (level (map sl_col (before2 ++ [l2])))) = indent_text ind (Z.of_nat (level (map sl_col (before ++ [l]))))).
  { rewrite B'. unfold unit_width. destruct ind as [[|k]|]; [|rewrite levels_level by lia; reflexivity..].
    unfold indent_text. rewrite !Nat.mul_0_r. reflexivity. }
  rewrite IND, T, EM. f_equal; [|f_equal].
  - destruct before as [|b before]; [destruct before2; [reflexivity|discriminate]|]. cbn [map]. destruct before2 as [|b2 before2]; [discriminate|].
    destruct (sl_empty l =? 0); reflexivity.
  - apply IH; [|exact B']. rewrite map_app. exact H.
Qed.

(** The rows of the words of the rest of the lines, in a text that starts after a line. *)
Lemma advance_nl p : advance p nl = mk_pos (S (p_line p)) 0.
Proof. destruct NL as [-> | ->]; reflexivity. Qed.
Lemma white_nl : all_white nl.
Proof. destruct NL as [-> | ->]; repeat constructor. Qed.
Lemma line_text_eq (l : src_line) : line_text l = gap_text ((0, sl_word l) :: sl_more l).
Proof. reflexivity. Qed.
Definition rest_text (ls : list str) : str := flat_map (fun l => nl ++ l) ls.
Lemma join_rest x ls : join nl (x :: ls) = x ++ rest_text ls.
Proof. revert x. induction ls as [|y ls IH]; intros x; [cbn; rewrite app_nil_r; reflexivity|]. change (join nl (x :: y :: ls)) with (x ++ nl ++ join nl (y :: ls)). rewrite IH. cbn. rewrite <- app_assoc. reflexivity. Qed.
Lemma written_rest : forall ls ls2 before p toks, before <> [] -> all_again (map sl_col before) ls ls2 ->
  written p (rest_text (output_lines ind before ls)) toks -> map snd toks = line_words ls2 -> Forall (fun t => solid (snd t)) toks ->
  map fst toks = map fst (@source_tokens unit unit (S (p_line p)) ls2).
Proof.
  induction ls as [|l ls IH]; intros [|l2 ls2] before p toks NB H W M F; try contradiction.
  - destruct toks; [reflexivity|discriminate].
  - destruct H as [(T & G & C & EM) H]. cbn [output_lines] in W.
    assert (W1 : exists r, r = sl_empty l2 /\ written (mk_pos (S (p_line p) + r) 0) (indent_text ind (Z.of_nat (level (map sl_col (before ++ [l])))) ++ line_text l2 ++ rest_text (output_lines ind (before ++ [l]) ls)) toks).
    { rewrite EM, T. destruct before as [|b before]; [congruence|]. cbn [map]. destruct (sl_empty l =? 0).
      - exists 0. split; [reflexivity|]. cbn [app rest_text flat_map] in W. rewrite <- !app_assoc in W. apply written_skip in W; [|apply white_nl|exact F]. rewrite advance_nl in W. rewrite Nat.add_0_r. exact W.
      - exists 1. split; [reflexivity|]. cbn [app rest_text flat_map] in W. rewrite <- !app_assoc in W. cbn [app] in W.
        apply written_skip in W; [|apply white_nl|exact F]. rewrite advance_nl in W.
        apply written_skip in W; [|apply white_nl|exact F]. rewrite advance_nl in W. cbn [p_line] in W. rewrite Nat.add_1_r. exact W. }
    destruct W1 as (r & R & W1). clear W. apply written_skip in W1; [|apply white_indent|exact F].
    rewrite (advance_solid _ _ (indent_solid _)), indent_width in W1. cbn [p_line p_col] in W1. rewrite map_app in W1. cbn [map] in W1. rewrite <- C in W1.
    rewrite line_text_eq in W1. unfold line_words in M. cbn [map flat_map] in M. unfold words_of at 1 in M. cbn [to_line ln_word ln_more] in M.
    destruct (written_more ((0, sl_word l2) :: sl_more l2) _ _ _ (flat_map words_of (map to_line ls2)) W1 M F) as (toks' & Q1 & Q2 & q & Q3 & Q4 & Q5).
    { constructor; [cbn; lia|exact G]. }
    rewrite Q1. cbn [p_line p_col] in *. cbn [source_tokens map fst more_tokens]. cbv zeta. subst r. rewrite map_app, Nat.add_0_r. cbn [app]. f_equal. f_equal.
    rewrite (IH ls2 (before ++ [l]) q toks'); auto.
    + rewrite Q3. cbn [p_line]. reflexivity.
    + destruct before; discriminate.
    + rewrite map_app. exact H.
Qed.
Lemma written_output ls ls2 row toks : all_again [] ls ls2 ->
  written (mk_pos row 0) (join nl (output_lines ind [] ls)) toks -> map snd toks = line_words ls2 -> Forall (fun t => solid (snd t)) toks ->
  map fst toks = map fst (@source_tokens unit unit row ls2).
Proof.
  intros H W M F. destruct ls as [|l ls], ls2 as [|l2 ls2]; try contradiction; [destruct toks; [reflexivity|discriminate]|].
  destruct H as [(T & G & C & EM) H]. cbn [output_lines app] in W. rewrite join_rest in W.
  cbn [map app] in W, C. rewrite level_one in W, C. rewrite Nat.mul_0_r in C.
  replace (indent_text ind (Z.of_nat 0)) with (@nil N) in W by (unfold indent_text; destruct ind; reflexivity). cbn [app] in W.
  rewrite <- T, line_text_eq in W. unfold line_words in M. cbn [map flat_map] in M. unfold words_of at 1 in M. cbn [to_line ln_word ln_more] in M.
  destruct (written_more ((0, sl_word l2) :: sl_more l2) _ _ _ (flat_map words_of (map to_line ls2)) W M F) as (toks' & Q1 & Q2 & q & Q3 & Q4 & Q5).
  { constructor; [cbn; lia|exact G]. }
  rewrite Q1. cbn [p_line p_col] in *. cbn [source_tokens map fst more_tokens]. cbv zeta. rewrite EM, C, map_app, !Nat.add_0_r. cbn [app Nat.add]. f_equal. f_equal.
  rewrite (written_rest ls ls2 [l] q toks'); auto; [rewrite Q3; reflexivity|discriminate].
Qed.

(** ** Reading the words in pieces *)
Lemma pieces_gaps w ps : pieces w ps -> exists p0 more, ps = p0 :: map snd more /\ w = p0 ++ gap_text more /\ Forall (fun gw => fst gw <= 1) more.
Proof.
  induction 1 as [w S|w g r ws S G P (p0 & more & -> & -> & F)].
  - exists w, []. rewrite app_nil_r. auto.
  - exists w, ((length g, p0) :: more). split; [reflexivity|]. split; [destruct G as [-> | ->]; reflexivity|]. constructor; [destruct G as [-> | ->]; cbn; lia|exact F].
Qed.
Lemma pieces_more_gaps more : forall parts, Forall2 pieces (map snd more) parts -> exists more2, map snd more2 = concat parts /\ gap_text more2 = gap_text more /\ Forall (fun gw => fst gw <= 1) more2.
Proof.
  induction more as [|[g w] more IH]; intros parts F; inversion F as [|? ps ? parts' P F']; subst; [exists []; auto|].
  destruct (IH _ F') as (m2 & M1 & M2 & M3). destruct (pieces_gaps _ _ P) as (p0 & pm & -> & -> & PF).
  exists (((if g =? 0 then 0 else 1), p0) :: pm ++ m2). cbn [map snd app concat]. rewrite map_app, M1. split; [reflexivity|]. split.
  - cbn [flat_map]. unfold str in *. rewrite flat_map_app, M2, <- !app_assoc. destruct (g =? 0); reflexivity.
  - constructor; [cbn; destruct (g =? 0); lia|]. apply Forall_app; auto.
Qed.
Lemma forall2_split {A B} (R : A -> B -> Prop) a : forall b l, Forall2 R (a ++ b) l -> exists l1 l2, l = l1 ++ l2 /\ Forall2 R a l1 /\ Forall2 R b l2.
Proof.
  induction a as [|x a IH]; intros b l H; [exists [], l; auto|]. cbn in H. inversion H as [|? y ? l' R1 H']; subst.
  destruct (IH _ _ H') as (l1 & l2 & -> & A1 & A2). exists (y :: l1), l2. auto.
Qed.
Lemma pieces_again : forall ls before parts, Forall2 pieces (line_words ls) parts -> exists ls2, all_again before ls ls2 /\ line_words ls2 = concat parts.
Proof.
  induction ls as [|l ls IH]; intros before parts F; [inversion F; exists []; split; [exact I|reflexivity]|].
  unfold line_words in F. cbn [map flat_map] in F. apply forall2_split in F as (p1 & p2 & -> & F1 & F2).
  destruct (IH (before ++ [sl_col l]) p2 F2) as (ls2 & A & W).
  unfold words_of in F1. cbn [to_line ln_word ln_more] in F1. inversion F1 as [|? ps ? parts' P F1']; subst.
  destruct (pieces_gaps _ _ P) as (w0 & pm & -> & WE & PF). destruct (pieces_more_gaps _ _ F1') as (m2 & M1 & M2 & M3).
  exists (mk_src_line (match before with [] => 0 | _ => if sl_empty l =? 0 then 0 else 1 end) (unit_width * level (before ++ [sl_col l])) w0 (pm ++ m2) :: ls2).
  split; [split; [|exact A]|].
  - unfold again. cbn [sl_empty sl_col sl_word sl_more]. split; [unfold line_text; cbn [sl_word sl_more]; unfold str in *; rewrite WE, flat_map_app, M2; apply app_assoc|].
    split; [apply Forall_app; auto|]. auto.
  - unfold line_words in *. cbn [map flat_map]. rewrite W. unfold words_of. cbn [to_line ln_word ln_more sl_word sl_more]. rewrite map_app, M1. cbn [concat app].
    rewrite concat_app. cbn. rewrite <- !app_assoc. reflexivity.
Qed.
End Canon.

(** ** Quoting it again *)
Section Quote.
Context {LI E : Type} (ops : lang_ops LI) (cfg : config) (NL : ends_lines (c_newline cfg)).
Notation doc := (list (node LI)).
Notation ind := (c_indentation cfg).
Notation nl := (c_newline cfg).
Notation shown := (string_of ops cfg).

Definition plain_word (x : str * (leaf LI E * doc)) : src_word LI E := mk_src_word (fst (snd x)) 0 (length (fst x)).
Lemma plain_row (more : list (nat * (str * (leaf LI E * doc)))) : forall p,
  map fst (row_tokens p (map (fun '(g, x) => (g, plain_word x)) more)) =
    map fst (@more_tokens unit unit (p_line p) (p_col p) (map (fun '(g, x) => (g, fst x)) more)) /\
  p_line (row_end p (map (fun '(g, x) => (g, plain_word x)) more)) = p_line p /\
  map snd (row_tokens p (map (fun '(g, x) => (g, plain_word x)) more)) = map (fun x => fst (snd x)) (map snd more).
Proof.
  induction more as [|[g [w [l d]]] more IH]; intros p; [auto|]. cbn [map row_tokens row_end more_tokens fst snd]. cbv zeta.
  set (c := src_cursor _ _ _). destruct (IH (c_end c)) as (H1 & H2 & H3). cbn [c_end c src_cursor plain_word sw_rows sw_width Nat.eqb fst snd p_line p_col] in *.
  rewrite H1, H2, H3. auto.
Qed.
Lemma plain_tokens (ls : list (line_of (str * (leaf LI E * doc)))) : forall row ls2, map to_line ls2 = map (map_line fst) ls ->
  map fst (word_tokens row (map (map_line plain_word) ls)) = map fst (@source_tokens unit unit row ls2) /\
  map snd (word_tokens row (map (map_line plain_word) ls)) = map (fun x => fst (snd x)) (flat_map words_of ls).
Proof.
  induction ls as [|[em col [w [l d]] more] ls IH]; intros row [|l2 ls2] M; try discriminate; [auto|]. 
  destruct l2 as [em2 col2 w2 more2]. unfold to_line at 1, map_line at 1 in M. cbn in M. injection M as -> -> -> -> M.
  cbn [map map_line word_tokens source_tokens ln_empty ln_col ln_word ln_more sl_empty sl_col sl_word sl_more flat_map words_of]. cbv zeta.
  set (c := src_cursor _ _ _). destruct (plain_row more (c_end c)) as (P1 & P2 & P3). rewrite !map_app. cbn [map fst snd app]. rewrite P1, P2, P3.
  destruct (IH (S (p_line (c_end c))) ls2 M) as [H1 H2]. rewrite H1, H2. cbn [c c_end src_cursor plain_word sw_rows sw_width Nat.eqb fst snd p_line p_col sw_leaf]. auto.
Qed.
Lemma as_source_line (d : line_of doc) : to_line (as_source ops cfg d) = map_line shown d.
Proof. destruct d; reflexivity. Qed.
Lemma to_line_inj a b : to_line a = to_line b -> a = b.
Proof. destruct a, b. unfold to_line. cbn. intros H. injection H as -> -> -> ->. reflexivity. Qed.
Lemma map_to_line_inj a : forall b, map to_line a = map to_line b -> a = b.
Proof. induction a as [|x a IH]; intros [|y b] H; try discriminate; [reflexivity|]. cbn in H. assert (H1 : to_line x = to_line y) by congruence. apply to_line_inj in H1. f_equal; [exact H1|]. apply IH. congruence. Qed.
Lemma map_line_same {A B} (f g : A -> B) (ls : list (line_of A)) : (forall x, In x (flat_map words_of ls) -> f x = g x) -> map (map_line f) ls = map (map_line g) ls.
Proof.
  intros H. apply map_ext_in. intros [em c w m] L. unfold map_line. cbn [ln_empty ln_col ln_word ln_more].
  assert (K : forall x, In x (w :: map snd m) -> f x = g x) by (intros x X; apply H; apply in_flat_map; eexists; split; [exact L|exact X]).
  f_equal; [apply K; left; reflexivity|]. apply map_ext_in. intros [k x] X. f_equal. apply K. right. apply in_map_iff. exists (k, x). auto.
Qed.
Lemma map_same_in {A B} (f g : A -> B) xs : map f xs = map g xs -> forall x, In x xs -> f x = g x.
Proof. induction xs as [|y xs IH]; intros H x X; [destruct X|]. cbn in H. injection H as H1 H. destruct X as [<-|X]; auto. Qed.
Lemma all_show_length (xs : list (leaf LI E)) : forall e0 ds0 e0', all_show ops cfg xs e0 ds0 e0' -> length ds0 = length xs.
Proof. induction xs as [|x xs IH]; intros e0 [|d ds0] e0' H; try (reflexivity || contradiction). destruct H as (e1 & _ & H). cbn. f_equal. eapply IH; eauto. Qed.
Lemma pieces_solid w ps : pieces w ps -> Forall solid ps.
Proof. induction 1; constructor; auto. Qed.

Lemma quoted_again (L : list src_line) (qs2 : list (quoted_item LI E)) row2 parts e2 ds2 e2' :
  Forall2 pieces (line_words L) parts ->
  written (mk_pos row2 0) (join nl (output_lines ind [] L)) (combine (map fst (all_tokens qs2)) (concat parts)) ->
  length (concat parts) = length (all_tokens qs2) ->
  all_show ops cfg (map snd (all_tokens qs2)) e2 ds2 e2' -> Forall (inline ops cfg) ds2 -> map shown ds2 = concat parts ->
  exists t2, quote qs2 e2 = Some (e2', t2) /\
  outcome (format_items ops cfg string_writer (items t2) (formatter_new [])) = (join nl (output_lines ind [] L), true).
Proof.
  intros P W LEN A I SH. destruct (pieces_again ind L [] parts P) as (ls2 & AG & LW).
  assert (LT : length (map fst (all_tokens qs2)) = length (concat parts)) by (rewrite map_length; lia).
  assert (SO : Forall solid (concat parts)).
  { clear -P. induction P as [|w ps ws parts P _ IH]; [constructor|]. cbn. apply Forall_app. split; [eapply pieces_solid; eauto|exact IH]. }
  apply (written_output ind nl NL L ls2 row2) in W; [|exact AG|rewrite (comb_snd _ _ LT); auto|].
  2:{ apply Forall_forall. intros x X. apply (in_map snd) in X. rewrite (comb_snd _ _ LT) in X. rewrite Forall_forall in SO. auto. }
  rewrite (comb_fst _ _ LT) in W. pose proof (all_show_length _ _ _ _ A) as LD. rewrite map_length in LD.
  destruct (fill_lines (map to_line ls2) (combine (map snd (all_tokens qs2)) ds2)) as (ls' & F1 & F2).
  { rewrite combine_length, map_length. unfold line_words in LW. rewrite LW. lia. }
  assert (LX : length (map snd (all_tokens qs2)) = length ds2) by (rewrite map_length; lia).
  destruct (plain_tokens ls' row2 ls2 (eq_sym F1)) as [T1 T2].
  assert (LF : map (fun x => fst (snd x)) (flat_map words_of ls') = map snd (all_tokens qs2)) by (rewrite <- map_map, F2; apply comb_fst; exact LX).
  assert (DF : map (fun x => snd (snd x)) (flat_map words_of ls') = ds2) by (rewrite <- map_map, F2; apply comb_snd; exact LX).
  assert (WF : map fst (flat_map words_of ls') = concat parts) by (rewrite <- words_map, F1; exact LW).
  assert (AT : all_tokens qs2 = word_tokens row2 (map (map_line plain_word) ls')).
  { assert (U : forall a b : list (cursor * leaf LI E), map fst a = map fst b -> map snd a = map snd b -> a = b).
    { clear. induction a as [|[x y] a IH]; intros [|[x' y'] b] H1 H2; try discriminate; [reflexivity|]. cbn in H1, H2. injection H1 as -> H1. injection H2 as -> H2. f_equal. auto. }
    apply U; [rewrite T1; exact W|rewrite T2, LF; reflexivity]. }
  set (dl := map (map_line (fun x => snd (snd x))) ls').
  assert (DW : flat_map words_of dl = ds2) by (unfold dl; rewrite words_map; exact DF).
  assert (SRC : map (as_source ops cfg) dl = ls2).
  { apply map_to_line_inj. rewrite <- F1. rewrite map_map. unfold dl. rewrite map_map.
    transitivity (map (map_line (fun x : str * (leaf LI E * doc) => shown (snd (snd x)))) ls').
    - apply map_ext. intros l. rewrite as_source_line. apply map_map_line.
    - apply map_line_same. apply map_same_in. rewrite <- (map_map (fun x => snd (snd x)) shown), DF, SH, WF. reflexivity. }
  destruct (words_render ops cfg qs2 row2 (map (map_line plain_word) ls') dl e2 e2' AT) as (t & Q & O & _).
  - intros before col after X N. apply (again_fit ind L ls2 AG before col after); [|exact N]. rewrite <- X, <- SRC. unfold dl. rewrite !map_map. reflexivity.
  - split; [unfold dl; rewrite !map_map; apply map_ext; intros l; rewrite !map_map_line; reflexivity|]. split.
    + rewrite DW, words_map, map_map. cbn [plain_word sw_leaf]. exact (eq_ind_r (fun z => all_show ops cfg z e2 ds2 e2') A LF).
    + apply all_closed. rewrite DW. exact I.
  - exists t. split; [exact Q|]. rewrite O. rewrite <- (again_output ind L ls2 [] [] AG eq_refl), <- SRC, <- inline_lines; [reflexivity|].
    unfold docs_ok. rewrite DW. apply all_show_visible in A. rewrite Forall_forall in *. auto.
Qed.

(** The output of a quote of text as lines. *)
Lemma quote_lines (qs : list (quoted_item LI E)) p s ws e ds e' :
  written p s (combine (map fst (all_tokens qs)) ws) -> length ws = length (all_tokens qs) -> starts_fit (map fst (all_tokens qs)) ->
  all_show ops cfg (map snd (all_tokens qs)) e ds e' -> Forall (inline ops cfg) ds ->
  exists t L, quote qs e = Some (e', t) /\ line_words L = map shown ds /\
    outcome (format_items ops cfg string_writer (items t) (formatter_new [])) = (join nl (output_lines ind [] L), true).
Proof.
  intros W L F A N. pose proof (all_show_length _ _ _ _ A) as LL. rewrite map_length in LL.
  destruct (written_first _ _ _ W) as [[Z WS]|(b & q & w & s' & toks & -> & B & WN & TK & W')].
  - destruct (all_tokens qs) as [|[c x] ts] eqn:AT; [|destruct ws; discriminate]. destruct ws; [|discriminate]. destruct ds; [|discriminate].
    cbn [map all_show] in A. subst e'.
    destruct (words_render ops cfg qs 0 [] [] e e) as (t & Q & O & _); [exact AT|intros ? ? ? X; destruct before; discriminate|split; [reflexivity|split; reflexivity]|].
    exists t, []. auto.
  - destruct (all_tokens qs) as [|[c x] ts] eqn:AT; [discriminate|]. destruct ws as [|w0 ws]; [discriminate|]. destruct ds as [|d ds]; [discriminate|].
    cbn [map fst combine] in TK. injection TK as -> <- <-. cbn [length] in L, LL.
    destruct (written_lines _ _ _ W' (advance q w0) [] (combine (map snd ts) ds)) as (more & ls & T1 & T2 & T3 & T4); [constructor|reflexivity|
      rewrite !combine_length, !map_length; lia|].
    set (l := mk_line_of 0 (p_col q) (the_word q w0 x, d) more).
    assert (LT : length (map fst ts) = length ws) by (rewrite map_length; lia).
    assert (LX : length (map snd ts) = length ds) by (rewrite map_length; lia).
    rewrite (comb_fst _ _ LT) in T1, T3. rewrite (comb_fst _ _ LX) in T1.
    assert (LN : flat_map words_of (l :: ls) = (the_word q w0 x, d) :: map snd more ++ flat_map words_of ls) by reflexivity.
    assert (T2' : map (fun y => (sw_leaf (fst y), snd y)) (map snd more ++ flat_map words_of ls) = combine (map snd ts) ds).
    { rewrite <- T2, map_app, map_map. f_equal; [apply map_ext; intros [g y]; reflexivity|]. clear. induction ls as [|l0 ls IH]; [reflexivity|].
      cbn [flat_map]. rewrite map_app, IH. reflexivity. }
    assert (WL : map sw_leaf (flat_map words_of (map (map_line fst) (l :: ls))) = x :: map snd ts).
    { rewrite words_map, LN, map_map. cbn [map fst the_word sw_leaf]. f_equal. rewrite <- (comb_fst _ _ LX), <- T2', map_map. reflexivity. }
    assert (WD : flat_map words_of (map (map_line snd) (l :: ls)) = d :: ds).
    { rewrite words_map, LN. cbn [map snd]. f_equal. rewrite <- (comb_snd _ _ LX), <- T2', map_map. reflexivity. }
    destruct (words_render ops cfg qs (p_line q) (map (map_line fst) (l :: ls)) (map (map_line snd) (l :: ls)) e e') as (t & Q & O & _).
    + rewrite AT. unfold l. cbn [map map_line ln_empty ln_col ln_word ln_more fst word_tokens]. cbv zeta. rewrite Nat.add_0_r, word_at. cbn [c_end].
      f_equal. fold (source_more more). rewrite <- T1. symmetry. clear. induction ts as [|[a b] ts IH]; [reflexivity|]. cbn. f_equal. exact IH.
    + unfold lines_fit. intros before col after X. apply (F before col after). rewrite <- X. unfold l. cbn [map fst line_starts c_start c_end map_line ln_col].
      rewrite <- T3. f_equal. rewrite map_map. reflexivity.
    + split; [rewrite !map_map; apply map_ext; intros [a1 a2 a3 a4]; unfold map_line; cbn; f_equal; rewrite !map_map; apply map_ext; intros [g y]; reflexivity|].
      split; [rewrite WL, WD; exact A|]. apply all_closed. rewrite WD. exact N.
    + exists t, (map (as_source ops cfg) (map (map_line snd) (l :: ls))). split; [exact Q|]. split.
      * unfold line_words. rewrite map_map, (map_ext _ _ as_source_line), words_map, WD. reflexivity.
      * rewrite O, <- inline_lines; [reflexivity|]. unfold docs_ok. rewrite WD. apply all_show_visible in A. rewrite Forall_forall in *. auto.
Qed.
End Quote.
