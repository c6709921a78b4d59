(** * Lemmas: the blocks of an assembled program. *)
From Coq Require Import Lia.
From Verif Require Import Str Values Fmt SpecFmt Macro SpecMacro MacroLines SpecOffside OffsideFacts SpecAssembled SpecOutline.

Section Outline.
Context (nl : str) (ind : indentation_kind) (Ind : indents ind).
Notation w := (width ind).
Notation pad n := (indent_text ind (Z.of_nat n)).

(** From one level to another. *)
Definition shifts (n : nat) (es : list event) (n' : nat) : Prop :=
  es = [Indent] /\ n' = S n \/ exists k, es = repeat Dedent k /\ n = k + n'.

(** Marks and the text they stand for, which starts on a line that is [p] levels deeper
    than [n] and ends on one that is [p'] levels deeper than [n']. *)
Inductive laid : nat -> nat -> list mark -> nat -> nat -> str -> Prop :=
| laid_end n p : laid n p [] n p []
| laid_text n p a m n' p' s : laid n p m n' p' s -> laid n p (Text a :: m) n' p' (a ++ s)
| laid_close n p m n' p' s : laid n (S p) m n' p' s -> laid (S n) p (Close :: m) n' p' s
| laid_line n p (b : bool) es n1 m n' p' s : shifts n es n1 -> p = 0 \/ (exists k, es = repeat Dedent k) -> laid n1 0 m n' p' s ->
    laid n p (NewLine :: map Block es ++ m) n' p' ((if b then nl else []) ++ nl ++ pad n1 ++ s).

Lemma laid_app a n p n1 p1 s : laid n p a n1 p1 s -> forall b n2 p2 s', laid n1 p1 b n2 p2 s' -> laid n p (a ++ b) n2 p2 (s ++ s').
Proof.
  induction 1 as [n p|n p a m n' p' s _ IH|n p m n' p' s _ IH|n p bl es n1 m n' p' s S D _ IH]; intros b n2 p2 s' H.
  - exact H.
  - cbn [app]. rewrite <- app_assoc. constructor. apply IH. exact H.
  - cbn [app]. constructor. apply IH. exact H.
  - cbn [app]. rewrite <- !app_assoc. constructor; [exact S|exact D|]. apply IH. exact H.
Qed.
Lemma laid_one n p a : laid n p [Text a] n p a.
Proof. rewrite <- (app_nil_r a) at 2. constructor. constructor. Qed.
Lemma laid_closes k : forall n p, laid (n + k) p (repeat Close k) n (k + p) [].
Proof.
  induction k as [|k IH]; intros n p; [rewrite Nat.add_0_r; constructor|]. cbn [repeat]. rewrite Nat.add_succ_r. constructor.
  replace (S k + p) with (k + S p) by lia. apply IH.
Qed.
Lemma laid_break n p (b : bool) : laid n p [NewLine] n 0 ((if b then nl else []) ++ new_line_at nl ind n).
Proof.
  unfold new_line_at. rewrite <- (app_nil_r (pad n)). change [NewLine] with (NewLine :: map Block [] ++ []).
  constructor; [right; exists 0; auto|right; exists 0; reflexivity|constructor].
Qed.

(** ** Words *)
(** A word, its text, and how much deeper it ends; its marks. *)
Definition pair_laid (a : cursor * ((nat -> str) * nat)) (b : cursor * option (list mark)) : Prop :=
  fst a = fst b /\ forall m, snd b = Some m -> forall n, laid n 0 m n (snd (snd a)) (fst (snd a) n).
Notation texts_of := (map (fun a : cursor * ((nat -> str) * nat) => (fst a, fst (snd a)))).
Notation depths_of := (map (fun a : cursor * ((nat -> str) * nat) => (fst a, snd (snd a)))).

Lemma following_laid lt lm : Forall2 pair_laid lt lm -> forall n before c0 p m o, before <> [] ->
  ends_from (last before 0) ((c0, p) :: depths_of lt) ->
  following_marks (enclosing before) (c_end c0) lm = Some (m, o) ->
  exists ss, ss = before ++ starts_after (p_line (c_end c0)) (map fst lt) /\ o = enclosing ss /\
    laid (n + level before) p m (n + level ss) (last (p :: map snd (depths_of lt)) 0) (following nl ind n before (c_end c0) (texts_of lt)).
Proof.
  induction 1 as [|[c [f k]] [c' wm] lt lm [EC P] _ IH]; intros n before c0 p m o NB EN H; cbn [following_marks] in H.
  - injection H as <- <-. exists before. cbn [map starts_after]. rewrite app_nil_r. split; [reflexivity|]. split; [reflexivity|]. constructor.
  - cbn [fst snd] in *. subst c'. cbn [map fst snd following starts_after]. cbn [map fst snd ends_from] in EN.
    rewrite (Nat.eqb_sym (p_line (c_end c0))). destruct (p_line (c_start c) =? p_line (c_end c0)).
    + destruct wm as [wm|]; [|discriminate]. destruct (following_marks (enclosing before) (c_end c) lm) as [[m1 o1]|] eqn:F; [|discriminate]. injection H as <- <-.
      destruct EN as [-> EN]. destruct (IH n before c k m1 o1 NB EN F) as (ss & -> & -> & L). eexists. split; [reflexivity|]. split; [reflexivity|]. cbn [app].
      eapply laid_app; [|eapply laid_app; [apply P; reflexivity|exact L]]. destruct (p_col (c_start c) =? p_col (c_end c0)); [constructor|apply laid_one].
    + pose proof (start_enclosing before (p_col (c_start c)) NB) as SE. destruct (start_line (p_col (c_start c)) (enclosing before)) as [[es o0]|]; [|discriminate].
      destruct SE as (_ & -> & SH). destruct wm as [wm|]; [|discriminate].
      destruct (following_marks (enclosing (before ++ [p_col (c_start c)])) (c_end c) lm) as [[m1 o1]|] eqn:F; [|discriminate]. injection H as <- <-.
      assert (NB' : before ++ [p_col (c_start c)] <> []) by (destruct before; discriminate). destruct EN as [EP EN].
      assert (EN' : ends_from (last (before ++ [p_col (c_start c)]) 0) ((c, k) :: depths_of lt)) by (rewrite last_last; exact EN).
      destruct (IH n _ c k m1 o1 NB' EN' F) as (ss & -> & -> & L). eexists. split; [reflexivity|]. rewrite <- app_assoc in *. split; [reflexivity|]. unfold new_line_at. rewrite <- app_assoc.
      assert (B : (if p_line (c_start c) =? S (p_line (c_end c0)) then [] else nl) = if negb (p_line (c_start c) =? S (p_line (c_end c0))) then nl else [])
        by (destruct (p_line (c_start c) =? S (p_line (c_end c0))); reflexivity).
      rewrite B. constructor.
      * destruct SH as [(_ & -> & E)|(_ & j & -> & E)]; [left; split; [reflexivity|lia]|right; exists j; split; [reflexivity|lia]].
      * destruct SH as [(LT & _)|(_ & j & -> & _)]; [left; destruct EP as [EP|EP]; [exact EP|lia]|right; eauto].
      * eapply laid_app; [apply P; reflexivity|exact L].
Qed.
Definition depths_fit (lt : list (cursor * ((nat -> str) * nat))) : Prop :=
  match lt with [] => True | a :: _ => ends_from (p_col (c_start (fst a))) (depths_of lt) end.
Lemma words_laid lt lm m o n : Forall2 pair_laid lt lm -> depths_fit lt -> words_marks lm = Some (m, o) ->
  length o - 1 = level (line_starts (map fst lt)) /\
  laid n 0 m (n + (length o - 1)) (last (map snd (depths_of lt)) 0) (words_text nl ind n (texts_of lt)).
Proof.
  intros F D H. destruct F as [|[c [f k]] [c' wm] lt lm [EC P] F]; [discriminate|]. cbn [fst snd words_marks words_text depths_fit map line_starts] in *. subst c'.
  destruct wm as [wm|]; [|discriminate]. destruct (following_marks [p_col (c_start c)] (c_end c) lm) as [[m1 o1]|] eqn:FM; [|discriminate]. injection H as <- <-.
  destruct (following_laid _ _ F n [p_col (c_start c)] c k m1 o1 ltac:(discriminate) D FM) as (ss & SS & -> & L). cbn [level app] in L, SS. rewrite !Nat.add_0_r in L.
  assert (NS : ss <> []) by (rewrite SS; discriminate). rewrite level_enclosing by exact NS. rewrite Nat.sub_succ, Nat.sub_0_r. split; [rewrite SS; reflexivity|].
  eapply laid_app; [apply P; reflexivity|exact L].
Qed.
Lemma inner_laid lt lm m n : Forall2 pair_laid lt lm -> depths_fit lt -> inner_marks lm = Some m ->
  laid n 0 m n (level (line_starts (map fst lt)) + last (map snd (depths_of lt)) 0) (words_text nl ind n (texts_of lt)).
Proof.
  intros F D H. unfold inner_marks in H. destruct (words_marks lm) as [[m1 o]|] eqn:W; [|discriminate]. injection H as <-.
  destruct (words_laid _ _ _ _ n F D W) as [LV L]. rewrite <- (app_nil_r (words_text _ _ _ _)), <- LV. eapply laid_app; [exact L|apply laid_closes].
Qed.
Lemma separator_laid sep n p : p = 0 \/ (exists k, s_then sep = Some k /\ k <> KSpace) -> laid n p (separator_marks sep) n 0 (separator_text nl ind n sep).
Proof.
  destruct sep as [b t k]. unfold separator_marks, separator_text. cbn [s_space s_text s_then]. intros H. eapply laid_app; [destruct b; [apply laid_one|constructor]|]. constructor.
  destruct k as [[| |]|]; cbn [control_text]; [|apply (laid_break n p false)|apply (laid_break n p true)|];
    (assert (p = 0) as -> by (destruct H as [H|(? & H & ?)]; [assumption|congruence])); [apply laid_one|constructor].
Qed.
Lemma joined_laid sep n (ts : list (str * nat)) (ms : list (option (list mark))) :
  Forall2 (fun t m => (snd t = 0 \/ (exists k, s_then sep = Some k /\ k <> KSpace)) /\ forall x, m = Some x -> laid n 0 x n (snd t) (fst t)) ts ms ->
  forall m, joined_marks (separator_marks sep) ms = Some m -> laid n 0 m n (last (map snd ts) 0) (join (separator_text nl ind n sep) (map fst ts)).
Proof.
  induction 1 as [|[t k] x ts ms [D P] F IH]; intros m H; [injection H as <-; constructor|].
  destruct F as [|[t2 k2] x2 ts ms P2 F]; [apply P; exact H|]. cbn [fst snd] in D, P. cbn [joined_marks] in H, IH. destruct x as [x|]; [|discriminate].
  destruct (match ms with [] => x2 | _ => _ end) as [m'|] eqn:J; [|discriminate]. injection H as <-.
  change (join (separator_text nl ind n sep) (map fst ((t, k) :: (t2, k2) :: ts))) with (t ++ separator_text nl ind n sep ++ join (separator_text nl ind n sep) (map fst ((t2, k2) :: ts))).
  change (last (map snd ((t, k) :: (t2, k2) :: ts)) 0) with (last (map snd ((t2, k2) :: ts)) 0).
  eapply laid_app; [apply P; reflexivity|]. eapply laid_app; [apply separator_laid; exact D|]. apply IH. reflexivity.
Qed.

(** Pieces that end deeper are the last of their lines, rounds that end deeper have a new
    line after them. *)
Definition all_of (l : list Prop) : Prop := fold_right and True l.
Fixpoint sound {LI} (x : piece LI) : Prop :=
  match x with
  | Fragment l => ends_fit l /\ all_of (map (fun y => sound (snd (snd y))) l)
  | Rounds sep ls => all_of (map (fun l => (program_depth l = 0 \/ (exists k, s_then sep = Some k /\ k <> KSpace)) /\ ends_fit l /\ all_of (map (fun y => sound (snd (snd y))) l)) ls)
  | _ => True
  end.

Section Pieces.
Context {LI : Type} (literal : str -> str) (reference : LI -> str).
Notation with_depth := (fun '(c, (w, x)) => (c, (piece_text nl ind literal reference w x, @piece_depth LI x))).
Notation marked := (fun '(c, (w, x)) => (c, @piece_marks LI literal reference w x)).
Lemma with_texts (l : program LI) : map (fun '(c, (w, x)) => (c, piece_text nl ind literal reference w x)) l = texts_of (map with_depth l).
Proof. rewrite map_map. apply map_ext. intros [c [wd x]]. reflexivity. Qed.
Lemma with_fit (l : program LI) : ends_fit l -> depths_fit (map with_depth l).
Proof.
  destruct l as [|[c [wd x]] l]; [auto|]. unfold ends_fit, depths_fit. cbn [map fst snd]. rewrite map_map. intros H.
  replace (map (fun x0 => _) l) with (map (fun y : cursor * (str * piece LI) => (fst y, piece_depth (snd (snd y)))) l); [exact H|]. apply map_ext. intros [c' [wd' x']]. reflexivity.
Qed.
Lemma with_level (l : program LI) : level (line_starts (map fst (map with_depth l))) + last (map snd (depths_of (map with_depth l))) 0 = program_depth l.
Proof.
  unfold program_depth. cbn [piece_depth]. rewrite !map_map. f_equal.
  - do 2 f_equal. apply map_ext. intros [c [wd x]]. reflexivity.
  - f_equal. apply map_ext. intros [c [wd x]]. reflexivity.
Qed.
Lemma piece_laid : forall (x : piece LI), sound x -> forall wd m, piece_marks literal reference wd x = Some m ->
  forall n, laid n 0 m n (piece_depth x) (piece_text nl ind literal reference wd x n).
Proof.
  fix IH 1. intros [|v|v|i|l|sep ls] SO wd m H n; cbn [piece_marks piece_text] in *.
  - injection H as <-. apply laid_one.
  - injection H as <-. apply laid_one.
  - injection H as <-. apply laid_one.
  - injection H as <-. apply laid_one.
  - cbn [sound] in SO. destruct SO as [EF SO]. change (piece_depth (Fragment l)) with (program_depth l). rewrite with_texts, <- with_level.
    revert H. apply inner_laid; [|apply with_fit; exact EF]. clear -IH Ind SO. induction l as [|[c [w' x]] l IHl]; constructor; [|apply IHl; exact (proj2 SO)].
    split; [reflexivity|]. cbn [snd fst]. intros m. apply IH. exact (proj1 SO).
  - change (piece_depth (Rounds sep ls)) with (last (map program_depth ls) 0). cbn [sound] in SO.
    set (tx := fun l : program LI => words_text nl ind n (map (fun '(c, (w, x)) => (c, piece_text nl ind literal reference w x)) l)).
    replace (map program_depth ls) with (map snd (map (fun l => (tx l, program_depth l)) ls)) by (rewrite map_map; reflexivity).
    change (laid n 0 m n (last (map snd (map (fun l => (tx l, program_depth l)) ls)) 0) (join (separator_text nl ind n sep) (map tx ls))).
    replace (map tx ls) with (map fst (map (fun l => (tx l, program_depth l)) ls)) by (rewrite map_map; reflexivity).
    revert m H. apply joined_laid. clear -IH Ind SO. induction ls as [|l ls IHls]; constructor; [|apply IHls; exact (proj2 SO)].
    destruct SO as [(PD & EF & SO) _]. split; [exact PD|]. intros m H. subst tx. cbn [fst snd]. rewrite with_texts, <- with_level.
    apply (inner_laid (map with_depth l) (map marked l) m n); [|apply with_fit; exact EF|exact H]. clear -IH Ind SO. induction l as [|[c [w' x]] l IHl]; constructor; [|apply IHl; exact (proj2 SO)].
    split; [reflexivity|]. cbn [snd fst]. intros m. apply IH. exact (proj1 SO).
Qed.
End Pieces.

(** ** Lines *)
Lemma start_shifts n es n' : shifts n es n' -> start_line (w * n') (outs w (S n)) = Some (es, outs w (S n')).
Proof.
  pose proof (width_pos ind Ind) as W. intros [(-> & ->)|(k & -> & ->)].
  - cbn [start_line outs]. destruct (Nat.ltb_spec (w * n) (w * S n)); [reflexivity|nia].
  - pose proof (start_open ind Ind k n' [] (Forall_nil _)) as H. cbn [app map length Nat.add] in H. rewrite Nat.add_0_r in H. exact H.
Qed.

Lemma read_blocks es : forall line k m, read_marks line k (map Block es ++ m) = es ++ read_marks line k m.
Proof. induction es as [|e es IH]; intros line k m; [reflexivity|]. cbn. rewrite IH. reflexivity. Qed.

Lemma laid_lines n p m n' p' s : laid n p m n' p' s -> forall n0 es0 acc, shifts n0 es0 (n + p) -> Forall proper_event (read_marks acc p m) ->
  exists ls, ls <> [] /\ pad (n + p) ++ acc ++ s = join nl ls /\ Forall (fun l => ~ In 10%N l /\ ~ In 13%N l) ls /\
    blocks (outs w (S n0)) (map (columns 0) ls) = Some (es0 ++ read_marks acc p m ++ repeat Dedent n').
Proof.
  induction 1 as [n p|n p a m n' p' s _ IH|n p m n' p' s _ IH|n p b es n1 m n' p' s SH D _ IH]; intros n0 es0 acc S0 P.
  - cbn [read_marks] in *. inversion P as [|? ? P1 _]; subst. cbn in P1. exists [pad (n + p) ++ acc]. split; [discriminate|]. split; [rewrite app_nil_r; reflexivity|]. split.
    + constructor; [|constructor]. apply (indented_no_break ind Ind). right. eauto.
    + cbn [map]. rewrite columns_indented by exact P1. cbn [blocks]. rewrite plain_counts by exact P1. rewrite (start_shifts _ _ _ S0). cbn [option_map]. rewrite outs_length.
      rewrite Nat.sub_succ, Nat.sub_0_r, Nat.add_comm, repeat_app. reflexivity.
  - cbn [read_marks] in *. destruct (IH n0 es0 (acc ++ a) S0 P) as (ls & N & T & U & B). exists ls. split; [exact N|]. split; [|split; [exact U|exact B]].
    rewrite <- T, <- app_assoc. reflexivity.
  - cbn [read_marks] in *. rewrite Nat.add_succ_comm in *. exact (IH n0 es0 acc S0 P).
  - cbn [read_marks] in *. rewrite read_blocks in *. inversion P as [|? ? P1 P2]; subst. cbn in P1. apply Forall_app in P2 as [_ P2]. apply Forall_app in P2 as [_ P2].
    assert (S1 : shifts (n + p) (repeat Dedent p ++ es) (n1 + 0)).
    { rewrite Nat.add_0_r. destruct D as [->|(k & ->)]; [rewrite Nat.add_0_r; exact SH|]. right. exists (p + k). rewrite repeat_app. split; [reflexivity|].
      destruct SH as [(E1 & E2)|(k' & E1 & E2)].
      - destruct k as [|[|k]]; discriminate.
      - assert (k = k') by (rewrite <- (repeat_length Dedent k), E1; apply repeat_length). lia. }
    destruct (IH (n + p) _ [] S1 P2) as (ls & N & T & U & B). cbn [app] in T. rewrite Nat.add_0_r in T.
    exists ((pad (n + p) ++ acc) :: (if b then [[]] else []) ++ ls). split; [discriminate|]. split; [|split].
    + rewrite T. destruct ls as [|x ls]; [congruence|]. destruct b; cbn [app join]; rewrite <- ?app_assoc; reflexivity.
    + constructor; [apply (indented_no_break ind Ind); right; eauto|]. apply Forall_app. split; [destruct b; repeat constructor; intros []|exact U].
    + cbn [map]. rewrite columns_indented by exact P1. cbn [blocks]. rewrite plain_counts by exact P1. rewrite (start_shifts _ _ _ S0).
      assert (B' : blocks (outs w (S (n + p))) (map (columns 0) ((if b then [[]] else []) ++ ls)) = Some ((repeat Dedent p ++ es) ++ read_marks [] 0 m ++ repeat Dedent n')) by (destruct b; exact B).
      rewrite B'. cbn [option_map]. cbn [app]; rewrite <- ?app_assoc. reflexivity.
Qed.

Context {LI : Type} (literal : str -> str) (reference : LI -> str).
Lemma outline_lines (l : program LI) es : sound (Fragment l) -> program_blocks literal reference l = Some es -> Forall proper_event es ->
  exists ls, ls <> [] /\ program_text nl ind literal reference 0 l = join nl ls /\ Forall (fun l => ~ In 10%N l /\ ~ In 13%N l) ls /\
    python_lines ls = Some es.
Proof.
  unfold program_blocks, program_text. intros [EF SO] H P. destruct (words_marks _) as [[m o]|] eqn:W; [|discriminate]. injection H as <-. apply Forall_app in P as [P _].
  rewrite with_texts.
  assert (F : Forall2 pair_laid (map (fun '(c, (w, x)) => (c, (piece_text nl ind literal reference w x, piece_depth x))) l) (map (fun '(c, (w, x)) => (c, piece_marks literal reference w x)) l)).
  { clear -SO Ind. induction l as [|[c [wd x]] l IH]; constructor; [|apply IH; exact (proj2 SO)]. split; [reflexivity|]. cbn [snd fst]. apply piece_laid. exact (proj1 SO). }
  destruct (words_laid _ _ _ _ 0 F (with_fit literal reference l EF) W) as [_ L]. cbn [Nat.add] in L.
  destruct (laid_lines _ _ _ _ _ _ L 0 [] [] (or_intror (ex_intro _ 0 (conj eq_refl eq_refl))) P) as (ls & N & T & U & B). exists ls. split; [exact N|]. split; [|split; [exact U|]].
  - rewrite <- T. unfold indent_text. destruct ind; cbn; rewrite ?Nat.mul_0_r; reflexivity.
  - unfold python_lines. replace [0] with (outs w 1) by (cbn; rewrite Nat.mul_0_r; reflexivity). exact B.
Qed.
End Outline.
